(** C67: the cost of growth of concurrent containers. Vocabulary in ConcGrowSpec.v: [calls c P d C0 i m C]: an execution from C0 to C, with any number of threads and in any interleaving, in which no
    operation on whole containers takes effect; i elements are inserted into container d, and m elements of d are moved to another array, meanwhile; P holds in all states. *)
From Coq Require Import NArith Bool List Arith Lia.
From Verif Require Properties_Conc.
From Verif Require Import SizeModel SizeProofs GroupModel FoaModel FoaArr FoaRehash FoaSpec FoaWorld FoaExamples FoaGrow FoaGrow2 ConcSpec ConcModel ConcInv ConcSys ConcSys2 ConcProps ConcVisit ConcExec ConcWrap ConcExamples ConcCap ConcGrowSpec ConcGrow.
Import ListNotations.
Local Open Scope N_scope.
Section P.
Context {K V : Type} (c : Cfg K V).
Hypothesis HC : good_cfg c.
Notation run := (runs_with c counters_fit).
Notation conf := (@conf K V).
(** executions stay executions, hence the invariant *)
Lemma calls_ginv (P : conf -> Prop) n es d C0 i m C : run n es C0 -> calls c P d C0 i m C -> calls c (fun C => P C /\ GInv c C) d C0 i m C.
Proof.
  intros R S. induction S as [P0|i m C e C' S IH St W F Pc]; [apply c_nil; split; [exact P0|exact (Properties_Conc.run_inv c HC _ _ _ R)]|].
  eapply c_step; eauto. split; [exact Pc|]. destruct (calls_run c P n es C0 d _ _ C R S) as [es' R']. exact (Properties_Conc.run_inv c HC _ _ _ (r_snoc _ _ _ _ _ _ _ R' St F)).
Qed.
(** Elements change place only in the rehash of a full container: in all other steps each element stays in its slot (its value may change), but for the one that the step erases *)
Theorem C67_elements_stay_unless_the_container_is_full : forall n es C e C' d, run n es C -> gstep c C e C' -> (forall t r, e <> Some (ELin t (AWhole r))) -> box C d <> None ->
  (rehashes d C C' = true /\ elements C d = max_load C d /\ existsb (inside d) (th C) = false) \/
  (bucket_count C' d = bucket_count C d /\
   ((forall i x, in_slot C d i x -> exists v, in_slot C' d i (fst x, v)) \/ (erases_from d C e = 1 /\ exists j, forall i x, i <> j -> in_slot C d i x -> in_slot C' d i x))).
Proof.
  intros n es C e C' d R St W Nb. destruct (box C d) as [s|] eqn:B; [|congruence]. pose proof (Properties_Conc.run_inv c HC _ _ _ R) as G.
  destruct (step_chg c HC C e C' d s G St W B) as [s1 s' er Nr Ee B1 B' Ec Hs L1 L2|s1 s' Rh Ee B1 B' H H' M M' Ef Es O O' Ai L Ei Ec|s1 s' Rh Ee B1 B' H H' M M' Ef Es O O' Ai L Ec]; rewrite B in B1; injection B1 as <-.
  - right. unfold bucket_count. rewrite B, B', Ec. split; [reflexivity|]. destruct Hs as (X & S0 & S1).
    assert (er = 0 \/ er = 1) as [E0|E1]; [|left|right].
    { rewrite Ee. unfold erases_from. destruct e as [[]|]; auto. destruct (nth_error (th C) t) as [[]|]; auto. destruct (Nat.eqb d0 d && erases_one (Some a)); cbn; auto. }
    + intros i x (s2 & B2 & G2). rewrite B in B2. injection B2 as <-. destruct (S0 E0 i x G2) as ([k v] & G3 & Ek). cbn in Ek. subst k. exists v, s'. auto.
    + split; [congruence|]. destruct (S1 E1) as (j & Hj). exists j. intros i x Nj (s2 & B2 & G2). rewrite B in B2. injection B2 as <-. exists s'. split; [exact B'|auto].
  - left. split; [exact Rh|]. split; [unfold max_load; rewrite B; congruence|exact Ai].
  - left. split; [exact Rh|]. split; [unfold max_load; rewrite B; congruence|exact Ai].
Qed.
(** Growth is amortized: inserting i elements moves at most 62 elements for each of them, and once the elements that were there at the beginning; whatever the calls, the interleaving and the exceptions *)
Theorem C67_growth_is_amortized : forall n es C0 d i m C, run n es C0 -> box C0 d <> None -> existsb (on d) (th C0) = false -> calls c (fun _ => True) d C0 i m C -> m <= 62 * i + elements C0 d.
Proof.
  intros n es C0 d i m C R Nb No S. destruct (box C0 d) as [s0|] eqn:B; [|congruence]. pose proof (Properties_Conc.run_inv c HC _ _ _ R) as G.
  destruct (calls_cost c HC _ d C0 i m C s0 G (fun C p => proj2 p) B No (calls_ginv _ n es d C0 i m C R S)) as (s & _ & H & _). exact H.
Qed.
(** at most 3, if erasures never lower max_load() below that of a new array with as many buckets *)
Theorem C67_growth_without_drift_is_amortized : forall n es C0 d i m C, run n es C0 -> box C0 d <> None -> existsb (on d) (th C0) = false ->
  calls c (fun C => max_load C d = initial_max_load (bucket_count C d)) d C0 i m C -> m <= 3 * i + elements C0 d.
Proof.
  intros n es C0 d i m C R Nb No S. destruct (box C0 d) as [s0|] eqn:B; [|congruence]. pose proof (Properties_Conc.run_inv c HC _ _ _ R) as G.
  assert (forall C s, max_load C d = initial_max_load (bucket_count C d) /\ GInv c C -> box C d = Some s -> undiminished (tb s)) as U by (intros C1 s [U _] Bs; unfold max_load, bucket_count in U; rewrite Bs in U; exact U).
  destruct (calls_full c HC _ d C0 i m C s0 G (fun C p => proj2 p) U B No (calls_ginv _ n es d C0 i m C R S)) as (s & _ & _ & H & _). exact H.
Qed.
(** bucket_count() changes only in the rehash of a full container; then it at most doubles (up to the sentinel), and there is room for at least one 61st more elements *)
Theorem C67_growth_at_most_doubles : forall n es C e C' d, run n es C -> gstep c C e C' -> (forall t r, e <> Some (ELin t (AWhole r))) -> box C d <> None -> bucket_count C' d <> bucket_count C d ->
  elements C d = max_load C d /\ elements C' d = elements C d /\ bucket_count C' d <= N.max 29 (2 * bucket_count C d + 1) /\ elements C d + elements C d / 61 + 1 <= max_load C' d.
Proof.
  intros n es C e C' d R St W Nb Ne. destruct (box C d) as [s|] eqn:B; [|congruence]. pose proof (Properties_Conc.run_inv c HC _ _ _ R) as G.
  destruct (step_chg c HC C e C' d s G St W B) as [s1 s' er Nr Ee B1 B' Ec Hs L1 L2|s1 s' Rh Ee B1 B' H H' M M' Ef Es O O' Ai L Ei Ec|s1 s' Rh Ee B1 B' H H' M M' Ef Es O O' Ai L Ec]; rewrite B in B1; injection B1 as <-;
    unfold bucket_count, max_load in *; rewrite B, B' in *; [congruence| |congruence].
  split; [congruence|]. split; [congruence|]. split; [rewrite Ec; exact (growth_doubles c HC (tb s) H)|]. rewrite M. exact L.
Qed.
(** space: if the container never has more than p elements, bucket_count() is at most 7(p+3)/3, 29, or what it was at the beginning *)
Theorem C67_bucket_count_is_proportional_to_peak_size : forall p n es C0 d i m C, run n es C0 -> box C0 d <> None -> calls c (fun C => elements C d <= p) d C0 i m C ->
  bucket_count C d <= N.max (bucket_count C0 d) (N.max 29 (7 * (p + 3) / 3)).
Proof.
  intros p n es C0 d i m C R Nb S. destruct (box C0 d) as [s0|] eqn:B; [|congruence].
  destruct (calls_cap c HC _ d C0 i m C s0 p (fun C q => conj (proj2 q) (proj1 q)) B (calls_ginv _ n es d C0 i m C R S)) as (s & _ & H). exact H.
Qed.
End P.

(** *** a case: 29 insertions, then two threads find the container full. One of them rehashes, moving 29 elements; the other one does not. A third thread erases an element meanwhile *)
Fixpoint ins_all (ks : list N) (r : list move * @conf N N) := match ks with [] => r | k :: ks' => ins_all ks' (do_call 0 (ins1 k) r) end.
Definition at_full (l : @loc N N) := match l with LFull => true | _ => false end.
Definition g0 := then_ (MRet 0) (then_ (MWhole 0 0) (then_ (MWCall 0 (New 1 0 0 10)) ([], start 3))).
Definition g1 := ins_all (map N.of_nat (seq 0 29)) ([], snd g0).
Definition g2 := until 1 at_full (then_ (MCall 1 0 (ins1 101)) (until 0 at_full (then_ (MCall 0 0 (ins1 100)) g1))).
Definition g3 := then_ (MRet 0) (then_ (MRet 1) (until 1 never (until 0 never (do_call 2 (era1 3) (then_ (MFull 0 0) g2))))).
Definition C_new : conf := Eval vm_compute in snd g0.
Fixpoint playm (ms : list move) (C : @conf N N) (i m : N) : option (N * N * @conf N N) :=
  match ms with
  | [] => Some (i, m, C)
  | mv :: r => match do_move nothrow false mv C with
      | Some (e, C1) => if fitb C1 && match e with Some (ELin _ (AWhole _)) => false | _ => true end then playm r C1 (i + (elements C1 0 - elements C 0)) (m + moved 0 C e C1) else None
      | None => None end
  end.
Lemma playm_ok C0 : forall ms C i m i' m' C', calls wcfg (fun _ => True) 0 C0 i m C -> playm ms C i m = Some (i', m', C') -> calls wcfg (fun _ => True) 0 C0 i' m' C'.
Proof.
  induction ms as [|mv ms IH]; intros C i m i' m' C' S H; cbn [playm] in H; [injection H as <- <- <-; exact S|].
  destruct (do_move nothrow false mv C) as [[e C1]|] eqn:D; [|discriminate]. destruct (fitb C1 && _) eqn:T; [|discriminate].
  apply andb_prop in T as [T1 T2]. eapply IH; [|exact H]. eapply c_step; [exact S|exact (do_move_ok _ _ _ _ _ _ D)| |apply fitb_ok; exact T1|exact I].
  intros t r ->. discriminate T2.
Qed.
Definition sums (r : option (N * N * @conf N N)) := match r with Some (i, m, C) => Some (i, m, elements C 0, max_load C 0, bucket_count C 0) | None => None end.
Lemma sums_some r i m e l b : sums r = Some (i, m, e, l, b) -> exists C, r = Some (i, m, C) /\ elements C 0 = e /\ max_load C 0 = l /\ bucket_count C 0 = b.
Proof. destruct r as [[[i' m'] C]|]; [|discriminate]. cbn. intros H. exists C. injection H as <- <- <- <- <-. auto. Qed.
Lemma C_new_runs : exists es, runs_with wcfg counters_fit 3 es C_new.
Proof.
  destruct (play nothrow false fitb (fst g0) (start 3)) as [[es C]|] eqn:E; [|vm_compute in E; discriminate E]. exists es.
  assert (C = C_new) as <- by (vm_compute in E; injection E as <- <-; reflexivity). eapply played; [reflexivity|exact E].
Qed.
Example C67_case : (exists es, runs_with wcfg counters_fit 3 es C_new) /\ existsb (on 0) (th C_new) = false /\ exists C, calls wcfg (fun _ => True) 0 C_new 31 29 C /\ elements C 0 = 30 /\ max_load C 0 = 50 /\ bucket_count C 0 = 59.
Proof.
  split; [exact C_new_runs|]. split; [reflexivity|]. assert (sums (playm (fst g3) C_new 0 0) = Some (31, 29, 30, 50, 59)) as E by (vm_cast_no_check (eq_refl (Some (31, 29, 30, 50, 59)))).
  apply sums_some in E as (C & E & H). exists C. split; [|exact H]. eapply playm_ok; [apply c_nil; exact I|exact E].
Qed.
Print Assumptions C67_elements_stay_unless_the_container_is_full.
Print Assumptions C67_growth_is_amortized.
Print Assumptions C67_growth_without_drift_is_amortized.
Print Assumptions C67_growth_at_most_doubles.
Print Assumptions C67_bucket_count_is_proportional_to_peak_size.
