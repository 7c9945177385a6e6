(** C62: when concurrent containers rehash. [capacity (arr (tb s))] is bucket_count(), [ml (tb s)] is max_load(); [calls_only c P d C m C']: an execution from C to C' in which
    no operation on whole containers takes effect, m elements are erased from container d, and P holds in all states before C' (with the number of elements erased until then). *)
From Coq Require Import NArith Bool List Arith Lia Permutation.
From Verif Require Properties_Conc.
From Verif Require Import SizeModel GroupModel FoaModel FoaArr FoaSpec FoaWorld FoaExamples ConcSpec ConcModel ConcInv ConcSys ConcSys2 ConcProps ConcVisit ConcExec ConcWrap ConcExamples ConcCap.
Import ListNotations.
Local Open Scope N_scope.
Section P.
Context {K V : Type} (c : Cfg K V).
Hypothesis HC : good_cfg c.
Notation stored := Properties_Conc.stored. Notation holds := Properties_Conc.holds. Notation run := (runs_with c counters_fit).
Notation At := ConcModel.At.
Notation size s := (N.of_nat (length (stored s))).

Lemma wf_full (C : @conf K V) t d o : GInv c C -> nth_error (th C) t = Some (At d o LFull) -> exists x k v f1 f2, o = Point (PEmplace x k v f1 f2).
Proof.
  intros G H. destruct (gi_at _ _ G t d o LFull H) as [s Hb]. destruct (gi_box _ _ G d s Hb) as [k [B _]].
  destruct (cb_ti _ _ _ _ B t o LFull (proj2 (view_at C d t o LFull) H)) as [W _].
  destruct o as [[]| |]; cbn in W; try discriminate; try contradiction. eauto 6.
Qed.
(** bucket_count() changes only in operations on whole containers, and in an insertion that finds the container exactly full, when no other call is inside the container *)
Theorem C62_when_bucket_count_changes : forall n es C e C' d s s', run n es C -> gstep c C e C' -> holds C d s -> holds C' d s' ->
  capacity (arr (tb s')) <> capacity (arr (tb s)) ->
  (exists t r, e = Some (ELin t (AWhole r))) \/
  (size s = ml (tb s) /\ existsb (inside d) (th C) = false /\ exists t x k v f1 f2, nth_error (th C) t = Some (At d (Point (PEmplace x k v f1 f2)) LFull)).
Proof.
  intros n es C e C' d s s' R St Hb Hb' Ne. pose proof (Properties_Conc.holds_box _ _ _ Hb) as B. pose proof (Properties_Conc.holds_box _ _ _ Hb') as B'.
  assert ((exists t r, e = Some (ELin t (AWhole r))) \/ forall t r, e <> Some (ELin t (AWhole r))) as [W|W].
  { destruct e as [[t ca|t []|t a]|]; try (right; discriminate). left. eauto. }
  - left. exact W.
  - right. destruct (step_cap c C e C' d s St W B) as [(Al & E & t & o & Ht)|(s1 & B1 & E & _)]; [|rewrite B' in B1; injection B1 as <-; congruence].
    destruct (Properties_Conc.C37_exact_when_idle c HC n es C d s R Hb Al) as [E1 _]. split; [congruence|]. split; [exact Al|]. exists t. pose proof (Properties_Conc.run_inv c HC _ _ _ R) as G.
    destruct (wf_full C t d o G Ht) as (x & k & v & f1 & f2 & ->). eauto 6.
Qed.
(** in all other steps max_load() does not grow *)
Theorem C62_max_load_does_not_grow : forall n es C e C' d s s', run n es C -> gstep c C e C' -> holds C d s -> holds C' d s' -> ml (tb s) < ml (tb s') ->
  (exists t r, e = Some (ELin t (AWhole r))) \/ (size s = ml (tb s) /\ existsb (inside d) (th C) = false).
Proof.
  intros n es C e C' d s s' R St Hb Hb' Ne. pose proof (Properties_Conc.holds_box _ _ _ Hb) as B. pose proof (Properties_Conc.holds_box _ _ _ Hb') as B'.
  assert ((exists t r, e = Some (ELin t (AWhole r))) \/ forall t r, e <> Some (ELin t (AWhole r))) as [W|W].
  { destruct e as [[t ca|t []|t a]|]; try (right; discriminate). left. eauto. }
  - left. exact W.
  - right. destruct (step_cap c C e C' d s St W B) as [(Al & E & _)|(s1 & B1 & _ & E & _)]; [|rewrite B' in B1; injection B1 as <-; lia].
    destruct (Properties_Conc.C37_exact_when_idle c HC n es C d s R Hb Al) as [E1 _]. split; [congruence|exact Al].
Qed.
(** From a state in which no call on the container is in progress: as long as the number of elements plus the number of elements erased since then is less than
    max_load() then, no insertion rehashes, in any interleaving; erasing an element lowers max_load() by at most one, and nothing else does. *)
Theorem C62_no_rehash_while_there_is_room : forall n es C0 d s0 m C, run n es C0 -> holds C0 d s0 -> existsb (on d) (th C0) = false ->
  calls_only c (fun C m => forall s, holds C d s -> size s + m < ml (tb s0)) d C0 m C ->
  exists s, holds C d s /\ capacity (arr (tb s)) = capacity (arr (tb s0)) /\ ml (tb s) <= ml (tb s0) <= ml (tb s) + m.
Proof.
  intros n es C0 d s0 m C R Hb No S.
  assert (exists es', run n es' C /\ exists s, holds C d s /\ capacity (arr (tb s)) = capacity (arr (tb s0)) /\ ml (tb s) <= ml (tb s0) /\ ml (tb s0) + count (owing d) (th C) <= ml (tb s) + m) as (_ & _ & s & H1 & H2 & H3 & H4).
  { induction S as [|m C1 e C2 S (es' & R1 & s & H1 & H2 & H3 & H4) St W F Room].
    - exists es. split; [exact R|]. exists s0. split; [exact Hb|]. split; [reflexivity|]. split; [lia|]. rewrite count_none; [lia|].
      eapply existsb_impl; [|exact No]. intros [] H; try discriminate H. cbn in H |- *. apply andb_prop in H. apply H.
    - eexists. split; [eapply r_snoc; eassumption|]. specialize (Room s H1). pose proof (Properties_Conc.holds_box _ _ _ H1) as B.
      destruct (step_cap c C1 e C2 d s St W B) as [(Al & E & _)|(s1 & B1 & E1 & E2 & E3)].
      + exfalso. destruct (Properties_Conc.C37_exact_when_idle c HC n es' C1 d s R1 H1 Al) as [X _]. assert (count (owing d) (th C1) = 0) as Z.
        { apply count_none. eapply existsb_impl; [|exact Al]. intros [] H; try discriminate H. cbn in H |- *. apply andb_prop in H as [-> H]. destruct l; try discriminate H. reflexivity. }
        rewrite X in E. lia.
      + exists s1. split; [unfold Properties_Conc.holds; unfold box in B1; destruct (nth_error (boxes C2) d); [congruence|discriminate]|]. split; [congruence|]. split; [lia|]. lia. }
  exists s. split; [exact H1|]. split; [exact H2|]. lia.
Qed.
End P.

(** a case: ex1 has elements with keys 5 and 7 and no call in progress. Thread 2 calls erase_if, which erases 7; meanwhile thread 0 inserts 8. *)
Definition roomb (M : N) (C : @conf N N) (m : N) : bool := match box C 0 with Some s => N.of_nat (length (Properties_Conc.stored s)) + m <? M | None => true end.
Lemma roomb_ok M C m : roomb M C m = true -> forall s, Properties_Conc.holds C 0 s -> N.of_nat (length (Properties_Conc.stored s)) + m < M.
Proof. unfold roomb. intros H s Hs. rewrite (Properties_Conc.holds_box _ _ _ Hs) in H. apply N.ltb_lt. exact H. Qed.
Definition not_whole (e : option (event N N)) : bool := match e with Some (ELin _ (AWhole _)) => false | _ => true end.
Fixpoint playc (M : N) (ms : list move) (C : @conf N N) (m : N) : option (N * @conf N N) :=
  match ms with
  | [] => Some (m, C)
  | mv :: r => match do_move nothrow false mv C with
      | Some (e, C1) => if fitb C1 && roomb M C m && not_whole e then playc M r C1 (m + erases_from 0 C e) else None
      | None => None end
  end.
Lemma playc_ok M C0 : forall ms C m m' C', calls_only wcfg (fun C m => forall s, Properties_Conc.holds C 0 s -> N.of_nat (length (Properties_Conc.stored s)) + m < M) 0 C0 m C ->
  playc M ms C m = Some (m', C') -> calls_only wcfg (fun C m => forall s, Properties_Conc.holds C 0 s -> N.of_nat (length (Properties_Conc.stored s)) + m < M) 0 C0 m' C'.
Proof.
  induction ms as [|mv ms IH]; intros C m m' C' S H; cbn [playc] in H; [injection H as <- <-; exact S|].
  destruct (do_move nothrow false mv C) as [[e C1]|] eqn:D; [|discriminate]. destruct (fitb C1 && roomb M C m && not_whole e) eqn:T; [|discriminate].
  apply andb_prop in T as [T T3]. apply andb_prop in T as [T1 T2]. eapply IH; [|exact H]. eapply co_snoc; [exact S|exact (do_move_ok _ _ _ _ _ _ D)| |apply fitb_ok; exact T1|apply roomb_ok; exact T2].
  intros t r ->. discriminate T3.
Qed.
Definition ms_case : list move := skipn (length (fst r1)) (fst r3).
Example C62_case : exists s0 m C s, runs_with wcfg counters_fit 3 e1 ex1 /\ Properties_Conc.holds ex1 0 s0 /\ existsb (on 0) (th ex1) = false /\
  calls_only wcfg (fun C m => forall s, Properties_Conc.holds C 0 s -> N.of_nat (length (Properties_Conc.stored s)) + m < ml (tb s0)) 0 ex1 m C /\
  m = 1 /\ Properties_Conc.holds C 0 s /\ Properties_Conc.stored s = [(8, 108); (5, 106)] /\ ml (tb s) = ml (tb s0).
Proof.
  assert (exists s0, nth_error (boxes ex1) 0 = Some (Some s0)) as [s0 H0] by (eexists; reflexivity). exists s0.
  assert (ml (tb s0) = 29) as Em by (vm_compute in H0; injection H0 as <-; reflexivity). rewrite Em.
  destruct (playc 29 ms_case ex1 0) as [[m C]|] eqn:P; [|vm_compute in P; discriminate P].
  exists m, C. assert (exists s, box C 0 = Some s) as [s Hs] by (vm_compute in P; injection P as <- <-; eexists; reflexivity). exists s.
  split; [exact ex1_runs|]. split; [exact H0|]. split; [reflexivity|]. split; [eapply playc_ok; [apply co_nil|exact P]|].
  vm_compute in P. injection P as <- <-. split; [reflexivity|]. vm_compute in Hs. injection Hs as <-. split; [reflexivity|]. split; reflexivity.
Qed.
Print Assumptions C62_when_bucket_count_changes.
Print Assumptions C62_max_load_does_not_grow.
Print Assumptions C62_no_rehash_while_there_is_room.
