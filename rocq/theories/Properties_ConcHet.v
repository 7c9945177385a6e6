(** C59 for the concurrent containers: visit, cvisit, contains, count, erase, erase_if, extract with a value q of another type Q. The executions are those of Properties_Conc.v with
    keys (inl k) and values q (inr q) to be looked up; [qhash h q] is what the hash object h returns for q, [qeq p q k] what the predicate object p returns for (q, k).
    Also C36: keys do not come from nowhere. *)
From Coq Require Import NArith Bool List Arith Lia Permutation.
From Verif Require Import SizeModel GroupModel FoaModel FoaBase FoaArr FoaSpec FoaWorld ConcSpec ConcModel ConcInv ConcSys ConcVisit ConcFound ConcLog ConcKeys ConcHet.
From Verif Require Properties_Conc Properties_Bulk.
Import ListNotations.
Local Open Scope N_scope.
Notation stored := Properties_Conc.stored. Notation holds := Properties_Conc.holds.

(** the keys a call may insert *)
Definition may_insert {K V} (ca : call K V) (k : K) : Prop :=
  match ca with
  | OnC _ (Point (PEmplace _ k' _ _ _)) => k = k'
  | Whole (On _ (Insert e)) => k = fst e
  | Whole (On _ (InsertRange l)) | Whole (On _ (AssignList l)) => In k (map fst l)
  | Whole (On _ (InsertOrAssign k' _)) | Whole (On _ (Index _ k')) => k = k'
  | _ => False
  end.
Lemma may_in {K V} (ca : call K V) k : In k (keys_of ca) <-> may_insert ca k.
Proof. destruct ca as [d [[]|x m f|]|[i []| | | | | | | | | |]]; cbn; intuition congruence. Qed.
(** C36: the key of every element, in every state of every execution, was passed to an insertion *)
Theorem C36_stored_keys_were_inserted : forall (K V : Type) (c : Cfg K V), good_cfg c -> forall n es C d s e, runs_with c counters_fit n es C -> holds C d s -> In e (stored s) ->
  exists t ca, In (ECall t ca) es /\ may_insert ca (fst e).
Proof.
  intros K V c HC n es C d s e R Hh He. pose proof (keys_from_calls c HC (fun k => exists t ca, In (ECall t ca) es /\ may_insert ca k) n es C R) as H.
  assert (Pw (fun k => exists t ca, In (ECall t ca) es /\ may_insert ca k) (Properties_Conc.abstract C)) as H'. { apply H. intros t ca k I1 I2. exists t, ca. split; [exact I1|apply may_in, I2]. }
  unfold Properties_Conc.abstract in H'. unfold holds in Hh. assert (In (Some s) (boxes C)) as J by (apply nth_error_In in Hh; exact Hh).
  unfold Pw in H'. rewrite Forall_map, Forall_forall in H'. specialize (H' _ J). cbn in H'. unfold Pl in H'. rewrite Forall_forall in H'. apply (H' e He).
Qed.
Print Assumptions C36_stored_keys_were_inserted.

Section P.
Context {K V Q : Type} (c : Cfg K V).
Hypothesis HC : good_cfg c.
Variables (qhash : N -> Q -> N) (qeq : N -> Q -> K -> bool) (rep : N -> Q -> option K) (same : Q -> Q -> bool).
Hypothesis Same : forall q q', same q q' = true <-> q = q'.
Notation ch := (het c qhash qeq rep same).
Notation run := (runs_with ch counters_fit).
(** only keys are inserted *)
Definition inserts_keys (es : list (event (K + Q) V)) : Prop := forall t ca x, In (ECall t ca) es -> may_insert ca x -> exists k, x = inl k.
(** the container has an element equal to q *)
Definition has_equal (C : @conf (K + Q) V) (d : nat) (p : N) (q : Q) : Prop :=
  exists s k v, holds C d s /\ pid (tb s) = p /\ In (inl k, v) (stored s) /\ qeq p q k = true.

(** a hash object and a predicate object that may be used for keys and, for every q, either q is equal to no key, or it hashes like some key and is equal to the same keys:
    they may be used in these executions *)
Theorem C59_concurrent_function_objects : forall h p, agree c h p ->
  (forall q, match rep p q with Some k0 => qhash h q = hashf c h k0 /\ (forall k, qeq p q k = keqf c p k0 k) | None => forall k, qeq p q k = false end) -> agree ch h p.
Proof. intros h p A Su. apply het_agree; [exact Same|exact A|exact Su]. Qed.
(** the values looked up are never stored *)
Theorem C59_concurrent_only_keys_are_stored : forall n es C d s e, run n es C -> inserts_keys es -> holds C d s -> In e (stored s) -> exists k, fst e = inl k.
Proof. intros n es C d s e R IK Hh He. destruct (C36_stored_keys_were_inserted _ _ _ (het_good c qhash qeq rep same HC) n es C d s e R Hh He) as (t & ca & I1 & I2). apply (IK t ca _ I1 I2). Qed.
(** calls with q are linearizable together with all others *)
Theorem C59_concurrent_linearizable : forall n es C, run n es C -> atomic_history (heq c qeq rep same) (moves c) (filter visible es).
Proof. intros n es C R. apply (Properties_Conc.C36_linearizable ch (het_good c qhash qeq rep same HC) n es C R). Qed.
(** when visit(q,f) or erase(q) calls f on an element or erases one, that element is there at that moment and is equal to q *)
Theorem C59_concurrent_finds_equal_elements : forall n es C t d o l q e r C', run n es C -> inserts_keys es ->
  nth_error (th C) t = Some (ConcModel.At d (Point o) l) -> (exists x f, o = PVisit x (inr q) f) \/ (exists f, o = PErase (inr q) f) ->
  gstep ch C (Some (ELin t (APoint r))) C' -> r = RSeen e \/ r = RErased e \/ r = RKept e ->
  exists s k, holds C d s /\ In e (stored s) /\ fst e = inl k /\ qeq (pid (tb s)) q k = true.
Proof.
  intros n es C t d o l q e r C' R IK Ht Ho St Hr. pose proof (het_good c qhash qeq rep same HC) as HG.
  destruct (Properties_Conc.C36_instants ch HG n es C t _ C' R St) as (ca & done & Ec & Te). unfold calls_of in Ec. rewrite Ht in Ec. injection Ec as <- _. cbn [takes_effect] in Te.
  destruct Te as (_ & v & l' & Hv & Ps & _). unfold Properties_Conc.abstract in Hv. rewrite nth_error_map in Hv. destruct (nth_error (boxes C) d) as [[s|]|] eqn:Hb; try discriminate Hv. injection Hv as <-. cbn [v_pred v_elems] in Ps.
  assert (heq c qeq rep same (pid (tb s)) (inr q) (fst e) = true /\ In e (stored s)) as [He Hi].
  { destruct Ho as [(x & f & ->)|(f & ->)]; destruct Hr as [->|[->| ->]]; cbn [pspec] in Ps; try (exfalso; exact Ps).
    - destruct Ps as (b & vv & rest & E & _ & Pm & _). split; [exact E|apply (Permutation_in _ (Permutation_sym Pm)); left; reflexivity].
    - destruct Ps as (vv & E & _ & Pm). split; [exact E|apply (Permutation_in _ (Permutation_sym Pm)); left; reflexivity].
    - destruct Ps as (vv & rest & E & _ & Pm & _). split; [exact E|apply (Permutation_in _ (Permutation_sym Pm)); left; reflexivity]. }
  destruct (C59_concurrent_only_keys_are_stored n es C d s e R IK Hb Hi) as (k & Ek). exists s, k. split; [exact Hb|]. split; [exact Hi|]. split; [exact Ek|]. rewrite Ek in He. exact He.
Qed.
Lemma steps_weaken (P P' : @conf (K + Q) V -> Prop) C es C' : (forall C, P C -> P' C) -> steps ch P C es C' -> steps ch P' C es C'.
Proof. intros H. induction 1; [apply st_nil, H; assumption|eapply st_snoc; eauto]. Qed.
Lemma has_present C d p q : has_equal C d p q -> present ch C d p (inr q).
Proof.
  intros (s & k & v & Hh & Hp & Hi & He). unfold present. assert (exists i, get_cell (arr (tb s)) i = Some (Live (inl k, v))) as (i & Hg).
  { unfold Properties_Conc.stored in Hi. apply in_flat_map in Hi as (x & Hx & He'). destruct x as [| |y]; cbn in He'; try contradiction. destruct He' as [->|[]]. apply In_nth_error in Hx as [i Hx]. exists i. unfold get_cell. destruct (a_elems (arr (tb s))); [exact Hx|destruct i; discriminate Hx]. }
  exists s, i, (inl k, v). split; [apply Properties_Conc.holds_box; exact Hh|]. split; [exact Hp|]. split; [exact Hg|exact He].
Qed.
(** an element equal to q that is there during the whole call is found, whatever other threads do; so if the call finds nothing, at some moment no element was equal to q *)
Theorem C59_concurrent_present_is_found : forall n es0 C0 t d o q C1 p es C r C', run n es0 C0 -> (exists x f, o = PVisit x (inr q) f) \/ (exists f, o = PErase (inr q) f) ->
  gstep ch C0 (Some (ECall t (OnC d (Point o)))) C1 -> steps ch (fun C => counters_fit C /\ has_equal C d p q) C1 es C -> (forall a, ~ In (ERet t a) es) ->
  gstep ch C (Some (ERet t (AnsC r))) C' -> r <> RNone.
Proof.
  intros n es0 C0 t d o q C1 p es C r C' R Ho St Ss Nr Sr.
  apply (Properties_Bulk.C38_present_is_found ch (het_good c qhash qeq rep same HC) n es0 C0 t d o (inr q) C1 p es C r C' R Ho St); [|exact Nr|exact Sr].
  apply (steps_weaken _ _ _ _ _ (fun C H => conj (proj1 H) (has_present C d p q (proj2 H))) Ss).
Qed.
End P.
Print Assumptions C59_concurrent_function_objects.
Print Assumptions C59_concurrent_only_keys_are_stored.
Print Assumptions C59_concurrent_linearizable.
Print Assumptions C59_concurrent_finds_equal_elements.
Print Assumptions C59_concurrent_present_is_found.

(** an example: keys are numbers; values of type [option nat] are looked up: [Some n] is equal to the key n, [None] to no key *)
Definition qh (h : N) (q : option nat) : N := match q with Some m => hashf (FoaExamples.ecfg FoaExamples.nothrow false) h (N.of_nat m) | None => 12345 end.
Definition qe (p : N) (q : option nat) (k : N) : bool := match q with Some m => N.of_nat m =? k | None => false end.
Definition qr (p : N) (q : option nat) : option N := option_map N.of_nat q.
Definition qs (a b : option nat) : bool := match a, b with Some m, Some n => Nat.eqb m n | None, None => true | _, _ => false end.
Definition c0 : Cfg N N := FoaExamples.ecfg FoaExamples.nothrow false.
Definition chx : Cfg (N + option nat) N := het c0 qh qe qr qs.
Lemma qs_ok q q' : qs q q' = true <-> q = q'.
Proof. destruct q, q'; cbn; split; intros H; try congruence; [apply Nat.eqb_eq in H; congruence|injection H as ->; apply Nat.eqb_refl]. Qed.
Lemma agree_x : agree chx 0 0.
Proof. apply C59_concurrent_function_objects; [exact qs_ok|apply FoaExamples.ecfg_agree|]. intros [m|]; cbn; [split; [reflexivity|intros k; reflexivity]|reflexivity]. Qed.
Definition keepx : ufun (N + option nat) N := fun e => (snd e + 1, Some true).
Definition ins_x (k : N) : cop (N + option nat) N := Point (PEmplace false (inl k) (k + 100) keepx keepx).
Definition see_x (q : option nat) : cop (N + option nat) N := Point (PVisit true (inr q) keepx).
Definition del_x (q : option nat) : cop (N + option nat) N := Point (PErase (inr q) keepx).
Definition moves0 : list (@mv (N + option nat) N) := [MvNew 0 0 0 0 10; MvWhole 0; MvRet 0].
Definition start_x : @conf (N + option nat) N := Conf [] (repeat Idle 3).
Definition conf0 : @conf (N + option nat) N := Eval vm_compute in match playm chx 0 0 moves0 start_x with Some (_, C) => C | None => start_x end.
Definition moves1 : list (@mv (N + option nat) N) := Eval vm_compute in
  calls_in_turn chx 0 0 [(0, ins_x 5); (1, ins_x 7); (2, see_x (Some 5)); (2, see_x None); (1, see_x (Some 9)); (0, del_x (Some 7)); (2, see_x (Some 7))]%nat conf0.
Definition all_events : list (event (N + option nat) N) := Eval vm_compute in match playm chx 0 0 (moves0 ++ moves1) start_x with Some (es, _) => es | None => [] end.
Definition end_x : @conf (N + option nat) N := Eval vm_compute in match playm chx 0 0 (moves0 ++ moves1) start_x with Some (_, C) => C | None => start_x end.
(** 5 and 7 are inserted; the values Some 5 and Some 7 are found, the value equal to no key and Some 9 are not *)
Example C59_concurrent_case : runs_with chx counters_fit 3 all_events end_x /\
  filter (fun e => match e with ERet _ (AnsC _) => true | _ => false end) all_events =
    [ERet 0 (AnsC RIns); ERet 1 (AnsC RIns); ERet 2 (AnsC (RSeen (inl 5, 106))); ERet 2 (AnsC RNone); ERet 1 (AnsC RNone); ERet 0 (AnsC (RErased (inl 7, 108))); ERet 2 (AnsC RNone)] /\
  inserts_keys all_events /\ (exists s, holds end_x 0 s /\ stored s = [(inl 5, 107)]).
Proof.
  split.
  { apply (playm_runs chx 0 0 agree_x ltac:(split; vm_compute; reflexivity) (moves0 ++ moves1) 3 [] start_x all_events end_x); [apply r_nil, fits_ok; vm_compute; reflexivity|]. vm_compute. reflexivity. }
  split; [vm_compute; reflexivity|]. split.
  - intros t ca x J. unfold all_events in J. cbn [In] in J. intuition (try discriminate); match goal with H : ECall _ _ = ECall _ _ |- _ => injection H as <- <- end; cbn in *; try contradiction; subst; eauto.
  - eexists. split; [vm_compute; reflexivity|vm_compute; reflexivity].
Qed.
