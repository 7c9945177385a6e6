(** Lemmas for C61: where the nodes of the concurrent node containers are. *)
From Coq Require Import NArith Bool List Arith Lia Permutation.
From Verif Require Import SizeModel GroupModel FoaGroup FoaModel FoaBase FoaInv FoaArr FoaOps FoaSpec FoaWorld NodeSpec
  ConcSpec ConcModel ConcInv ConcStep ConcStep2 ConcStep3 ConcSys ConcSys2 ConcLin1 ConcLin2 ConcLin3 ConcLog ConcNodeModel ConcNodeSpec.
Import ListNotations.
Local Open Scope N_scope.
Notation set_nth := FoaModel.set_nth.

(** permutations of concatenations *)
Lemma perm_end {X} (l l' : list X) : Permutation (l ++ []) (l' ++ []) -> Permutation l l'. Proof. rewrite !app_nil_r. auto. Qed.
Lemma perm_pull {X} (a b r r' : list X) : Permutation r (a ++ r') -> Permutation (b ++ r) (a ++ b ++ r').
Proof. intros ->. rewrite !app_assoc. apply Permutation_app_tail, Permutation_app_comm. Qed.
Lemma perm_head {X} (a l r r' : list X) : Permutation l (a ++ r) -> Permutation r' r -> Permutation (a ++ r') l.
Proof. intros -> ->. reflexivity. Qed.
Ltac pull := first [apply Permutation_refl | apply perm_pull; pull].
Ltac perm := apply perm_end; repeat rewrite <- app_assoc; repeat (eapply perm_head; [pull|]); apply Permutation_refl.

(** *** lists of containers *)
Section World.
Context {K V : Type} (eq : N -> K -> K -> bool) (moving : bool).
Notation world := (world K V).
Definition vnodes (x : option (FoaSpec.view K V)) : list (K * V) := match x with Some v => v_elems v | None => [] end.
Definition wnodes (w : world) : list (K * V) := flat_map vnodes w.
Lemma wnodes_set (w : world) i x : nth_error w i = Some x -> exists rest, Permutation (wnodes w) (vnodes x ++ rest) /\ forall y, Permutation (wnodes (set w i y)) (vnodes y ++ rest).
Proof.
  intros H. exists (wnodes (firstn i w) ++ wnodes (skipn (S i) w)). 
  assert (w = firstn i w ++ x :: skipn (S i) w) as E.
  { clear - H. revert i H. induction w as [|a w IH]; intros [|i] H; cbn in *; try discriminate; [injection H as ->; reflexivity|]. f_equal. apply IH. exact H. }
  assert (forall y, Permutation (wnodes (firstn i w ++ y :: skipn (S i) w)) (vnodes y ++ wnodes (firstn i w) ++ wnodes (skipn (S i) w))) as P.
  { intros y. unfold wnodes. rewrite flat_map_app. cbn [flat_map]. rewrite !app_assoc. apply Permutation_app_tail. apply Permutation_app_comm. }
  split; [rewrite E at 1; apply P|intros y; apply P].
Qed.
Lemma wnodes_set2 (w : world) i j x z : i <> j -> nth_error w i = Some x -> nth_error w j = Some z ->
  exists rest, Permutation (wnodes w) (vnodes x ++ vnodes z ++ rest) /\ forall y y', Permutation (wnodes (set (set w i y) j y')) (vnodes y ++ vnodes y' ++ rest).
Proof.
  intros N Hi Hj. destruct (wnodes_set w i x Hi) as (r1 & A1 & A2). 
  assert (forall y, nth_error (set w i y) j = Some z) as Hj'.
  { intros y. rewrite <- set_set_nth by (apply nth_error_Some; congruence). rewrite set_nth_err by (apply nth_error_Some; congruence). destruct (Nat.eqb_spec j i); [congruence|exact Hj]. }
  destruct (wnodes_set _ j z (Hj' None)) as (r2 & B1 & B2). exists r2.
  assert (Permutation r1 (vnodes z ++ r2)) as E1 by (rewrite <- B1; symmetry; exact (A2 None)).
  split; [rewrite A1, E1; reflexivity|]. intros y y'. destruct (wnodes_set _ j z (Hj' y)) as (r3 & C1 & C2). rewrite (C2 y'). rewrite (A2 y), E1 in C1.
  assert (Permutation r3 (vnodes y ++ r2)) as E3.
  { apply (Permutation_app_inv_l (vnodes z)). rewrite <- C1. rewrite !app_assoc. apply Permutation_app_tail, Permutation_app_comm. }
  rewrite E3, !app_assoc. apply Permutation_app_tail, Permutation_app_comm.
Qed.
Lemma filter_both {X} (p : X -> bool) l : Permutation l (filter p l ++ filter (fun x => negb (p x)) l).
Proof. induction l as [|x l IH]; cbn; [reflexivity|]. destruct (p x); cbn [negb app]; [constructor; exact IH|]. apply Permutation_cons_app. exact IH. Qed.
Lemma skipn_more {X} a b (l : list X) : skipn a (skipn b l) = skipn (a + b) l.
Proof. revert l. induction b as [|b IH]; intros l; [rewrite Nat.add_0_r; reflexivity|]. rewrite Nat.add_succ_r. destruct l; [rewrite !skipn_nil; reflexivity|]. cbn [skipn]. apply IH. Qed.
Lemma spec1_lost p o l r l' : match o with Insert _ | InsertRange _ | AssignList _ | InsertOrAssign _ _ | Index _ _ => False | _ => True end ->
  spec1 (V:=V) eq moving p o l r l' -> exists lost, Permutation l (lost ++ l') /\ (lost <> [] -> ends1 o r).
Proof.
  intros Pl Sp.
  assert (l' = l -> exists lost, Permutation l (lost ++ l') /\ (lost <> [] -> ends1 o r)) as Same by (intros ->; exists []; split; [reflexivity|congruence]).
  assert (Permutation l' l -> exists lost, Permutation l (lost ++ l') /\ (lost <> [] -> ends1 o r)) as Perm by (intros P; exists []; split; [symmetry; exact P|congruence]).
  assert (forall lost, Permutation l (lost ++ l') -> ends1 o r -> exists lost, Permutation l (lost ++ l') /\ (lost <> [] -> ends1 o r)) as Ends by (intros lost P E; exists lost; auto).
  destruct o; cbn in Pl; try contradiction; destruct r as [v|kd]; cbn [spec1] in Sp; try contradiction;
    try (destruct v; try contradiction; first [apply Same; tauto | apply Perm; tauto | idtac]); try (apply Same; tauto).
  - destruct Sp as [_ P]. apply (Ends (filter (fun e => eq p k (fst e)) l)); [|exact I]. rewrite P. apply filter_both.
  - destruct Sp as [_ P]. apply (Ends (filter pr l)); [|exact I]. rewrite P. apply filter_both.
  - destruct Sp as (_ & g & P & _). apply (Ends g); [exact P|exact I].
  - destruct Sp as [_ ->]. apply (Ends (filter pr l)); [|exact I]. apply filter_both.
  - destruct o as [e|]; [|contradiction]. destruct Sp as (l1 & l2 & _ & -> & ->). apply (Ends [e]); [|exact I]. symmetry. exact (Permutation_middle l1 l2 e).
  - destruct Sp as (L & ->). apply (Ends (firstn (m2 - m) (skipn m l))); [|exact I].
    assert (l = firstn m l ++ firstn (m2 - m) (skipn m l) ++ skipn m2 l) as E.
    { rewrite <- (firstn_skipn m l) at 1. f_equal. rewrite <- (firstn_skipn (m2 - m) (skipn m l)) at 1. f_equal. rewrite skipn_more. f_equal. lia. }
    rewrite E at 1. rewrite !app_assoc. apply Permutation_app_tail, Permutation_app_comm.
  - apply (Ends l); [|exact I]. rewrite Sp, app_nil_r. reflexivity.
  - destruct Sp as (lost & P & _). apply (Ends lost); [exact P|exists kd; reflexivity].
  - destruct Sp as (lost & P & _). apply (Ends lost); [exact P|exists kd; reflexivity].
Qed.
Lemma wnodes_app (w w' : world) : wnodes (w ++ w') = wnodes w ++ wnodes w'. Proof. apply flat_map_app. Qed.
End World.

Section Whole.
Context {K M : Type} (c : Cfg K (node M)).
Lemma spec_lost (w : world K (node M)) o r w' : whole_plain o -> spec (keqf c) (moves c) w o r w' -> exists lost, Permutation (wnodes w) (lost ++ wnodes w') /\ (lost <> [] -> ends_whole o r).
Proof.
  intros Pl Sp.
  assert (Permutation (wnodes w) (wnodes w') -> exists lost, Permutation (wnodes w) (lost ++ wnodes w') /\ (lost <> [] -> ends_whole o r)) as Perm by (intros P; exists []; split; [exact P|congruence]).
  destruct o as [i o|h p al n|j al|j|j al|i|i j|i j|i j|i j|i j q]; cbn [whole_plain spec] in Pl, Sp; try contradiction.
  - destruct Sp as (v & l' & H & S1 & ->). destruct (wnodes_set w i _ H) as (rest & A & B).
    destruct (spec1_lost (keqf c) (moves c) _ o _ r l' ltac:(destruct o; auto) S1) as (lost & P & E). exists lost. split; [|exact E]. rewrite A, (B _). cbn [vnodes v_elems]. rewrite P, app_assoc. reflexivity.
  - apply Perm. destruct r as [[]|]; try contradiction; [rewrite Sp|destruct Sp as [_ ->]]; [|reflexivity]. rewrite wnodes_app. cbn. rewrite !app_nil_r. reflexivity.
  - destruct Sp as (x & H & _ & ->). apply Perm. rewrite wnodes_app. destruct (wnodes_set w j _ H) as (rest & A & B). rewrite A, (B _). cbn [vnodes v_elems app wnodes flat_map]. rewrite app_nil_r. apply Permutation_app_comm.
  - destruct Sp as (x & H & Sp). destruct (wnodes_set w j _ H) as (rest & A & B).
    assert (w' = w \/ (w' = set w j (Some (View (v_hash x) (v_pred x) (v_alloc x) [])) /\ exists k, r = Threw k) \/
            exists l, Permutation l (v_elems x) /\ w' = set w j (Some (View (v_hash x) (v_pred x) (v_alloc x) [])) ++ [Some (View (v_hash x) (v_pred x) al l)]) as D.
    { destruct r as [[]|kd]; try contradiction; [right; right; exact Sp|]. destruct Sp as [Sp|Sp]; [left; exact Sp|right; left; split; [exact Sp|exists kd; reflexivity]]. }
    destruct D as [->|[[-> E]|(l & P & ->)]]; [apply Perm; reflexivity| |].
    + exists (v_elems x). split; [|intros _; exact E]. rewrite A, (B _). reflexivity.
    + apply Perm. rewrite wnodes_app, A, (B _). cbn [vnodes v_elems app wnodes flat_map]. rewrite app_nil_r, P. apply Permutation_app_comm.
  - destruct Sp as (v & H & _ & ->). destruct (wnodes_set w i _ H) as (rest & A & B). exists (v_elems v). split; [|intros _; exact I]. rewrite A, (B _). reflexivity.
  - destruct Sp as (t & x & al & l & lx & Hi & Hj & -> & _ & Sp). destruct (wnodes_set2 w i j _ _ Pl Hi Hj) as (rest & A & B).
    destruct r as [[]|]; try contradiction.
    + destruct Sp as [P ->]. exists (v_elems t). split; [|intros _; exact I]. rewrite A, (B _ _). cbn [vnodes v_elems app]. rewrite P. reflexivity.
    + destruct Sp as [r2 P]. exists (v_elems t ++ r2). split; [|intros _; exact I]. rewrite A, (B _ _). cbn [vnodes v_elems app]. rewrite P. perm.
  - destruct Sp as (t & x & Hi & Hj & _ & ->). destruct (wnodes_set2 w i j _ _ Pl Hi Hj) as (rest & A & B). apply Perm. rewrite A, (B _ _). cbn [vnodes app]. rewrite !app_assoc. apply Permutation_app_tail, Permutation_app_comm.
  - destruct Sp as (t & x & l & lx & Hi & Hj & -> & Sp). destruct (wnodes_set2 w i j _ _ Pl Hi Hj) as (rest & A & B).
    destruct r as [[]|]; try contradiction.
    + destruct Sp as (moved & P1 & P2 & _). apply Perm. rewrite A, (B _ _). cbn [vnodes v_elems app]. rewrite P1, P2. perm.
    + destruct Sp as (lost & P & _). exists lost. split; [|intros _; exists k; reflexivity]. rewrite A, (B _ _). cbn [vnodes v_elems]. rewrite !app_assoc. apply Permutation_app_tail. rewrite P. perm.
  - destruct Sp as (x & y & _ & _ & -> & _). apply Perm. reflexivity.
Qed.
End Whole.
