(** Operations on whole containers do not depend on the containers they do not mention. *)
From Coq Require Import NArith Bool List Arith Lia ZifyBool ZifyNat ZifyN Permutation.
From Verif Require Import FoaModel FoaArr FoaSpec FoaRun.
Import ListNotations.
Local Open Scope N_scope.

Section Unmask.
Context {K V : Type} (eq : N -> K -> K -> bool) (moving : bool).
Notation world := (world K V).

(** M: W without some of its containers *)
Definition Mask (W M : world) : Prop := length M = length W /\ forall d, nth_error M d = nth_error W d \/ nth_error M d = Some None.
Definition at_ (X : world) (d : nat) : option (view K V) := match nth_error X d with Some x => x | None => None end.
(** X with the missing containers put back *)
Definition over (W M X : world) : world :=
  map (fun d => match nth_error M d, nth_error W d with Some None, Some (Some v) => Some v | _, _ => at_ X d end) (seq 0 (length X)).

Lemma over_len W M X : length (over W M X) = length X.
Proof. unfold over. rewrite map_length, seq_length. reflexivity. Qed.
Lemma over_err W M X d : (d < length X)%nat ->
  nth_error (over W M X) d = Some (match nth_error M d, nth_error W d with Some None, Some (Some v) => Some v | _, _ => at_ X d end).
Proof.
  intros L. unfold over. rewrite nth_error_map, (nth_error_nth' _ 0%nat) by (rewrite seq_length; exact L). rewrite seq_nth by exact L. reflexivity.
Qed.
Lemma over_out W M X d : (length X <= d)%nat -> nth_error (over W M X) d = None.
Proof. intros L. apply nth_error_None. rewrite over_len. exact L. Qed.
Lemma over_id W M : Mask W M -> over W M M = W.
Proof.
  intros [L H]. apply list_ext. intros d. destruct (Nat.lt_ge_cases d (length M)) as [Ld|Ld].
  - rewrite over_err by exact Ld. destruct (nth_error W d) as [x|] eqn:EW; [|apply nth_error_None in EW; lia].
    unfold at_. destruct (H d) as [E|E]; rewrite E; rewrite ?EW; destruct x; reflexivity.
  - rewrite over_out by exact Ld. symmetry. apply nth_error_None. lia.
Qed.
Lemma over_set W M X d y v : nth_error M d = Some (Some v) -> (d < length X)%nat -> over W M (set X d y) = set (over W M X) d y.
Proof.
  intros Hd Lx. apply list_ext. intros j. rewrite set_err by (rewrite over_len; exact Lx).
  destruct (Nat.lt_ge_cases j (length X)) as [Lj|Lj].
  - rewrite over_err by (rewrite set_len by exact Lx; exact Lj). unfold at_. rewrite set_err by exact Lx. destruct (Nat.eqb_spec j d) as [->|N].
    + rewrite Hd. reflexivity.
    + rewrite over_err by exact Lj. reflexivity.
  - rewrite over_out by (rewrite set_len by exact Lx; exact Lj). destruct (Nat.eqb_spec j d) as [->|N]; [lia|]. rewrite over_out by exact Lj. reflexivity.
Qed.
Lemma over_push W M X y : (length M <= length X)%nat -> over W M (X ++ [y]) = over W M X ++ [y].
Proof.
  intros L. apply list_ext. intros j. destruct (Nat.lt_ge_cases j (length X)) as [Lj|Lj].
  - rewrite over_err by (rewrite app_length; cbn; lia). rewrite nth_error_app1 by (rewrite over_len; exact Lj). rewrite over_err by exact Lj.
    unfold at_. rewrite nth_error_app1 by exact Lj. reflexivity.
  - rewrite nth_error_app2 by (rewrite over_len; exact Lj). rewrite over_len. destruct (Nat.eq_dec j (length X)) as [->|N].
    + rewrite Nat.sub_diag. rewrite over_err by (rewrite app_length; cbn; lia). rewrite (proj2 (nth_error_None M _)) by exact L.
      unfold at_. rewrite nth_error_app2, Nat.sub_diag by lia. reflexivity.
    + rewrite over_out by (rewrite app_length; cbn; lia). destruct (j - length X)%nat as [|[|z]] eqn:Ez; [lia|reflexivity|reflexivity].
Qed.
Lemma mask_some W M d v : Mask W M -> nth_error M d = Some (Some v) -> nth_error W d = Some (Some v).
Proof. intros [_ H] E. destruct (H d); congruence. Qed.
Lemma set_lt (M : world) d x : nth_error M d = Some x -> (d < length M)%nat.
Proof. intros H. apply nth_error_Some. congruence. Qed.

Lemma unmask W M o r M' : Mask W M -> spec eq moving M o r M' -> spec eq moving W o r (over W M M').
Proof.
  intros HM S. pose proof (mask_some W M) as MS. pose proof (over_id W M HM) as Id.
  destruct o as [i o|h p al m|j al|j|j al|i|i j|i j|i j|i j|i j eeq]; cbn [spec] in *.
  - destruct S as (v & l' & H1 & H2 & ->). exists v, l'. split; [auto|]. split; [exact H2|]. erewrite over_set by (first [exact H1|eapply set_lt; exact H1]). congruence.
  - destruct r as [[]|]; try contradiction; [subst M'; rewrite over_push, Id by lia; reflexivity|]. destruct S as [-> ->]. auto.
  - destruct S as (x & H1 & S). exists x. split; [auto|]. destruct r as [[]|]; try contradiction; [|congruence].
    destruct S as (l & H2 & ->). exists l. split; [exact H2|]. rewrite over_push, Id by lia. reflexivity.
  - destruct S as (x & H1 & -> & ->). exists x. split; [auto|]. split; [reflexivity|]. rewrite over_push by (rewrite set_len by (eapply set_lt; exact H1); lia).
    erewrite over_set by (first [exact H1|eapply set_lt; exact H1]). congruence.
  - destruct S as (x & H1 & S). exists x. split; [auto|]. destruct r as [[]|]; try contradiction.
    + destruct S as (l & H2 & ->). exists l. split; [exact H2|]. rewrite over_push by (rewrite set_len by (eapply set_lt; exact H1); lia).
      erewrite over_set by (first [exact H1|eapply set_lt; exact H1]). congruence.
    + destruct S as [->| ->]; [left; exact Id|right]. erewrite over_set by (first [exact H1|eapply set_lt; exact H1]). congruence.
  - destruct S as (v & H1 & -> & ->). exists v. split; [auto|]. split; [reflexivity|]. erewrite over_set by (first [exact H1|eapply set_lt; exact H1]). congruence.
  - destruct S as (t & x & al & l & H1 & H2 & -> & H3 & H4). exists t, x, al, l. split; [auto|]. split; [auto|]. split; [|auto].
    erewrite over_set by (first [exact H1|eapply set_lt; exact H1]). congruence.
  - destruct S as (t & x & al & l & lx & H1 & H2 & -> & H3 & H4). exists t, x, al, l, lx. split; [auto|]. split; [auto|]. split; [|auto].
    erewrite over_set; [|exact H2|rewrite set_len; eapply set_lt; eassumption]. erewrite over_set by (first [exact H1|eapply set_lt; exact H1]). congruence.
  - destruct S as (t & x & H1 & H2 & -> & ->). exists t, x. split; [auto|]. split; [auto|]. split; [reflexivity|].
    erewrite over_set; [|exact H2|rewrite set_len; eapply set_lt; eassumption]. erewrite over_set by (first [exact H1|eapply set_lt; exact H1]). congruence.
  - destruct S as (t & x & l & lx & H1 & H2 & -> & H3). exists t, x, l, lx. split; [auto|]. split; [auto|]. split; [|exact H3].
    erewrite over_set; [|exact H2|rewrite set_len; eapply set_lt; eassumption]. erewrite over_set by (first [exact H1|eapply set_lt; exact H1]). congruence.
  - destruct S as (x & y & H1 & H2 & -> & H3). exists x, y. split; [auto|]. split; [auto|]. split; [exact Id|exact H3].
Qed.
End Unmask.
