(** Invariant vocabulary for the table proofs, and the elementary array operations. *)
From Coq Require Import NArith Bool List Arith Lia ZifyBool ZifyNat ZifyN Permutation.
From Verif Require Import SizeModel SizeProofs GroupModel GroupSpec FoaModel FoaGroup.
Import ListNotations.
Local Open Scope N_scope.

Notation set_nth := FoaModel.set_nth.

Definition outcome {St A} (r : R St A) (Q : A -> St -> Prop) (E : kind -> St -> Prop) : Prop :=
  match r with Ret a s _ => Q a s | Exn k s _ => E k s | Undef => False end.

Lemma outcome_bind {St A B} (m : M St A) (f : A -> M St B) s n Q' Q E :
  outcome (m s n) Q' E -> (forall a s' n', Q' a s' -> outcome (f a s' n') Q E) ->
  outcome (bind m f s n) Q E.
Proof. unfold bind. destruct (m s n); cbn; intros H1 H2; auto. Qed.
Lemma outcome_weaken {St A} (r : R St A) (Q Q' : A -> St -> Prop) (E E' : kind -> St -> Prop) :
  outcome r Q E -> (forall a s, Q a s -> Q' a s) -> (forall k s, E k s -> E' k s) -> outcome r Q' E'.
Proof. destruct r; cbn; auto. Qed.
Lemma outcome_lens {St T A} (g : St -> T) (p : St -> T -> St) (m : M T A) s n Q E :
  outcome (m (g s) n) (fun a t => Q a (p s t)) (fun k t => E k (p s t)) -> outcome (lens g p m s n) Q E.
Proof. unfold lens. destruct (m (g s) n); cbn; auto. Qed.
Lemma bind_get {St A} (f : St -> M St A) s n : bind get f s n = f s s n.
Proof. reflexivity. Qed.
Lemma bind_ret {St A B} (a : A) (f : A -> M St B) s n : bind (ret a) f s n = f a s n.
Proof. reflexivity. Qed.
Lemma bind_bind {St A B C} (m : M St A) (f : A -> M St B) (g : B -> M St C) s n :
  bind (bind m f) g s n = bind m (fun a => bind (f a) g) s n.
Proof. unfold bind. destruct (m s n); reflexivity. Qed.
Lemma bind_modify {St A} (h : St -> St) (f : unit -> M St A) s n : bind (modify h) f s n = f tt (h s) n.
Proof. reflexivity. Qed.

Lemma slot_div g n : (n < 15)%nat -> (slot_index g n / 15 = g)%nat.
Proof. intros H. unfold slot_index. rewrite Nat.div_add_l by lia. rewrite Nat.div_small by lia. lia. Qed.
Lemma slot_mod g n : (n < 15)%nat -> (slot_index g n mod 15 = n)%nat.
Proof. intros H. unfold slot_index. rewrite Nat.add_comm, Nat.mod_add by lia. apply Nat.mod_small; lia. Qed.
Lemma slot_of i : slot_index (i / 15) (i mod 15) = i.
Proof. unfold slot_index. pose proof (Nat.div_mod i 15). lia. Qed.
Lemma mod15 i : (i mod 15 < 15)%nat. Proof. apply Nat.mod_upper_bound. lia. Qed.
Lemma slot_eq g n i : (n < 15)%nat -> slot_index g n = i -> (i / 15 = g /\ i mod 15 = n)%nat.
Proof. intros H <-. split; [apply slot_div|apply slot_mod]; exact H. Qed.
Lemma div_lt_groups i G : (i < 15 * G)%nat -> (i / 15 < G)%nat.
Proof. intros H. apply Nat.div_lt_upper_bound; lia. Qed.

Section Inv.
Context {K V : Type} (c : Cfg K V).
Notation arrays := (arrays K V).
Notation table := (table K V).
Notation cell := (cell K V).

Definition grp (a : arrays) (g : nat) : bytes16 := nth g (a_groups a) [].
Definition ctrl (a : arrays) (i : nat) : N := nth (i mod 15) (grp a (i / 15)) 0.
Definition ovf (a : arrays) (g : nat) : N := nth 15 (grp a g) 0.
Definition cells (a : arrays) : list cell := match a_elems a with Some cs => cs | None => [] end.
Definition live (x : cell) : list (K * V) := match x with Live e => [e] | _ => [] end.
Definition elems (a : arrays) : list (K * V) := flat_map live (cells a).

Record Shape (k : N) (a : arrays) : Prop := {
  sh_k : 1 <= k <= 60;
  sh_gsi : a_gsi a = 64 - k;
  sh_mask : a_mask a = 2 ^ k - 1;
  sh_groups : length (a_groups a) = N.to_nat (2 ^ k);
  sh_bytes : Forall (fun g => length g = 16%nat) (a_groups a);
  sh_elems : a_elems a = Some (cells a);
  sh_cells : length (cells a) = (15 * N.to_nat (2 ^ k) - 1)%nat;
  sh_sent : ctrl a (length (cells a)) = 1
}.

(** the element with this hash, stored in group [g], can be found: all groups before [g] on its
    probe path are marked as overflowed for its hash *)
Definition Reach (k : N) (a : arrays) (hash : N) (g : nat) : Prop :=
  exists j, N.of_nat j < 2 ^ k /\ probe_pos k (position hash (64 - k)) j = N.of_nat g /\
    forall j', (j' < j)%nat ->
      N.testbit (ovf a (N.to_nat (probe_pos k (position hash (64 - k)) j'))) (hash mod 8) = true.

Definition slot_ok (h k : N) (a : arrays) (i : nat) (x : cell) : Prop :=
  match x with
  | Raw => ctrl a i = 0
  | Moved => False
  | Live e => ctrl a i = low_class (hash_of c h (fst e)) /\ Reach k a (hash_of c h (fst e)) (i / 15)
  end.

Definition GoodA (h k : N) (a : arrays) : Prop :=
  Shape k a /\ forall i x, nth_error (cells a) i = Some x -> slot_ok h k a i x.

Lemma hash_lt h k : hash_of c h k < 2 ^ 64.
Proof. apply N.mod_lt. lia. Qed.

Lemma pow_nat_pos k : (0 < N.to_nat (2 ^ k))%nat.
Proof. pose proof (pow2_pos k). lia. Qed.
Lemma pow_ge2 k : 1 <= k -> 2 <= 2 ^ k.
Proof. intros H. change 2 with (2 ^ 1) at 1. apply N.pow_le_mono_r; lia. Qed.

Lemma shape_get_group k a g : Shape k a -> (g < N.to_nat (2 ^ k))%nat -> get_group a g = Some (grp a g).
Proof. intros H Hg. unfold get_group, grp. apply nth_error_nth'. rewrite (sh_groups _ _ H). exact Hg. Qed.
Lemma shape_grp_len k a g : Shape k a -> (g < N.to_nat (2 ^ k))%nat -> length (grp a g) = 16%nat.
Proof.
  intros H Hg. pose proof (sh_bytes _ _ H) as F. rewrite Forall_forall in F. apply F.
  unfold grp. apply nth_In. rewrite (sh_groups _ _ H). exact Hg.
Qed.
Lemma shape_div k a i : Shape k a -> (i < length (cells a))%nat -> (i / 15 < N.to_nat (2 ^ k))%nat.
Proof. intros H Hi. rewrite (sh_cells _ _ H) in Hi. apply div_lt_groups. lia. Qed.
Lemma shape_sent_pos k a : Shape k a ->
  (length (cells a) / 15 = N.to_nat (2 ^ k) - 1 /\ length (cells a) mod 15 = 14)%nat.
Proof.
  intros H. rewrite (sh_cells _ _ H). pose proof (pow_nat_pos k).
  replace (15 * N.to_nat (2 ^ k) - 1)%nat with (slot_index (N.to_nat (2 ^ k) - 1) 14) by (unfold slot_index; lia).
  split; [apply slot_div|apply slot_mod]; lia.
Qed.

(** pure updates *)
Definition upd_grp (a : arrays) (g : nat) (b : bytes16) : arrays :=
  Arr (a_gsi a) (a_mask a) (set_nth (a_groups a) g b) (a_elems a) (a_owner a).
Definition upd_cell (a : arrays) (i : nat) (x : cell) : arrays :=
  Arr (a_gsi a) (a_mask a) (a_groups a) (Some (set_nth (cells a) i x)) (a_owner a).

Lemma put_group_eq k a g f n : Shape k a -> (g < N.to_nat (2 ^ k))%nat ->
  put_group g f a n = Ret tt (upd_grp a g (f (grp a g))) n.
Proof.
  intros H Hg. unfold put_group. rewrite (sh_elems _ _ H).
  pose proof (shape_get_group _ _ _ H Hg) as E. unfold get_group in E. rewrite E.
  unfold upd_grp. rewrite (sh_elems _ _ H). reflexivity.
Qed.
Lemma put_cell_eq k a i x n : Shape k a -> (i < length (cells a))%nat ->
  put_cell i x a n = Ret tt (upd_cell a i x) n.
Proof.
  intros H Hi. unfold put_cell. rewrite (sh_elems _ _ H).
  destruct (nth_error (cells a) i) eqn:E; [reflexivity|]. apply nth_error_None in E. lia.
Qed.
Lemma get_cell_eq k a i : Shape k a -> get_cell a i = nth_error (cells a) i.
Proof. intros H. unfold get_cell. rewrite (sh_elems _ _ H). reflexivity. Qed.

Lemma grp_upd_grp a g b g' : (g < length (a_groups a))%nat ->
  grp (upd_grp a g b) g' = if Nat.eqb g' g then b else grp a g'.
Proof. intros H. unfold grp, upd_grp. cbn [a_groups]. apply set_nth_get. exact H. Qed.
Lemma cells_upd_grp a g b : cells (upd_grp a g b) = cells a. Proof. reflexivity. Qed.
Lemma cells_upd_cell a i x : cells (upd_cell a i x) = set_nth (cells a) i x. Proof. reflexivity. Qed.
Lemma grp_upd_cell a i x g : grp (upd_cell a i x) g = grp a g. Proof. reflexivity. Qed.
Lemma ctrl_upd_cell a i x j : ctrl (upd_cell a i x) j = ctrl a j. Proof. reflexivity. Qed.
Lemma ovf_upd_cell a i x g : ovf (upd_cell a i x) g = ovf a g. Proof. reflexivity. Qed.

Lemma set_nth_Forall {A} (P : A -> Prop) l i x : Forall P l -> P x -> Forall P (set_nth l i x).
Proof.
  intros Hl Hx. apply Forall_forall. intros y Hy.
  destruct (Nat.lt_ge_cases i (length l)) as [L|G].
  - apply In_nth_error in Hy as [j Hj]. rewrite set_nth_err in Hj by exact L.
    destruct (Nat.eqb j i); [congruence|]. apply nth_error_In in Hj.
    rewrite Forall_forall in Hl. auto.
  - unfold FoaModel.set_nth in Hy. rewrite firstn_all2, skipn_all2, app_nil_r in Hy by lia.
    rewrite Forall_forall in Hl. auto.
Qed.

(** replacing one byte of one group *)
Lemma ctrl_set_byte k a g m x i : Shape k a -> (g < N.to_nat (2 ^ k))%nat -> (m < 15)%nat ->
  ctrl (upd_grp a g (set_nth (grp a g) m x)) i = if Nat.eqb i (slot_index g m) then x else ctrl a i.
Proof.
  intros H Hg Hm. unfold ctrl. rewrite grp_upd_grp by (rewrite (sh_groups _ _ H); exact Hg).
  destruct (Nat.eqb_spec i (slot_index g m)) as [->|Hn].
  - rewrite slot_div, slot_mod, Nat.eqb_refl by exact Hm.
    rewrite set_nth_get by (rewrite (shape_grp_len _ _ _ H Hg); lia). rewrite Nat.eqb_refl. reflexivity.
  - destruct (Nat.eqb_spec (i / 15) g) as [Eg|Hg']; [|reflexivity].
    rewrite set_nth_get by (rewrite (shape_grp_len _ _ _ H Hg); lia).
    destruct (Nat.eqb_spec (i mod 15) m) as [Em|Hm']; [|rewrite Eg; reflexivity].
    exfalso. apply Hn. rewrite <- (slot_of i), Eg, Em. reflexivity.
Qed.
Lemma ovf_set_byte k a g m x g' : Shape k a -> (g < N.to_nat (2 ^ k))%nat -> (m < 15)%nat ->
  ovf (upd_grp a g (set_nth (grp a g) m x)) g' = ovf a g'.
Proof.
  intros H Hg Hm. unfold ovf. rewrite grp_upd_grp by (rewrite (sh_groups _ _ H); exact Hg).
  destruct (Nat.eqb_spec g' g) as [->|]; [|reflexivity].
  rewrite set_nth_get by (rewrite (shape_grp_len _ _ _ H Hg); lia).
  destruct (Nat.eqb_spec 15 m); [lia|reflexivity].
Qed.
Lemma ctrl_set_ovf k a g x i : Shape k a -> (g < N.to_nat (2 ^ k))%nat ->
  ctrl (upd_grp a g (set_nth (grp a g) 15 x)) i = ctrl a i.
Proof.
  intros H Hg. unfold ctrl. rewrite grp_upd_grp by (rewrite (sh_groups _ _ H); exact Hg).
  destruct (Nat.eqb_spec (i / 15) g) as [->|]; [|reflexivity].
  rewrite set_nth_get by (rewrite (shape_grp_len _ _ _ H Hg); lia).
  pose proof (mod15 i). destruct (Nat.eqb_spec (i mod 15) 15); [lia|reflexivity].
Qed.
Lemma ovf_set_ovf k a g x g' : Shape k a -> (g < N.to_nat (2 ^ k))%nat ->
  ovf (upd_grp a g (set_nth (grp a g) 15 x)) g' = if Nat.eqb g' g then x else ovf a g'.
Proof.
  intros H Hg. unfold ovf. rewrite grp_upd_grp by (rewrite (sh_groups _ _ H); exact Hg).
  destruct (Nat.eqb_spec g' g) as [->|]; [|reflexivity].
  rewrite set_nth_get by (rewrite (shape_grp_len _ _ _ H Hg); lia). reflexivity.
Qed.

Lemma shape_upd_grp k a g b : Shape k a -> (g < N.to_nat (2 ^ k))%nat -> length b = 16%nat ->
  ctrl (upd_grp a g b) (length (cells a)) = 1 -> Shape k (upd_grp a g b).
Proof.
  intros H Hg Hb Hs. destruct H. constructor; auto.
  - cbn [upd_grp a_groups]. rewrite set_nth_len. assumption.
  - cbn [upd_grp a_groups]. apply set_nth_Forall; assumption.
Qed.
Lemma shape_upd_cell k a i x : Shape k a -> Shape k (upd_cell a i x).
Proof.
  intros H. destruct H. constructor; auto.
  - rewrite cells_upd_cell, set_nth_len. assumption.
  - rewrite cells_upd_cell, set_nth_len. exact sh_sent0.
Qed.
Lemma shape_set_byte k a g m x : Shape k a -> (g < N.to_nat (2 ^ k))%nat -> (m < 15)%nat ->
  (slot_index g m <> length (cells a) \/ x = 1) -> Shape k (upd_grp a g (set_nth (grp a g) m x)).
Proof.
  intros H Hg Hm Hx. apply shape_upd_grp; auto.
  - rewrite set_nth_len. apply (shape_grp_len _ _ _ H Hg).
  - rewrite (ctrl_set_byte k) by assumption.
    destruct (Nat.eqb_spec (length (cells a)) (slot_index g m)) as [E|]; [|apply (sh_sent _ _ H)].
    destruct Hx; congruence.
Qed.
Lemma shape_set_ovf k a g x : Shape k a -> (g < N.to_nat (2 ^ k))%nat -> Shape k (upd_grp a g (set_nth (grp a g) 15 x)).
Proof.
  intros H Hg. apply shape_upd_grp; auto.
  - rewrite set_nth_len. apply (shape_grp_len _ _ _ H Hg).
  - rewrite (ctrl_set_ovf k) by assumption. apply (sh_sent _ _ H).
Qed.

(** elements after changing one slot *)
Lemma elems_set_live a i e : nth_error (cells a) i = Some Raw ->
  Permutation (elems (upd_cell a i (Live e))) (e :: elems a).
Proof.
  intros H. unfold elems. rewrite cells_upd_cell.
  destruct (set_nth_split _ _ (Live e) _ H) as (l1 & l2 & E1 & _ & E2). rewrite E2, E1.
  rewrite !flat_map_app. cbn [flat_map live app].
  symmetry. apply Permutation_middle.
Qed.
Lemma elems_set_dead a i e x : nth_error (cells a) i = Some (Live e) -> live x = [] ->
  Permutation (elems a) (e :: elems (upd_cell a i x)).
Proof.
  intros H Hx. unfold elems. rewrite cells_upd_cell.
  destruct (set_nth_split _ _ x _ H) as (l1 & l2 & E1 & _ & E2). rewrite E2, E1.
  rewrite !flat_map_app. cbn [flat_map]. rewrite Hx. cbn [live app].
  symmetry. apply Permutation_middle.
Qed.
Lemma elems_set_none a i x y : nth_error (cells a) i = Some y -> live x = [] -> live y = [] ->
  elems (upd_cell a i x) = elems a.
Proof.
  intros H Hx Hy. unfold elems. rewrite cells_upd_cell.
  destruct (set_nth_split _ _ x _ H) as (l1 & l2 & E1 & _ & E2). rewrite E2, E1.
  rewrite !flat_map_app. cbn [flat_map]. rewrite Hx, Hy. reflexivity.
Qed.
Lemma in_elems a e : In e (elems a) <-> exists i, nth_error (cells a) i = Some (Live e).
Proof.
  unfold elems. rewrite in_flat_map. split.
  - intros (x & Hx & He). apply In_nth_error in Hx as [i Hi]. exists i.
    destruct x; cbn in He; [tauto|tauto|]. destruct He as [->|[]]. exact Hi.
  - intros [i Hi]. exists (Live e). split; [apply nth_error_In in Hi; exact Hi|now left].
Qed.
Lemma elems_len a : (length (elems a) <= length (cells a))%nat.
Proof.
  unfold elems. induction (cells a) as [|x l IH]; [reflexivity|].
  cbn [flat_map length]. rewrite app_length. destruct x; cbn [live length]; lia.
Qed.
Lemma elems_full a : (forall i x, nth_error (cells a) i = Some x -> live x <> []) ->
  length (elems a) = length (cells a).
Proof.
  unfold elems. induction (cells a) as [|x l IH]; intros H; [reflexivity|].
  cbn [flat_map length]. rewrite app_length, IH.
  - specialize (H O x eq_refl). destruct x; cbn in *; congruence.
  - intros i y Hy. apply (H (S i) y Hy).
Qed.

(** ** occupied slots, in traversal order *)
Definition occ (a : arrays) : list nat := filter (fun i => negb (ctrl a i =? 0)) (seq 0 (length (cells a))).

Lemma filter_map_comm {A B} (f : A -> B) (P : B -> bool) l : filter P (map f l) = map f (filter (fun x => P (f x)) l).
Proof. induction l as [|x l IH]; [reflexivity|]. cbn. destruct (P (f x)); cbn; rewrite IH; reflexivity. Qed.
Lemma seq_map_add n m s : seq (s + n) m = map (fun i => s + i)%nat (seq n m).
Proof. revert n. induction m as [|m IH]; intros n; [reflexivity|]. cbn. f_equal. rewrite <- IH. f_equal. lia. Qed.

Definition occ_group (a : arrays) (last g : nat) : list nat :=
  map (slot_index g) (occ_bits (grp a g) (Nat.eqb (S g) last)).

Lemma occ_flat k a : Shape k a ->
  occ a = flat_map (occ_group a (N.to_nat (2 ^ k))) (seq 0 (N.to_nat (2 ^ k))).
Proof.
  intros H. unfold occ. rewrite (sh_cells _ _ H). pose proof (pow_nat_pos k) as P.
  set (G := N.to_nat (2 ^ k)) in *.
  set (Pf := fun i => negb (ctrl a i =? 0) && negb (Nat.eqb i (15 * G - 1))).
  assert (filter (fun i => negb (ctrl a i =? 0)) (seq 0 (15 * G - 1)) = filter Pf (seq 0 (15 * G))) as ->.
  { replace (seq 0 (15 * G)) with (seq 0 ((15 * G - 1) + 1)) by (f_equal; lia). rewrite seq_app, filter_app.
    replace (0 + (15 * G - 1))%nat with (15 * G - 1)%nat by lia.
    assert (filter Pf (seq (15 * G - 1) 1) = []) as ->.
    { cbn [seq filter]. unfold Pf. replace (Nat.eqb (15 * G - 1) (15 * G - 1)) with true by (symmetry; apply Nat.eqb_refl).
      cbn [negb]. rewrite andb_false_r. reflexivity. }
    rewrite app_nil_r. apply GroupProofs.filter_ext_in'. intros i Hi. apply in_seq in Hi. unfold Pf.
    destruct (Nat.eqb_spec i (15 * G - 1)); [lia|]. cbn [negb]. rewrite andb_true_r. reflexivity. }
  assert (forall m, (m <= G)%nat -> filter Pf (seq 0 (15 * m)) = flat_map (occ_group a G) (seq 0 m)) as W; [|apply W; lia].
  induction m as [|m IH]; intros Hm; [reflexivity|].
  replace (15 * S m)%nat with (15 * m + 15)%nat by lia.
  rewrite seq_app, filter_app, IH by lia.
  rewrite (seq_S m 0), flat_map_app. f_equal. cbn [flat_map]. rewrite app_nil_r. rewrite !Nat.add_0_l.
  replace (seq (15 * m) 15) with (seq (15 * m + 0) 15) by (f_equal; lia). rewrite seq_map_add, filter_map_comm.
  unfold occ_group, occ_bits.
  rewrite (map_ext (slot_index m) (fun i => 15 * m + i)%nat) by (intros; unfold slot_index; lia).
  f_equal. apply GroupProofs.filter_ext_in'. intros i Hi. apply in_seq in Hi.
  replace (15 * m + i)%nat with (slot_index m i) by (unfold slot_index; lia).
  unfold Pf, ctrl. rewrite slot_div, slot_mod by lia. f_equal. f_equal.
  unfold slot_index. destruct (Nat.eqb_spec (m * 15 + i) (15 * G - 1)), (Nat.eqb_spec (S m) G), (Nat.eqb_spec i 14); cbn; try reflexivity; lia.
Qed.

Lemma occ_in k a i : Shape k a -> In i (occ a) -> (i < length (cells a))%nat /\ ctrl a i <> 0.
Proof.
  intros H Hi. unfold occ in Hi. apply filter_In in Hi as [H1 H2]. apply in_seq in H1.
  split; [lia|]. intros C. rewrite C in H2. discriminate.
Qed.

(** The traversal loop. [I done todo s] is an invariant; a step may stop the loop. *)
Section ForAll.
Context {St : Type} (sel : St -> arrays) (f : nat -> nat -> M St bool) (k : N) (a0 : arrays).
Variable I : list nat -> list nat -> St -> Prop.
Variable Stop : St -> Prop.
Variable E : kind -> St -> Prop.
Hypothesis HS : Shape k a0.
Hypothesis Hstep : forall done i todo s n, done ++ i :: todo = occ a0 -> I done (i :: todo) s ->
  outcome (f (i / 15)%nat (i mod 15)%nat s n) (fun b s' => if b : bool then I (done ++ [i]) todo s' else Stop s') E.
Hypothesis Hframe : forall done todo s g, done ++ todo = occ a0 -> I done todo s -> (g < N.to_nat (2 ^ k))%nat ->
  (forall i, In i done -> (i / 15 < g)%nat) -> get_group (sel s) g = Some (grp a0 g).

Lemma fa_mask_ok g : forall ns done rest s n, (forall m, In m ns -> (m < 15)%nat) ->
  done ++ map (slot_index g) ns ++ rest = occ a0 -> I done (map (slot_index g) ns ++ rest) s ->
  outcome (fa_mask f g ns s n)
    (fun b s' => if b : bool then I (done ++ map (slot_index g) ns) rest s' else Stop s') E.
Proof.
  induction ns as [|m ns IH]; intros done rest s n Hm Ho Hi.
  - cbn. rewrite app_nil_r. exact Hi.
  - cbn [fa_mask]. cbn [map app] in *.
    pose proof (Hstep done (slot_index g m) (map (slot_index g) ns ++ rest) s n Ho Hi) as St1.
    rewrite slot_div, slot_mod in St1 by (apply Hm; now left).
    eapply outcome_bind; [exact St1|]. intros b s' n' Hb. destruct b; [|exact Hb].
    specialize (IH (done ++ [slot_index g m]) rest s' n').
    rewrite <- !app_assoc in IH. cbn [app] in IH. apply IH; auto. intros m' Hm'. apply Hm. now right.
Qed.

Lemma fa_groups_ok : forall rem g done s n,
  let G := N.to_nat (2 ^ k) in (g + rem = G)%nat ->
  let rest := flat_map (occ_group a0 G) (seq g rem) in
  done ++ rest = occ a0 -> (forall i, In i done -> (i / 15 < g)%nat) -> I done rest s ->
  outcome (fa_groups sel f G rem g s n)
    (fun b s' => if b : bool then I (occ a0) [] s' else Stop s') E.
Proof.
  induction rem as [|rem IH]; intros g done s n G Hg rest Ho Hd Hi.
  - cbn in rest. subst rest. rewrite app_nil_r in Ho. subst done. exact Hi.
  - cbn [fa_groups]. rewrite bind_get.
    rewrite (Hframe done rest s g Ho Hi) by (auto; fold G; lia).
    assert (length (grp a0 g) = 16%nat) as L by (apply (shape_grp_len k); [exact HS|fold G; lia]).
    rewrite really_occupied_bits by exact L.
    cbn [seq flat_map] in rest. set (rest' := flat_map (occ_group a0 G) (seq (S g) rem)) in *.
    unfold rest, occ_group in Ho, Hi. fold rest' in Ho, Hi.
    assert (forall m, In m (occ_bits (grp a0 g) (Nat.eqb (S g) G)) -> (m < 15)%nat) as Hm.
    { intros m Hm. unfold occ_bits in Hm. apply filter_In in Hm as [Hm _]. apply in_seq in Hm. lia. }
    eapply outcome_bind; [apply (fa_mask_ok g _ done rest'); eauto|].
    intros b s' n' Hb. destruct b; [|exact Hb].
    apply IH with (done := done ++ map (slot_index g) (occ_bits (grp a0 g) (Nat.eqb (S g) G))); fold G; auto.
    + lia.
    + fold rest'. rewrite <- app_assoc. exact Ho.
    + intros i Hin. apply in_app_or in Hin as [Hin|Hin]; [specialize (Hd i Hin); lia|].
      apply in_map_iff in Hin as (m & <- & Hm'). rewrite slot_div by auto. lia.
Qed.

Lemma for_all_while_ok s n : a_elems (sel s) = Some (cells (sel s)) -> a_mask (sel s) = 2 ^ k - 1 ->
  I [] (occ a0) s ->
  outcome (for_all_while sel f s n) (fun b s' => if b : bool then I (occ a0) [] s' else Stop s') E.
Proof.
  intros He Hmask Hi. unfold for_all_while. rewrite bind_get, He, Hmask.
  replace (2 ^ k - 1 + 1) with (2 ^ k) by (pose proof (pow2_pos k); lia).
  apply fa_groups_ok with (done := []); auto.
  - rewrite <- occ_flat by exact HS. reflexivity.
  - intros i [].
  - rewrite <- occ_flat by exact HS. exact Hi.
Qed.
End ForAll.

Lemma for_all_ok {St} (sel : St -> arrays) (f : nat -> nat -> M St unit) k a0
  (I : list nat -> list nat -> St -> Prop) (E : kind -> St -> Prop) s n :
  Shape k a0 ->
  (forall done i todo s n, done ++ i :: todo = occ a0 -> I done (i :: todo) s ->
     outcome (f (i / 15)%nat (i mod 15)%nat s n) (fun _ s' => I (done ++ [i]) todo s') E) ->
  (forall done todo s g, done ++ todo = occ a0 -> I done todo s -> (g < N.to_nat (2 ^ k))%nat ->
     (forall i, In i done -> (i / 15 < g)%nat) -> get_group (sel s) g = Some (grp a0 g)) ->
  a_elems (sel s) = Some (cells (sel s)) -> a_mask (sel s) = 2 ^ k - 1 ->
  I [] (occ a0) s ->
  outcome (for_all sel f s n) (fun _ s' => I (occ a0) [] s') E.
Proof.
  intros HS Hstep Hframe He Hm Hi. unfold for_all.
  eapply outcome_bind.
  - apply (for_all_while_ok sel _ k a0 I (fun _ => False) E HS); auto.
    intros done i todo s' n' Ho Hi'. eapply outcome_bind; [apply Hstep; eauto|].
    intros [] s'' n'' H. exact H.
  - intros b s' n' Hb. destruct b; [exact Hb|destruct Hb].
Qed.
End Inv.
