(** Arrays of the open-addressing table: allocation, destruction loops, erasure. *)
From Coq Require Import NArith ZArith Bool List Arith Lia ZifyBool ZifyNat ZifyN Permutation.
From Verif Require Import FloatModel SizeModel SizeProofs GroupModel GroupSpec FoaModel FoaGroup FoaBase FoaFind.
Import ListNotations.
Local Open Scope N_scope.

(** ** capacity arithmetic *)
Lemma groups_small n : n < 30 -> groups_for n = 2.
Proof.
  intros H. unfold groups_for, size_index_for, size_index, size_of, GN.
  assert (n / 15 < 2) by (apply N.div_lt_upper_bound; lia).
  destruct (N.leb_spec (n / 15 + 1) 2); [reflexivity|lia].
Qed.
Lemma groups_for_cap k : 1 <= k <= 60 -> groups_for (15 * 2 ^ k - 1) = 2 ^ k /\ size_index_for (15 * 2 ^ k - 1) = 64 - k.
Proof.
  intros Hk. unfold groups_for, size_index_for.
  assert ((15 * 2 ^ k - 1) / GN + 1 = 2 ^ k) as ->.
  { unfold GN. pose proof (pow2_pos k).
    replace (15 * 2 ^ k - 1) with ((2 ^ k - 1) * 15 + 14) by lia. rewrite N.div_add_l by lia.
    change (14 / 15) with 0. lia. }
  assert (size_index (2 ^ k) = 64 - k) as E.
  { unfold size_index. destruct (N.leb_spec (2 ^ k) 2) as [L|L].
    - assert (k = 1) as ->; [|reflexivity]. assert (2 ^ k <= 2 ^ 1) as L' by exact L.
      apply N.pow_le_mono_r_iff in L'; lia.
    - f_equal. rewrite N.size_log2 by lia. replace (2 ^ k - 1) with (N.pred (2 ^ k)) by lia.
      rewrite N.log2_pred_pow2 by lia. lia. }
  rewrite E. split; [|reflexivity]. unfold size_of. f_equal. lia.
Qed.
Lemma ceil16_check : forallb (fun k => ceil_div_mlf (16 * 2 ^ k) <=? 20 * 2 ^ k) ks = true.
Proof. vm_compute. reflexivity. Qed.
Lemma ceil_groups n k : 1 <= k <= 57 -> n <= 16 * 2 ^ k ->
  ceil_div_mlf n < 2 ^ 64 /\ groups_for (ceil_div_mlf n) <= 8 * 2 ^ k.
Proof.
  intros Hk Hn. pose proof ceil16_check as C. rewrite forallb_forall in C.
  specialize (C k (in_ks k ltac:(lia))). apply N.leb_le in C.
  pose proof (ceil_div_mlf_mono _ _ Hn) as M. set (m := ceil_div_mlf n) in *.
  assert (2 ^ k <= 2 ^ 57) as P by (apply N.pow_le_mono_r; lia).
  change (2 ^ 57) with 144115188075855872 in P. change (2 ^ 64) with 18446744073709551616.
  assert (m < 18446744073709551616) as Lm by lia. split; [exact Lm|].
  destruct (N.lt_ge_cases m 30) as [S|G].
  - rewrite groups_small by exact S. pose proof (pow2_pos k). lia.
  - destruct (groups_for_pow m Lm) as (k' & _ & _ & -> & _ & H). specialize (H G). lia.
Qed.

Lemma buffer_fits_mono e g g' : 0 < g -> g <= g' -> buffer_fits e g' = true -> buffer_fits e g = true.
Proof.
  unfold buffer_fits, buffer_bytes, GN. intros H0 H F. apply N.ltb_lt in F. apply N.ltb_lt.
  assert (e * (g * 15 - 1) <= e * (g' * 15 - 1)) by (apply N.mul_le_mono_l; lia). lia.
Qed.

Record good_cfg {K V} (c : Cfg K V) : Prop := {
  gc_esz : 0 < esz c;
  gc_gmax : 1 <= gmax c;
  gc_fits : buffer_fits (esz c) (8 * gmax c) = true
}.
Lemma gmax_bound {K V} (c : Cfg K V) : good_cfg c -> gmax c < 2 ^ 57.
Proof.
  intros [A B C]. unfold buffer_fits, buffer_bytes, GN in C. apply N.ltb_lt in C.
  change (2 ^ 57) with 144115188075855872. change (2 ^ 64) with 18446744073709551616 in C. lia.
Qed.
Lemma k_bound {K V} (c : Cfg K V) k : good_cfg c -> 2 ^ k <= gmax c -> k <= 57.
Proof.
  intros H L. pose proof (gmax_bound c H). assert (2 ^ k < 2 ^ 57) as P by lia.
  apply N.pow_lt_mono_r_iff in P; lia.
Qed.

Lemma list_ext {A} (l l' : list A) : (forall i, nth_error l i = nth_error l' i) -> l = l'.
Proof.
  revert l'. induction l as [|x l IH]; intros [|y l'] H; auto.
  - specialize (H O). discriminate.
  - specialize (H O). discriminate.
  - pose proof (H O) as E. injection E as ->. f_equal. apply IH. intros i. apply (H (S i)).
Qed.

Section Arr.
Context {K V : Type} (c : Cfg K V).
Notation arrays := (arrays K V).
Notation table := (table K V).
Notation cell := (cell K V).

(** ** weak validity: metadata matches the presence of objects *)
Definition GoodW (k : N) (a : arrays) : Prop :=
  Shape k a /\ forall i x, nth_error (cells a) i = Some x -> (x = Raw <-> ctrl a i = 0).
Lemma good_w h k a : GoodA c h k a -> GoodW k a.
Proof.
  intros [HS HG]. split; [exact HS|]. intros i x Hx. specialize (HG i x Hx).
  destruct x as [| |e]; cbn in HG; [tauto|destruct HG|].
  destruct HG as [E _]. pose proof (low_class_ge2 (hash_of c h (fst e))). split; [discriminate|lia].
Qed.
Lemma w_occ k a i : GoodW k a -> In i (occ a) <-> exists x, nth_error (cells a) i = Some x /\ x <> Raw.
Proof.
  intros [HS HG]. unfold occ. rewrite filter_In, in_seq. split.
  - intros [Hi Hc]. destruct (nth_error (cells a) i) as [x|] eqn:E; [|apply nth_error_None in E; lia].
    exists x. split; [reflexivity|]. intros C. apply (HG i x E) in C. rewrite C in Hc. discriminate.
  - intros (x & Hx & Hn). assert (i < length (cells a))%nat by (apply nth_error_Some; congruence).
    split; [lia|]. destruct (N.eqb_spec (ctrl a i) 0) as [E|]; [|reflexivity].
    exfalso. apply Hn. apply (HG i x Hx). exact E.
Qed.
Lemma good_occ h k a i : GoodA c h k a -> In i (occ a) <-> exists e, nth_error (cells a) i = Some (Live e).
Proof.
  intros H. rewrite (w_occ k) by (eapply good_w; eauto). split.
  - intros (x & Hx & Hn). destruct H as [_ H]. specialize (H i x Hx). destruct x as [| |e]; [congruence|destruct H|eauto].
  - intros [e He]. exists (Live e). split; [exact He|discriminate].
Qed.
Lemma occ_nodup (a : arrays) : NoDup (occ a).
Proof. apply NoDup_filter, seq_NoDup. Qed.

(** elements of the given slots *)
Definition at_slots (a : arrays) (l : list nat) : list (K * V) :=
  flat_map (fun i => match nth_error (cells a) i with Some x => live x | None => [] end) l.
Lemma at_slots_app a l l' : at_slots a (l ++ l') = at_slots a l ++ at_slots a l'.
Proof. apply flat_map_app. Qed.
Lemma at_slots_one a i e : nth_error (cells a) i = Some (Live e) -> at_slots a [i] = [e].
Proof. intros H. unfold at_slots. cbn. rewrite H. reflexivity. Qed.

Lemma flat_map_seq (l : list cell) s : 
  flat_map live l = flat_map (fun i => match nth_error l (i - s) with Some x => live x | None => [] end) (seq s (length l)).
Proof.
  revert s. induction l as [|x l IH]; intros s; [reflexivity|].
  cbn [flat_map length seq]. replace (s - s)%nat with O by lia. cbn [nth_error]. f_equal.
  rewrite (IH (S s)). rewrite !flat_map_concat_map. f_equal. apply map_ext_in. intros i Hi. apply in_seq in Hi.
  replace (i - s)%nat with (S (i - S s)) by lia. reflexivity.
Qed.
Lemma flat_map_filter {A B} (f : A -> list B) (P : A -> bool) l :
  (forall x, In x l -> P x = false -> f x = []) -> flat_map f (filter P l) = flat_map f l.
Proof.
  induction l as [|x l IH]; intros H; [reflexivity|]. cbn [filter flat_map].
  destruct (P x) eqn:E; [cbn [flat_map]; rewrite IH; [reflexivity|]|rewrite IH, (H x); [reflexivity|now left|exact E|]];
  intros y Hy; apply H; now right.
Qed.
(** traversal order is slot order *)
Lemma elems_occ h k a : GoodA c h k a -> elems a = at_slots a (occ a).
Proof.
  intros [HS HG]. unfold elems, at_slots, occ. rewrite flat_map_filter.
  - rewrite (flat_map_seq _ 0). rewrite !flat_map_concat_map. f_equal. apply map_ext. intros i. rewrite Nat.sub_0_r. reflexivity.
  - intros i _ Hc. destruct (nth_error (cells a) i) as [x|] eqn:E; [|reflexivity].
    specialize (HG i x E). destruct x as [| |e]; try reflexivity. cbn in HG. destruct HG as [Ec _].
    pose proof (low_class_ge2 (hash_of c h (fst e))). destruct (N.eqb_spec (ctrl a i) 0); [lia|discriminate].
Qed.
Lemma at_slots_live a l : (forall i, In i l -> exists e, nth_error (cells a) i = Some (Live e)) ->
  length (at_slots a l) = length l.
Proof.
  unfold at_slots. induction l as [|i l IH]; intros H; [reflexivity|].
  cbn [flat_map]. rewrite app_length. destruct (H i (or_introl eq_refl)) as [e ->].
  rewrite IH by (intros j Hj; apply H; now right). reflexivity.
Qed.
Lemma occ_length h k a : GoodA c h k a -> length (occ a) = length (elems a).
Proof.
  intros H. rewrite (elems_occ h k a H). symmetry. apply at_slots_live. intros i Hi. eapply good_occ; eauto.
Qed.

(** ** emptying slots *)
(** [wiped D a a']: the objects in slots D are gone, metadata as before *)
Record wiped (D : list nat) (a a' : arrays) : Prop := {
  wi_gsi : a_gsi a' = a_gsi a; wi_mask : a_mask a' = a_mask a; wi_owner : a_owner a' = a_owner a;
  wi_groups : a_groups a' = a_groups a;
  wi_elems : a_elems a' = Some (cells a');
  wi_len : length (cells a') = length (cells a);
  wi_in : forall i, In i D -> nth_error (cells a') i = Some Raw;
  wi_out : forall i, ~ In i D -> nth_error (cells a') i = nth_error (cells a) i
}.
Lemma wiped_nil k a : Shape k a -> wiped [] a a.
Proof. intros H. constructor; auto; [apply (sh_elems _ _ H)|intros i []]. Qed.
Lemma wiped_shape D k a a' : wiped D a a' -> Shape k a -> Shape k a'.
Proof.
  intros W H. destruct W, H. constructor; try congruence.
  unfold ctrl, grp in *. rewrite wi_groups0, wi_len0. assumption.
Qed.
Lemma wiped_ctrl D a a' i : wiped D a a' -> ctrl a' i = ctrl a i.
Proof. intros W. unfold ctrl, grp. rewrite (wi_groups _ _ _ W). reflexivity. Qed.
Lemma wiped_ovf D a a' g : wiped D a a' -> ovf a' g = ovf a g.
Proof. intros W. unfold ovf, grp. rewrite (wi_groups _ _ _ W). reflexivity. Qed.
Lemma wiped_grp D a a' g : wiped D a a' -> grp a' g = grp a g.
Proof. intros W. unfold grp. rewrite (wi_groups _ _ _ W). reflexivity. Qed.
Lemma wiped_step D k a a' i : Shape k a -> wiped D a a' -> (i < length (cells a))%nat ->
  wiped (D ++ [i]) a (upd_cell a' i Raw).
Proof.
  intros HS W Hi. pose proof (wi_len _ _ _ W) as L. destruct W. constructor; auto.
  - rewrite cells_upd_cell, set_nth_len. assumption.
  - intros j Hj. rewrite cells_upd_cell, set_nth_err by lia. destruct (Nat.eqb_spec j i); [reflexivity|].
    apply wi_in0. apply in_app_or in Hj as [|[|[]]]; [assumption|congruence].
  - intros j Hj. rewrite cells_upd_cell, set_nth_err by lia. destruct (Nat.eqb_spec j i) as [->|].
    + exfalso. apply Hj. apply in_or_app. right. now left.
    + apply wi_out0. intros C. apply Hj. apply in_or_app. now left.
Qed.
Lemma wiped_elems k : forall D a a', Shape k a -> wiped D a a' -> NoDup D -> (forall i, In i D -> (i < length (cells a))%nat) ->
  Permutation (elems a) (at_slots a D ++ elems a').
Proof.
  induction D as [|i D IH]; intros a a' HS W ND HD.
  - cbn [at_slots flat_map app]. assert (cells a' = cells a) as E.
    { apply list_ext. intros i. apply (wi_out _ _ _ W). intros []. }
    unfold elems. rewrite E. reflexivity.
  - inversion ND as [|? ? Hni ND']; subst. pose proof (HD i (or_introl eq_refl)) as Hi.
    set (a1 := upd_cell a i Raw).
    assert (wiped D a1 a') as W1.
    { unfold a1. destruct W. constructor; auto.
      - rewrite cells_upd_cell, set_nth_len. assumption.
      - intros j Hj. apply wi_in0. now right.
      - intros j Hj. rewrite cells_upd_cell, set_nth_err by exact Hi. destruct (Nat.eqb_spec j i) as [->|Hne].
        + apply wi_in0. now left.
        + apply wi_out0. intros [C|C]; [congruence|auto]. }
    assert (Permutation (elems a) (at_slots a [i] ++ elems a1)) as P1.
    { unfold at_slots. cbn [flat_map]. rewrite app_nil_r.
      destruct (nth_error (cells a) i) as [x|] eqn:Ex; [|apply nth_error_None in Ex; lia].
      destruct x as [| |e]; cbn [live app].
      - unfold a1. rewrite (elems_set_none a i Raw Raw); auto.
      - unfold a1. rewrite (elems_set_none a i Raw Moved); auto.
      - apply (elems_set_dead a i e Raw); auto. }
    specialize (IH a1 a' (shape_upd_cell k a i Raw HS) W1 ND').
    rewrite (at_slots_app a [i] D : at_slots a (i :: D) = _), <- app_assoc.
    rewrite P1. apply Permutation_app_head.
    assert (at_slots a D = at_slots a1 D) as ->.
    { unfold at_slots. rewrite !flat_map_concat_map. f_equal. apply map_ext_in. intros j Hj.
      unfold a1. rewrite cells_upd_cell, set_nth_err by exact Hi. destruct (Nat.eqb_spec j i); [subst; contradiction|reflexivity]. }
    apply IH. intros j Hj. unfold a1. rewrite cells_upd_cell, set_nth_len. apply HD. now right.
Qed.
Lemma wiped_all k a a' : GoodW k a -> wiped (occ a) a a' -> forallb is_raw (cells a') = true.
Proof.
  intros HG W. apply forallb_forall. intros x Hx. apply In_nth_error in Hx as [i Hi].
  destruct (in_dec Nat.eq_dec i (occ a)) as [I|I].
  - rewrite (wi_in _ _ _ W i I) in Hi. injection Hi as <-. reflexivity.
  - rewrite (wi_out _ _ _ W i I) in Hi. destruct x; [reflexivity| |]; exfalso; apply I; apply (w_occ k); eauto; eexists; split; eauto; discriminate.
Qed.

Lemma destroy_eq k (a : arrays) i n x : Shape k a -> nth_error (cells a) i = Some x -> x <> Raw ->
  destroy_element i a n = Ret tt (upd_cell a i Raw) n.
Proof.
  intros HS Hx Hr. unfold destroy_element. rewrite bind_get, (get_cell_eq k), Hx by exact HS.
  assert (i < length (cells a))%nat as L by (apply nth_error_Some; congruence).
  destruct x; [congruence| |]; apply (put_cell_eq k); assumption.
Qed.

(** a loop destroying every object of an array *)
Lemma destroy_all {St} (sel : St -> arrays) (upd : St -> arrays -> St) (f : nat -> nat -> M St unit) k s n :
  (forall s a, sel (upd s a) = a) -> (forall s a b, upd (upd s a) b = upd s b) -> (forall s, upd s (sel s) = s) ->
  (forall g m s n, f g m s n = lens sel upd (destroy_element (slot_index g m)) s n) ->
  GoodW k (sel s) ->
  outcome (for_all sel f s n) (fun _ s' => exists a', s' = upd s a' /\ wiped (occ (sel s)) (sel s) a') (fun _ _ => False).
Proof.
  intros H1 H2 H3 Hf HG. pose proof HG as [HS _]. set (a0 := sel s) in *.
  apply (for_all_ok sel f k a0 (fun done todo s' => exists a', s' = upd s a' /\ wiped done a0 a')).
  - exact HS.
  - intros done i todo s' n' Ho (a' & -> & W).
    rewrite Hf, slot_of. unfold lens. rewrite H1.
    assert (In i (occ a0)) as Hi by (rewrite <- Ho; apply in_or_app; right; now left).
    pose proof (occ_nodup a0) as ND. rewrite <- Ho in ND. apply NoDup_remove_2 in ND.
    apply (w_occ k) in Hi as (x & Hx & Hn); [|exact HG].
    assert (i < length (cells a0))%nat as L by (apply nth_error_Some; congruence).
    erewrite (destroy_eq k).
    + cbn [outcome]. rewrite H2. exists (upd_cell a' i Raw). split; [reflexivity|]. eapply wiped_step; eauto.
    + eapply wiped_shape; eauto.
    + rewrite (wi_out _ _ _ W); [exact Hx|]. intros C. apply ND. apply in_or_app. now left.
    + exact Hn.
  - intros done todo s' g Ho (a' & -> & W) Hg _. rewrite H1.
    rewrite (shape_get_group k) by (eauto using wiped_shape). rewrite (wiped_grp _ _ _ _ W). reflexivity.
  - apply (sh_elems _ _ HS).
  - apply (sh_mask _ _ HS).
  - exists a0. split; [unfold a0; now rewrite H3|eapply wiped_nil; eauto].
Qed.

(** ** erased slots: objects gone and metadata reset *)
Record erased (k : N) (D : list nat) (a a' : arrays) : Prop := {
  er_shape : Shape k a'; er_owner : a_owner a' = a_owner a;
  er_len : length (cells a') = length (cells a);
  er_in : forall i, In i D -> nth_error (cells a') i = Some Raw /\ ctrl a' i = 0;
  er_out : forall i, ~ In i D -> nth_error (cells a') i = nth_error (cells a) i /\ ctrl a' i = ctrl a i;
  er_ovf : forall g, ovf a' g = ovf a g;
  er_grp : forall g, (forall i, In i D -> (i / 15)%nat <> g) -> grp a' g = grp a g
}.
Lemma erased_nil k a : Shape k a -> erased k [] a a.
Proof. intros H. constructor; auto; intros i []. Qed.
Lemma good_erased h k D a a' : GoodA c h k a -> erased k D a a' -> GoodA c h k a'.
Proof.
  intros [HS HG] W. split; [apply W|]. intros i x Hx.
  destruct (in_dec Nat.eq_dec i D) as [I|I].
  - destruct (er_in _ _ _ _ W i I) as [E1 E2]. rewrite E1 in Hx. injection Hx as <-. exact E2.
  - destruct (er_out _ _ _ _ W i I) as [E1 E2]. rewrite E1 in Hx. specialize (HG i x Hx).
    destruct x as [| |e]; cbn [slot_ok] in *; [congruence|exact HG|]. rewrite E2. destruct HG as [A B].
    split; [exact A|]. eapply reach_mono; [|exact B]. intros g j. rewrite (er_ovf _ _ _ _ W). auto.
Qed.
Lemma erased_wiped k D a a' : Shape k a -> erased k D a a' ->
  wiped D a (Arr (a_gsi a) (a_mask a) (a_groups a) (a_elems a') (a_owner a)).
Proof.
  intros HS W. pose proof (sh_elems _ _ (er_shape _ _ _ _ W)) as E.
  constructor; cbn [a_gsi a_mask a_owner a_groups a_elems]; auto.
  - unfold cells. cbn [a_elems]. fold (cells a'). apply (er_len _ _ _ _ W).
  - intros i Hi. apply (er_in _ _ _ _ W i Hi).
  - intros i Hi. apply (er_out _ _ _ _ W i Hi).
Qed.
Lemma erased_elems k D a a' : Shape k a -> erased k D a a' -> NoDup D -> (forall i, In i D -> (i < length (cells a))%nat) ->
  Permutation (elems a) (at_slots a D ++ elems a').
Proof. intros HS W ND HD. exact (wiped_elems k D a _ HS (erased_wiped k D a a' HS W) ND HD). Qed.

(** resetting the metadata of one slot whose object is gone *)
Definition reset1 (a : arrays) (i : nat) : arrays := upd_grp a (i / 15) (b_reset (grp a (i / 15)) (i mod 15)).
Lemma reset1_facts k a i : Shape k a -> (i < length (cells a))%nat ->
  Shape k (reset1 a i) /\ (forall j, ctrl (reset1 a i) j = if Nat.eqb j i then 0 else ctrl a j) /\
  (forall g, ovf (reset1 a i) g = ovf a g) /\ cells (reset1 a i) = cells a /\ a_owner (reset1 a i) = a_owner a /\
  (forall g, (i / 15)%nat <> g -> grp (reset1 a i) g = grp a g).
Proof.
  intros HS Hi. pose proof (mod15 i) as M. pose proof (shape_div _ _ _ HS Hi) as D. unfold reset1. rewrite b_reset_eq.
  split; [apply shape_set_byte; auto; rewrite slot_of; lia|].
  split; [intros j; rewrite (ctrl_set_byte k), slot_of by assumption; reflexivity|].
  split; [intros g; apply (ovf_set_byte k); assumption|].
  split; [reflexivity|]. split; [reflexivity|].
  intros g Hg. rewrite grp_upd_grp by (rewrite (sh_groups _ _ HS); exact D).
  destruct (Nat.eqb_spec g (i / 15)%nat); [congruence|reflexivity].
Qed.
Lemma erased_step k D a a' i : erased k D a a' -> (i < length (cells a))%nat ->
  erased k (D ++ [i]) a (reset1 (upd_cell a' i Raw) i).
Proof.
  intros W Hi. pose proof (er_len _ _ _ _ W) as L.
  pose proof (shape_upd_cell k a' i Raw (er_shape _ _ _ _ W)) as HS1.
  destruct (reset1_facts k (upd_cell a' i Raw) i HS1) as (F1 & F2 & F3 & F4 & F5 & F6).
  { rewrite cells_upd_cell, set_nth_len. lia. }
  constructor.
  - exact F1.
  - rewrite F5. apply (er_owner _ _ _ _ W).
  - rewrite F4, cells_upd_cell, set_nth_len. exact L.
  - intros j Hj. rewrite F4, cells_upd_cell, set_nth_err, F2, ctrl_upd_cell by lia.
    destruct (Nat.eqb_spec j i) as [->|Hne]; [auto|]. apply (er_in _ _ _ _ W).
    apply in_app_or in Hj as [|[|[]]]; [assumption|congruence].
  - intros j Hj. rewrite F4, cells_upd_cell, set_nth_err, F2, ctrl_upd_cell by lia.
    destruct (Nat.eqb_spec j i) as [->|Hne].
    + exfalso. apply Hj, in_or_app. right. now left.
    + apply (er_out _ _ _ _ W). intros C. apply Hj, in_or_app. now left.
  - intros g. rewrite F3, ovf_upd_cell. apply (er_ovf _ _ _ _ W).
  - intros g Hg. rewrite F6, grp_upd_cell.
    + apply (er_grp _ _ _ _ W). intros j Hj. apply Hg, in_or_app. now left.
    + apply Hg, in_or_app. right. now left.
Qed.

(** ** allocation *)
Record Fresh (al k : N) (a : arrays) : Prop := {
  fr_shape : Shape k a; fr_owner : a_owner a = al;
  fr_raw : forall i, (i < length (cells a))%nat -> nth_error (cells a) i = Some Raw /\ ctrl a i = 0
}.
Lemma fresh_good h al k a : Fresh al k a -> GoodA c h k a.
Proof.
  intros [HS HO HR]. split; [exact HS|]. intros i x Hx.
  assert (i < length (cells a))%nat as L by (apply nth_error_Some; congruence).
  destruct (HR i L) as [E1 E2]. rewrite E1 in Hx. injection Hx as <-. exact E2.
Qed.
Lemma all_raw_elems (a : arrays) : (forall i, (i < length (cells a))%nat -> nth_error (cells a) i = Some Raw) -> elems a = [].
Proof.
  intros H. unfold elems. induction (cells a) as [|x l IH]; [reflexivity|].
  pose proof (H O ltac:(cbn; lia)) as E. cbn in E. injection E as ->. cbn [flat_map live app].
  apply IH. intros i Hi. apply (H (S i)). cbn. lia.
Qed.
Lemma fresh_elems al k a : Fresh al k a -> elems a = [].
Proof. intros [_ _ H]. apply all_raw_elems. intros i Hi. apply (H i Hi). Qed.

Lemma nth_repeat_groups {A} (x d : A) n g : nth g (repeat x n) d = if Nat.ltb g n then x else d.
Proof.
  revert g. induction n as [|n IH]; intros [|g]; auto.
  cbn [repeat nth]. rewrite IH. reflexivity.
Qed.

Lemma fresh_arrays al k gsi : 1 <= k <= 60 -> gsi = 64 - k ->
  Fresh al k (Arr gsi (2 ^ k - 1)
    (FoaModel.set_nth (repeat b_initialize (N.to_nat (2 ^ k))) (N.to_nat (2 ^ k) - 1) (b_set_sentinel b_initialize))
    (Some (repeat (@Raw K V) (N.to_nat (2 ^ k * GN - 1)))) al).
Proof.
  intros Hk ->. pose proof (pow_nat_pos k) as P. set (G := N.to_nat (2 ^ k)) in *.
  assert (N.to_nat (2 ^ k * GN - 1) = 15 * G - 1)%nat as EC by (unfold GN, G; lia). rewrite EC.
  set (a := Arr _ _ _ _ _).
  assert (forall g, grp a g = if Nat.eqb g (G - 1) then b_set_sentinel b_initialize else if Nat.ltb g G then b_initialize else []) as Hg.
  { intros g. unfold grp, a. cbn [a_groups]. rewrite set_nth_get by (rewrite repeat_length; lia).
    destruct (Nat.eqb g (G - 1)); [reflexivity|]. apply nth_repeat_groups. }
  assert (cells a = repeat Raw (15 * G - 1)) as Ecl by reflexivity.
  assert (forall i, (i < 15 * G)%nat -> ctrl a i = if Nat.eqb i (15 * G - 1) then 1 else 0) as Hc.
  { intros i Hi. unfold ctrl. rewrite Hg. pose proof (mod15 i) as M. pose proof (div_lt_groups i G Hi) as D.
    assert (i = 15 * (i / 15) + i mod 15)%nat as Ei by (apply Nat.div_mod; lia).
    set (q := (i / 15)%nat) in *. set (r := (i mod 15)%nat) in *.
    destruct (Nat.eqb_spec q (G - 1)) as [Eq|Nq].
    - destruct (Nat.eqb_spec i (15 * G - 1)) as [Ee|Ne].
      + assert (r = 14%nat) as -> by lia. reflexivity.
      + assert (r < 14)%nat as Lr by lia. clear -Lr. do 14 (destruct r as [|r]; [reflexivity|]). lia.
    - destruct (Nat.ltb_spec q G); [|lia]. destruct (Nat.eqb_spec i (15 * G - 1)); [lia|].
      unfold b_initialize. apply nth_repeat. }
  constructor.
  - constructor; auto.
    + unfold a. cbn [a_groups]. rewrite set_nth_len, repeat_length. reflexivity.
    + unfold a. cbn [a_groups]. apply set_nth_Forall; [|reflexivity]. apply Forall_forall. intros x Hx. apply repeat_spec in Hx. subst. reflexivity.
    + rewrite Ecl, repeat_length. reflexivity.
    + rewrite Ecl, repeat_length, Hc by lia. now rewrite Nat.eqb_refl.
  - reflexivity.
  - intros i Hi. rewrite Ecl, repeat_length in Hi. rewrite Ecl, Hc by lia.
    destruct (Nat.eqb_spec i (15 * G - 1)); [lia|]. split; [|reflexivity]. apply nth_error_repeat. exact Hi.
Qed.

Definition alloc_fail (n : N) : Prop := raised c KAlloc \/ gmax c < groups_for n.

Lemma new_arrays_ok {St} al n (s : St) m : good_cfg c -> n < 2 ^ 64 -> buffer_fits (esz c) (groups_for n) = true ->
  outcome (new_arrays c al n s m)
    (fun a s' => s' = s /\ ((n = 0 /\ a = dummy_arrays al) \/
        (0 < n /\ exists k, groups_for n = 2 ^ k /\ 2 ^ k <= gmax c /\ n < 15 * 2 ^ k /\ Fresh al k a)))
    (fun kd s' => s' = s /\ kd = KAlloc /\ alloc_fail n).
Proof.
  intros HC Hn Hb. unfold new_arrays. destruct (N.eqb_spec n 0) as [->|Hz]; [cbn; auto|].
  destruct (N.leb_spec (2 ^ 64) n) as [|_]; [lia|]. fold (groups_for n). rewrite Hb. cbn [negb].
  destruct (N.ltb_spec (gmax c) (groups_for n)) as [L|G]; [cbn; unfold alloc_fail; auto|].
  destruct (groups_for_pow n Hn) as (k & Hk & Ei & Eg & Lt & _).
  apply tick_bind; [|unfold alloc_fail; auto].
  intros n'. cbn [ret outcome]. split; [reflexivity|]. right. split; [lia|]. exists k.
  split; [exact Eg|]. rewrite Eg in *. pose proof (k_bound c k HC G). split; [exact G|]. split; [exact Lt|].
  apply fresh_arrays; [lia|exact Ei].
Qed.

Lemma delete_ok {St} al (a : arrays) (s : St) n :
  (a_elems a = None \/ forallb is_raw (cells a) = true /\ a_owner a = al) ->
  delete_arrays al a s n = Ret tt s n.
Proof.
  unfold delete_arrays, cells. intros [-> | [E1 E2]]; [reflexivity|].
  destruct (a_elems a); [|reflexivity]. rewrite E1, E2, N.eqb_refl. reflexivity.
Qed.
End Arr.
