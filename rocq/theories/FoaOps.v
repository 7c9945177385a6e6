(** rehash(n), reserve(n), clear, construction and destruction. *)
From Coq Require Import NArith ZArith Bool List Arith Lia ZifyBool ZifyNat ZifyN Permutation.
From Verif Require Import FloatModel SizeModel SizeProofs GroupModel GroupSpec FoaModel FoaGroup FoaBase FoaFind FoaArr FoaInv FoaRehash.
Import ListNotations.
Local Open Scope N_scope.

Section Ops.
Context {K V : Type} (c : Cfg K V).
Notation arrays := (arrays K V).
Notation table := (table K V).
Notation cell := (cell K V).
Hypothesis HC : good_cfg c.

(** sizes that a valid table may have *)
Definition small (n : N) : Prop := n = 0 \/ exists k, 1 <= k /\ n <= 16 * 2 ^ k /\ 2 ^ k <= gmax c.
Lemma inv_small t : Inv c t -> small (sz t).
Proof.
  intros H. pose proof (inv_bounds c t H) as (B1 & B2 & B3).
  destruct (i_arr _ _ H) as [E | (k & [HS _] & Hk)].
  - left. rewrite E in B2. cbn in B2. lia.
  - right. exists k. pose proof (sh_k _ _ HS). rewrite (sh_cells _ _ HS) in B2. split; [lia|]. split; [lia|exact Hk].
Qed.
Lemma fits_pow m : m < 2 ^ 64 -> 0 < groups_for m.
Proof. intros H. destruct (groups_for_pow m H) as (k & _ & _ & -> & _). apply pow2_pos. Qed.
Lemma small_ceil n : small n -> ceil_div_mlf n < 2 ^ 64 /\ buffer_fits (esz c) (groups_for (ceil_div_mlf n)) = true.
Proof.
  intros [-> | (k & Hk & Hn & Hg)].
  - change (ceil_div_mlf 0) with 0. split; [reflexivity|]. change (groups_for 0) with 2.
    apply buffer_fits_mono with (g' := 8 * gmax c); [lia| |apply HC]. pose proof (gc_gmax _ HC). lia.
  - pose proof (k_bound c k HC Hg). destruct (ceil_groups n k ltac:(lia) Hn) as [C1 C2].
    split; [exact C1|]. apply buffer_fits_mono with (g' := 8 * gmax c); [apply fits_pow; exact C1|lia|apply HC].
Qed.
Lemma fits_k m : m < 2 ^ 64 -> buffer_fits (esz c) (groups_for m) = true ->
  exists k, 1 <= k <= 60 /\ groups_for m = 2 ^ k /\ m < 15 * 2 ^ k.
Proof.
  intros H F. destruct (groups_for_pow m H) as (k & Hk & _ & E & L & _). exists k. rewrite E in *.
  split; [|auto]. split; [lia|].
  unfold buffer_fits, buffer_bytes, GN in F. apply N.ltb_lt in F.
  pose proof (gc_esz _ HC) as He.
  assert (1 * (2 ^ k * 15 - 1) <= esz c * (2 ^ k * 15 - 1)) as L1 by (apply N.mul_le_mono_r; lia).
  assert (2 ^ k < 2 ^ 60 + 1) as P.
  { change (2 ^ 60) with 1152921504606846976. change (2 ^ 64) with 18446744073709551616 in F. lia. }
  assert (2 ^ k <= 2 ^ 60) as P2 by lia. apply N.pow_le_mono_r_iff in P2; lia.
Qed.
Lemma capacity_for_ok m : m < 2 ^ 64 -> buffer_fits (esz c) (groups_for m) = true ->
  exists k, 1 <= k <= 60 /\ capacity_for m = 15 * 2 ^ k - 1 /\ groups_for (capacity_for m) = groups_for m /\
   groups_for m = 2 ^ k /\ m <= capacity_for m /\ capacity_for m < 2 ^ 64 /\ 0 < capacity_for m.
Proof.
  intros H F. destruct (fits_k m H F) as (k & Hk & E & L). exists k. unfold capacity_for at 1 3 4 5. rewrite E. unfold GN.
  replace (2 ^ k * 15 - 1) with (15 * 2 ^ k - 1) by lia.
  assert (2 ^ k <= 2 ^ 60) as P by (apply N.pow_le_mono_r; lia). change (2 ^ 60) with 1152921504606846976 in P.
  change (2 ^ 64) with 18446744073709551616 in *. pose proof (pow2_pos k).
  assert (capacity_for m = 15 * 2 ^ k - 1) as Ec by (unfold capacity_for, GN; rewrite E; lia).
  split; [exact Hk|]. split; [lia|]. split; [rewrite Ec; apply groups_for_cap; exact Hk|]. repeat split; lia.
Qed.

(** largest request that the arithmetic can serve without wrapping *)
Definition request_ok (n : N) : Prop := n < 2 ^ 64 /\ buffer_fits (esz c) (groups_for n) = true.

Definition rehash_target (s n : N) : N :=
  let m := N.max n (ceil_div_mlf s) in if m =? 0 then 0 else capacity_for m.

Lemma rehash_ok t n m : Inv c t -> request_ok n ->
  outcome (rehash c n t m)
    (fun _ t' => Inv c t' /\ Ids t t' /\ Permutation (elems (arr t')) (elems (arr t)) /\ sz t' = sz t /\
        capacity (arr t') = rehash_target (sz t) n /\ n <= capacity (arr t') /\
        (capacity (arr t) = rehash_target (sz t) n -> t' = t) /\ (t' = t \/ ml t' = init_ml (arr t')))
    (fun kd t' => (kd = KAlloc /\ t' = t /\ alloc_fail c (rehash_target (sz t) n)) \/
        ((kd = KHash \/ kd = KTransfer) /\ raised c kd /\ RehashFailed c t t')).
Proof.
  intros H [Hn Hb]. unfold rehash. rewrite bind_get.
  destruct (small_ceil (sz t) (inv_small t H)) as [C1 C2].
  unfold ceil_div_mlf_ok. apply N.ltb_lt in C1 as C1b. rewrite C1b. cbn [negb].
  assert ((if n <? ceil_div_mlf (sz t) then ceil_div_mlf (sz t) else n) = N.max n (ceil_div_mlf (sz t))) as ->.
  { destruct (N.ltb_spec n (ceil_div_mlf (sz t))); lia. }
  set (q := N.max n (ceil_div_mlf (sz t))).
  assert (request_ok q) as [Q1 Q2].
  { unfold q. destruct (N.max_spec n (ceil_div_mlf (sz t))) as [[_ ->] | [_ ->]]; split; assumption. }
  fold (rehash_target (sz t) n). change (if q =? 0 then 0 else capacity_for q) with (rehash_target (sz t) n).
  destruct (capacity_for_ok q Q1 Q2) as (k & Hk & Ec & Eg & Eg2 & Lq & L64 & Lpos).
  assert (request_ok (rehash_target (sz t) n)) as [T1 T2].
  { unfold rehash_target. fold q. destruct (N.eqb_spec q 0) as [E|Ne].
    - split; [reflexivity|]. change (groups_for 0) with 2.
      apply buffer_fits_mono with (g' := 8 * gmax c); [lia| |apply HC]. pose proof (gc_gmax _ HC). lia.
    - split; [exact L64|]. rewrite Eg. exact Q2. }
  assert (n <= rehash_target (sz t) n) as Ln.
  { unfold rehash_target. fold q. destruct (N.eqb_spec q 0); lia. }
  destruct (N.eqb_spec (rehash_target (sz t) n) (capacity (arr t))) as [E|Ne]; cbn [negb].
  - cbn [ret outcome]. split; [exact H|]. split; [apply Ids_refl|]. split; [reflexivity|]. split; [reflexivity|].
    split; [congruence|]. split; [lia|]. split; auto.
  - eapply outcome_weaken; [apply (unchecked_rehash_ok c t (rehash_target (sz t) n) m HC H T1 T2)| |].
    + unfold rehash_target. fold q. destruct (N.eqb_spec q 0) as [E|Nq]; [intros _|lia].
      assert (ceil_div_mlf (sz t) = 0) as E0 by lia.
      destruct (N.eq_dec (sz t) 0) as [|Nz]; [assumption|exfalso].
      pose proof (ceil_div_mlf_mono 1 (sz t) ltac:(lia)) as X. change (ceil_div_mlf 1) with 2 in X. lia.
    + unfold rehash_target. fold q. destruct (N.eqb_spec q 0) as [E|Nq]; [lia|intros _].
      rewrite Eg, Eg2. unfold GN. replace (2 ^ k * 15 - 1) with (15 * 2 ^ k - 1) by lia.
      apply reserve_enough; [exact Hk|]. rewrite Ec in Lq. lia.
    + intros _ t' (I & Id & P & Es & Em & Ecap).
      assert (capacity (arr t') = rehash_target (sz t) n) as Ecc.
      { rewrite Ecap. unfold rehash_target. fold q. destruct (N.eqb_spec q 0) as [E|Nq]; [reflexivity|].
        destruct (N.eqb_spec (capacity_for q) 0); [lia|]. rewrite Eg. reflexivity. }
      split; [exact I|]. split; [exact Id|]. split; [exact P|]. split; [exact Es|]. split; [exact Ecc|].
      split; [lia|]. split; [congruence|auto].
    + intros kd t' X. exact X.
Qed.

Lemma reserve_ok t n m : Inv c t -> request_ok (ceil_div_mlf n) ->
  outcome (reserve c n t m)
    (fun _ t' => Inv c t' /\ Ids t t' /\ Permutation (elems (arr t')) (elems (arr t)) /\ sz t' = sz t /\
        capacity (arr t') = rehash_target (sz t) (ceil_div_mlf n) /\
        (t' = t \/ ml t' = init_ml (arr t')) /\ (ml t = init_ml (arr t) -> n <= ml t' /\ ml t' = init_ml (arr t')))
    (fun kd t' => (kd = KAlloc /\ t' = t /\ alloc_fail c (rehash_target (sz t) (ceil_div_mlf n))) \/
        ((kd = KHash \/ kd = KTransfer) /\ raised c kd /\ RehashFailed c t t')).
Proof.
  intros H [Hn Hb]. unfold reserve, ceil_div_mlf_ok. apply N.ltb_lt in Hn as Hn'. rewrite Hn'. cbn [negb].
  eapply outcome_weaken; [apply rehash_ok; [exact H|split; assumption]| |auto].
  intros _ t' (I & Id & P & Es & Ec & Ln & _ & Em). split; [exact I|]. split; [exact Id|]. split; [exact P|].
  split; [exact Es|]. split; [exact Ec|]. split; [exact Em|]. intros Hd.
  assert (ml t' = init_ml (arr t')) as E by (destruct Em as [-> |]; assumption).
  split; [|exact E].
  rewrite E. destruct (i_arr _ _ I) as [Ea | (k & [HS _] & _)].
  - rewrite Ea in Ln. cbn in Ln. destruct (N.eq_dec n 0) as [->|Nz]; [lia|exfalso].
    pose proof (ceil_div_mlf_mono 1 n ltac:(lia)) as X. change (ceil_div_mlf 1) with 2 in X.
    change (capacity (dummy_arrays (K:=K) (V:=V) (a_owner (arr t')))) with 0 in Ln. lia.
  - destruct (init_ml_shape _ _ HS) as [-> _]. destruct (cap_shape _ _ HS) as [E1 _]. rewrite E1 in Ln.
    pose proof (pow2_pos k).
    apply reserve_enough; [apply HS|]. lia.
Qed.

Lemma inv_empty t : Inv c t -> elems (arr t) = [] -> sz t = 0.
Proof. intros H E. rewrite (i_sz _ _ H), E. reflexivity. Qed.

Lemma noshrink_req t n m : Inv c t -> elems (arr t) = [] -> ml t = init_ml (arr t) -> ceil_div_mlf n < 2 ^ 64 /\ buffer_fits (esz c) (groups_for (ceil_div_mlf n)) = true ->
  outcome (noshrink_reserve c n t m)
    (fun _ t' => Inv c t' /\ Ids t t' /\ elems (arr t') = [] /\ ml t' = init_ml (arr t') /\ n <= ml t' /\
        capacity (arr t) <= capacity (arr t'))
    (fun kd t' => kd = KAlloc /\ t' = t /\ alloc_fail c (capacity_for (ceil_div_mlf n))).
Proof.
  intros H Ee Em Hs. unfold noshrink_reserve. destruct (N.eqb_spec n 0) as [->|Nz].
  { cbn [ret outcome]. split; [exact H|]. split; [apply Ids_refl|]. split; [exact Ee|]. split; [exact Em|]. lia. }
  destruct Hs as [C1 C2]. unfold ceil_div_mlf_ok. apply N.ltb_lt in C1 as C1b. rewrite C1b. cbn [negb].
  destruct (capacity_for_ok _ C1 C2) as (k & Hk & Ec & Eg & Eg2 & Lq & L64 & Lpos).
  assert (n <= initial_max_load (15 * 2 ^ k - 1)) as Hroom by (apply reserve_enough; [exact Hk|lia]).
  rewrite bind_get. destruct (N.ltb_spec (capacity (arr t)) (capacity_for (ceil_div_mlf n))) as [Lt|Ge].
  - eapply outcome_bind; [eapply outcome_weaken; [apply (new_arrays_ok c (aid t) _ t m HC L64)| |]|].
    + rewrite Eg. exact C2.
    + intros a s' X. exact X.
    + intros kd s' (-> & -> & F). auto.
    + intros na t0 n1 (-> & [[C _] | (_ & k' & Eg' & Hk' & Lt' & FR)]); [lia|].
      rewrite Eg, Eg2 in Eg'. apply N.pow_inj_r in Eg'; [subst k'|lia].
      destruct (pre_empty_raw c t (inv_pre c t H) Ee) as [_ Hraw].
      unfold bind at 1. rewrite delete_ok.
      2:{ destruct Hraw as [|Hraw]; [left; assumption|right]. split; [exact Hraw|apply (i_owner _ _ H)]. }
      cbn [modify outcome]. pose proof (fresh_inv c t k na H Ee Hk' FR) as I.
      destruct (init_ml_shape _ _ (fr_shape _ _ _ FR)) as [Ei _].
      destruct (cap_shape _ _ (fr_shape _ _ _ FR)) as [Ecp _].
      split; [exact I|]. split; [constructor; reflexivity|]. cbn [set_ml set_arr arr ml].
      split; [eapply fresh_elems; eauto|]. split; [reflexivity|]. split; [congruence|]. rewrite Ecp. lia.
  - cbn [ret outcome]. split; [exact H|]. split; [apply Ids_refl|]. split; [exact Ee|]. split; [exact Em|].
    split; [|lia]. rewrite Em. destruct (i_arr _ _ H) as [Ea | (k' & [HS _] & _)].
    + rewrite Ea in Ge. change (capacity (dummy_arrays (K:=K) (V:=V) (a_owner (arr t)))) with 0 in Ge. lia.
    + destruct (init_ml_shape _ _ HS) as [-> _]. destruct (cap_shape _ _ HS) as [E1 _].
      pose proof (pow2_pos k'). apply reserve_enough; [apply HS|]. lia.
Qed.
Lemma noshrink_ok t n m : Inv c t -> elems (arr t) = [] -> ml t = init_ml (arr t) -> small n ->
  outcome (noshrink_reserve c n t m)
    (fun _ t' => Inv c t' /\ Ids t t' /\ elems (arr t') = [] /\ ml t' = init_ml (arr t') /\ n <= ml t' /\
        capacity (arr t) <= capacity (arr t'))
    (fun kd t' => kd = KAlloc /\ t' = t /\ alloc_fail c (capacity_for (ceil_div_mlf n))).
Proof. intros H E1 E2 Hs. apply noshrink_req; auto using small_ceil. Qed.

(** ** clear *)
Definition InvW (t : table) : Prop :=
  compat c (hid t) (pid t) /\ a_owner (arr t) = aid t /\
  ((arr t = dummy_arrays (aid t) /\ ml t = 0 /\ sz t = 0) \/ exists k, GoodW k (arr t) /\ 2 ^ k <= gmax c).
Lemma inv_w t : Inv c t -> InvW t.
Proof.
  intros H. pose proof (inv_bounds c t H) as (B1 & B2 & B3). split; [apply H|]. split; [apply H|].
  destruct (i_arr _ _ H) as [Ea | (k & HG & Hk)].
  - left. rewrite Ea in B2. cbn in B2. rewrite Ea, (i_owner _ _ H). split; [reflexivity|lia].
  - right. exists k. split; [eapply good_w; eauto|exact Hk].
Qed.

Record CL (k : N) (a : arrays) (g : nat) (a' : arrays) : Prop := {
  cl_gsi : a_gsi a' = a_gsi a; cl_mask : a_mask a' = a_mask a; cl_owner : a_owner a' = a_owner a;
  cl_el : a_elems a' = Some (cells a'); cl_len : length (cells a') = length (cells a);
  cl_glen : length (a_groups a') = length (a_groups a);
  cl_done : forall g', (g' < g)%nat -> (g' < length (a_groups a))%nat -> grp a' g' = b_initialize;
  cl_todo : forall g', (g <= g')%nat -> grp a' g' = grp a g';
  cl_cdone : forall i, (i / 15 < g)%nat -> (i < length (cells a))%nat -> nth_error (cells a') i = Some Raw;
  cl_ctodo : forall i, (g <= i / 15)%nat -> nth_error (cells a') i = nth_error (cells a) i
}.

Lemma clear_mask_ok g : forall ns (t : table) a n, NoDup ns -> (forall m, In m ns -> (m < 15)%nat) ->
  arr t = a -> a_elems a = Some (cells a) ->
  (forall m, In m ns -> exists x, nth_error (cells a) (slot_index g m) = Some x /\ x <> Raw) ->
  outcome (clear_mask g ns t n) (fun _ t' => exists a', t' = set_arr t a' /\
      a_gsi a' = a_gsi a /\ a_mask a' = a_mask a /\ a_owner a' = a_owner a /\ a_groups a' = a_groups a /\
      a_elems a' = Some (cells a') /\ length (cells a') = length (cells a) /\
      (forall m, In m ns -> nth_error (cells a') (slot_index g m) = Some Raw) /\
      (forall i, (forall m, In m ns -> slot_index g m <> i) -> nth_error (cells a') i = nth_error (cells a) i))
    (fun _ _ => False).
Proof.
  induction ns as [|m ns IH]; intros t a n ND H15 Ea He Hx.
  - cbn [clear_mask ret outcome]. exists a. subst a. rewrite set_arr_id. repeat (split; [reflexivity|]). split; [exact He|].
    split; [reflexivity|]. split; [intros m []|auto].
  - cbn [clear_mask]. inversion ND as [|? ? Hni ND']; subst.
    destruct (Hx m (or_introl eq_refl)) as (x & Ex & Nx).
    assert (slot_index g m < length (cells (arr t)))%nat as Lm by (apply nth_error_Some; congruence).
    unfold bind at 1, on_arr, lens.
    assert (destroy_element (slot_index g m) (arr t) n = Ret tt (upd_cell (arr t) (slot_index g m) Raw) n) as ->.
    { unfold destroy_element, get_cell. rewrite bind_get, He, Ex. destruct x; [congruence| |]; unfold put_cell; rewrite He, Ex; reflexivity. }
    set (a1 := upd_cell (arr t) (slot_index g m) Raw).
    assert (forall m', In m' ns -> slot_index g m' <> slot_index g m) as Hne.
    { intros m' Hm' E. unfold slot_index in E. assert (m' = m) by lia. congruence. }
    eapply outcome_weaken; [apply (IH (set_arr t a1) a1 n ND')| |auto].
    + intros m' Hm'. apply H15. now right.
    + reflexivity.
    + reflexivity.
    + intros m' Hm'. unfold a1. rewrite cells_upd_cell, set_nth_err by exact Lm.
      destruct (Nat.eqb_spec (slot_index g m') (slot_index g m)) as [E|]; [exfalso; eapply Hne; eauto|]. apply Hx. now right.
    + intros _ t' (a' & -> & E1 & E2 & E3 & E4 & E5 & E6 & E7 & E8). exists a'. split; [reflexivity|].
      do 5 (split; [assumption|]). split; [rewrite E6; unfold a1; rewrite cells_upd_cell, set_nth_len; reflexivity|]. split.
      * intros m' [<-|Hm']; [|auto]. rewrite E8.
        -- unfold a1. rewrite cells_upd_cell, set_nth_err, Nat.eqb_refl by exact Lm. reflexivity.
        -- intros m' Hm'. apply Hne. exact Hm'.
      * intros i Hi. rewrite E8 by (intros m' Hm'; apply Hi; now right). unfold a1. rewrite cells_upd_cell, set_nth_err by exact Lm.
        destruct (Nat.eqb_spec i (slot_index g m)) as [E|]; [|reflexivity]. exfalso. eapply Hi; [now left|congruence].
Qed.

Lemma clear_groups_ok k t a : GoodW k a -> let G := N.to_nat (2 ^ k) in
  forall rem g a' n, (g + rem = G)%nat -> CL k a g a' ->
  outcome (clear_groups G rem g (set_arr t a') n) (fun _ t' => exists a'', t' = set_arr t a'' /\ CL k a G a'') (fun _ _ => False).
Proof.
  intros [HS HG] G. induction rem as [|rem IH]; intros g a' n Hg HCL.
  - cbn [clear_groups ret outcome]. exists a'. replace g with G in HCL by lia. auto.
  - cbn [clear_groups]. rewrite bind_get. cbn [set_arr arr].
    pose proof (sh_groups _ _ HS) as GL. fold G in GL.
    assert (get_group a' g = Some (grp a g)) as ->.
    { unfold get_group. rewrite <- (cl_todo _ _ _ _ HCL g) by lia. unfold grp. apply nth_error_nth'. rewrite (cl_glen _ _ _ _ HCL), GL. lia. }
    assert (length (grp a g) = 16%nat) as L16 by (apply (shape_grp_len k); [exact HS|fold G; lia]).
    rewrite really_occupied_bits by exact L16.
    set (ns := occ_bits (grp a g) (Nat.eqb (S g) G)).
    assert (forall m, In m ns <-> (m < 15)%nat /\ (slot_index g m < length (cells a))%nat /\ ctrl a (slot_index g m) <> 0) as Hns.
    { intros m. unfold ns, occ_bits. rewrite filter_In, in_seq. rewrite (sh_cells _ _ HS). fold G. unfold ctrl.
      assert (m < 15 -> (slot_index g m < 15 * G - 1 <-> (S g =? G)%nat && (m =? 14)%nat = false))%nat as Hs.
      { intros Hm. unfold slot_index. destruct (Nat.eqb_spec (S g) G), (Nat.eqb_spec m 14); cbn; split; intros; try reflexivity; try discriminate; lia. }
      destruct (Nat.lt_ge_cases m 15) as [L|Ge]; [|split; [intros [X _]; lia|intros [X _]; lia]].
      specialize (Hs L). rewrite slot_div, slot_mod by exact L.
      destruct ((S g =? G)%nat && (m =? 14)%nat); cbn [negb] in *; rewrite ?andb_false_r, ?andb_true_r.
      - split; [intros [_ X]; discriminate|intros (_ & X & _); apply Hs in X; discriminate].
      - rewrite negb_true_iff, N.eqb_neq. split; [intros [_ X]|intros (_ & _ & X)]; repeat split; auto; try lia. }
    assert (NoDup ns) as NDn by (apply NoDup_filter, seq_NoDup).
    eapply outcome_bind; [apply (clear_mask_ok g ns (set_arr t a') a' n NDn)|].
    + intros m Hm. apply Hns in Hm. lia.
    + reflexivity.
    + apply (cl_el _ _ _ _ HCL).
    + intros m Hm. apply Hns in Hm as (H1 & H2 & H3). rewrite (cl_ctodo _ _ _ _ HCL) by (rewrite slot_div; lia).
      destruct (nth_error (cells a) (slot_index g m)) as [x|] eqn:Ex; [|apply nth_error_None in Ex; lia].
      exists x. split; [reflexivity|]. intros ->. apply H3. apply (HG _ _ Ex). reflexivity.
    + intros _ t1 n1 (a1 & -> & E1 & E2 & E3 & E4 & E5 & E6 & E7 & E8).
      unfold bind at 1, on_arr, lens. cbn [set_arr arr]. 
      assert (nth_error (a_groups a1) g = Some (grp a g)) as Eg.
      { rewrite E4. rewrite <- (cl_todo _ _ _ _ HCL g) by lia. unfold grp. apply nth_error_nth'. rewrite (cl_glen _ _ _ _ HCL), GL. lia. }
      unfold put_group. rewrite E5, Eg. rewrite set_arr_set. apply IH; [lia|].
      set (a2 := Arr _ _ _ _ _).
      assert (forall g', grp a2 g' = if Nat.eqb g' g then b_initialize else grp a1 g') as Hgrp.
      { intros g'. unfold grp, a2. cbn [a_groups]. apply set_nth_get. apply nth_error_Some. congruence. }
      assert (forall g', grp a1 g' = grp a' g') as Hg1 by (intros g'; unfold grp; rewrite E4; reflexivity).
      assert (cells a2 = cells a1) as Ecl by reflexivity.
      assert (a_gsi a2 = a_gsi a1 /\ a_mask a2 = a_mask a1 /\ a_owner a2 = a_owner a1 /\ a_elems a2 = Some (cells a1)) as (X1 & X2 & X3 & X4) by (repeat split; auto).
      destruct HCL. constructor; try congruence.
      * unfold a2. cbn [a_groups]. rewrite set_nth_len, E4. assumption.
      * intros g' L1 L2. rewrite Hgrp. destruct (Nat.eqb_spec g' g) as [->|]; [reflexivity|]. rewrite Hg1. apply cl_done0; lia.
      * intros g' L1. rewrite Hgrp. destruct (Nat.eqb_spec g' g) as [->|]; [lia|]. rewrite Hg1. apply cl_todo0. lia.
      * intros i L1 L2. rewrite Ecl. destruct (Nat.eq_dec (i / 15) g) as [Eq|Nq].
        -- destruct (in_dec Nat.eq_dec (i mod 15)%nat ns) as [I|I].
           ++ specialize (E7 _ I). rewrite <- Eq, slot_of in E7. exact E7.
           ++ rewrite E8.
              ** rewrite cl_ctodo0 by lia.
                 destruct (nth_error (cells a) i) as [x|] eqn:Ex; [|apply nth_error_None in Ex; lia].
                 f_equal. apply (HG i x Ex). destruct (N.eq_dec (ctrl a i) 0) as [|Nc]; [assumption|].
                 exfalso. apply I, Hns. rewrite <- Eq, slot_of. pose proof (mod15 i). auto.
              ** intros m Hm E. apply I. rewrite <- E, slot_mod by (apply Hns in Hm; lia). exact Hm.
        -- rewrite E8; [apply cl_cdone0; lia|]. intros m Hm E. apply Nq. rewrite <- E. apply slot_div. apply Hns in Hm. lia.
      * intros i L1. rewrite Ecl, E8; [apply cl_ctodo0; lia|]. intros m Hm E. rewrite <- E, slot_div in L1 by (apply Hns in Hm; lia). lia.
Qed.

Lemma clear_ok t n : InvW t ->
  outcome (clear t n)
    (fun _ t' => Inv c t' /\ Ids t t' /\ elems (arr t') = [] /\ ml t' = init_ml (arr t') /\ sz t' = 0 /\
                 capacity (arr t') = capacity (arr t))
    (fun _ _ => False).
Proof.
  intros (Hc & Ho & [(Ea & Em & Es) | (k & HG & Hk)]); unfold clear; rewrite bind_get.
  - replace (a_elems (arr t)) with (@None (list cell)) by (rewrite Ea; reflexivity). cbn [ret outcome].
    rewrite Ea, dummy_elems, Em, Es. split; [|split; [apply Ids_refl|]; repeat (split; [reflexivity|]); reflexivity].
    constructor; auto; rewrite ?Ea, ?dummy_elems, ?Em, ?Es; try reflexivity; try lia.
    + left. reflexivity.
    + constructor.
  - pose proof HG as [HS _]. rewrite (sh_elems _ _ HS), (sh_mask _ _ HS).
    replace (N.to_nat (2 ^ k - 1 + 1)) with (N.to_nat (2 ^ k)) by (pose proof (pow2_pos k); lia).
    set (G := N.to_nat (2 ^ k)). pose proof (pow_nat_pos k) as PG. fold G in PG.
    pose proof (sh_groups _ _ HS) as GL. fold G in GL.
    eapply outcome_bind.
    + rewrite <- (set_arr_id t) at 1. apply (clear_groups_ok k t (arr t) HG G 0 (arr t) n); [reflexivity|].
      constructor; auto.
      * apply (sh_elems _ _ HS).
      * intros g' C. lia.
      * intros i C. lia.
    + intros _ t1 n1 (a1 & -> & CLF). unfold bind at 1, on_arr, lens. cbn [set_arr arr].
      replace (N.to_nat (2 ^ k - 1)) with (G - 1)%nat by (unfold G; lia).
      assert (a_groups a1 = repeat b_initialize G) as Egr.
      { apply (nth_ext _ _ [] []); [exact (eq_trans (cl_glen _ _ _ _ CLF) (eq_trans GL (eq_sym (repeat_length _ _))))|].
        intros g' Hg'. assert (g' < G)%nat as Hg2 by (rewrite <- GL, <- (cl_glen _ _ _ _ CLF); exact Hg').
        etransitivity; [|symmetry; apply nth_repeat_groups].
        destruct (Nat.ltb_spec g' G); [|lia]. apply (cl_done _ _ _ _ CLF); lia. }
      assert (cells a1 = repeat Raw (N.to_nat (2 ^ k * GN - 1))) as Ecl.
      { apply list_ext. intros i. destruct (Nat.lt_ge_cases i (length (cells (arr t)))) as [L|Ge].
        - rewrite (cl_cdone _ _ _ _ CLF i); [|apply (shape_div k _ _ HS L)|exact L].
          symmetry. apply nth_error_repeat. rewrite (sh_cells _ _ HS) in L. unfold GN. lia.
        - rewrite (proj2 (nth_error_None _ _)) by (rewrite (cl_len _ _ _ _ CLF); exact Ge).
          symmetry. apply nth_error_None. rewrite repeat_length. rewrite (sh_cells _ _ HS) in Ge. unfold GN. lia. }
      unfold put_group. rewrite (cl_el _ _ _ _ CLF), Egr.
      rewrite nth_error_repeat by lia.
      rewrite set_arr_set. cbn [modify outcome set_ml set_sz set_arr arr ml sz].
      set (a2 := Arr _ _ _ _ _).
      assert (Fresh (aid t) k a2) as FR.
      { unfold a2. rewrite Ecl, (cl_mask _ _ _ _ CLF), (cl_owner _ _ _ _ CLF), (cl_gsi _ _ _ _ CLF), (sh_mask _ _ HS), Ho.
        apply fresh_arrays; [apply HS|apply (sh_gsi _ _ HS)]. }
      destruct (init_ml_shape _ _ (fr_shape _ _ _ FR)) as [_ B].
      split; [|split; [constructor; reflexivity|split; [eapply fresh_elems; eauto|split; [reflexivity|split; [reflexivity|]]]]].
      * constructor; cbn [set_ml set_sz set_arr arr hid pid aid ml sz]; rewrite ?(fresh_elems _ _ _ FR); auto.
        -- apply FR.
        -- right. exists k. split; [eapply fresh_good; eauto|exact Hk].
        -- constructor.
        -- lia.
        -- lia.
      * destruct (cap_shape _ _ (fr_shape _ _ _ FR)) as [-> _], (cap_shape _ _ HS) as [-> _]. reflexivity.
Qed.

(** ** construction, destruction *)
Lemma new_table_ok {St} h p al m (s : St) n : compat c h p -> request_ok m ->
  outcome (new_table c h p al m s n)
    (fun t s' => s' = s /\ Inv c t /\ hid t = h /\ pid t = p /\ aid t = al /\ elems (arr t) = [] /\ sz t = 0 /\
        ml t = init_ml (arr t) /\ m <= capacity (arr t) /\
        (forall r, m = ceil_div_mlf r -> r <= ml t))
    (fun kd s' => s' = s /\ kd = KAlloc /\ alloc_fail c m).
Proof.
  intros Hc [Hm Hb]. unfold new_table.
  eapply outcome_bind; [eapply outcome_weaken; [apply (new_arrays_ok c al m s n HC Hm Hb)| |]|].
  - intros a s' X. exact X.
  - intros kd s' X. exact X.
  - intros a s' n1 (-> & X). cbn [ret outcome arr hid pid aid ml sz]. split; [reflexivity|].
    destruct X as [[-> ->] | (Hpos & k & Eg & Hk & Lt & FR)].
    + split.
      * constructor; cbn [arr hid pid aid ml sz]; auto; try reflexivity.
        -- left. reflexivity.
        -- constructor.
      * do 6 (split; [reflexivity|]). split; [apply N.le_0_l|]. intros r Hr.
        destruct (N.eq_dec r 0) as [->|Nz]; [lia|exfalso].
        pose proof (ceil_div_mlf_mono 1 r ltac:(lia)) as X. change (ceil_div_mlf 1) with 2 in X. lia.
    + pose proof (fr_shape _ _ _ FR) as HS. destruct (init_ml_shape _ _ HS) as [Ei B].
      destruct (cap_shape _ _ HS) as [Ec _]. pose proof (fresh_elems _ _ _ FR) as Ef. split.
      * constructor; cbn [arr hid pid aid ml sz]; rewrite ?Ef; auto.
        -- apply FR.
        -- right. exists k. split; [eapply fresh_good; eauto|exact Hk].
        -- constructor.
        -- lia.
        -- lia.
      * do 3 (split; [reflexivity|]). split; [exact Ef|]. split; [reflexivity|]. split; [reflexivity|].
        split; [rewrite Ec; lia|]. intros r ->. rewrite Ei. apply reserve_enough; [apply HS|exact Lt].
Qed.

Lemma destroy_table_ok t n : InvW t -> outcome (destroy_table t n) (fun _ _ => True) (fun _ _ => False).
Proof.
  intros (Hc & Ho & [(Ea & Em & Es) | (k & HG & Hk)]); unfold destroy_table.
  - unfold bind at 1. rewrite for_all_none by (rewrite Ea; reflexivity).
    rewrite bind_get, delete_ok; [exact I|]. left. rewrite Ea. reflexivity.
  - eapply outcome_bind.
    + apply (destroy_all arr set_arr _ k t n); auto. apply set_arr_id.
    + intros _ t1 n1 (a' & -> & W). rewrite bind_get. cbn [set_arr arr aid].
      rewrite delete_ok; [exact I|]. right. split; [eapply wiped_all; eauto|]. rewrite (wi_owner _ _ _ W). exact Ho.
Qed.
End Ops.
