(** Iterators: traversal order, increment after erasure. *)
From Coq Require Import NArith ZArith Bool List Arith Lia ZifyBool ZifyNat ZifyN Permutation.
From Verif Require Import FloatModel SizeModel SizeProofs GroupModel GroupSpec GroupProofs FoaModel FoaGroup FoaBase FoaFind FoaArr FoaInv FoaRehash FoaOps FoaMerge FoaIterModel.
Import ListNotations.
Local Open Scope N_scope.

Section Iter.
Context {K V : Type} (c : Cfg K V).
Notation arrays := (arrays K V).
Notation table := (table K V).

(** the iterator at position i; the position after the last slot is end() up to its unused group pointer *)
Definition it_at (i : nat) : iter := It (i / 15 * 16 + i mod 15) (Some i).
Definition IsAt (a : arrays) (i : nat) (it : iter) : Prop :=
  (i < length (cells a))%nat /\ it = it_at i \/ i = length (cells a) /\ it_p it = None.

Lemma pc_div i : ((i / 15 * 16 + i mod 15) / 16 = i / 15)%nat.
Proof. pose proof (mod15 i). rewrite Nat.div_add_l by lia. rewrite (Nat.div_small (i mod 15) 16) by lia. apply Nat.add_0_r. Qed.
Lemma pc_mod i : ((i / 15 * 16 + i mod 15) mod 16 = i mod 15)%nat.
Proof. pose proof (mod15 i). rewrite Nat.add_comm, Nat.mod_add by lia. apply Nat.mod_small. lia. Qed.
Lemma i_split i : i = (i / 15 * 15 + i mod 15)%nat.
Proof. rewrite Nat.mul_comm. apply Nat.div_mod. lia. Qed.

(** first occupied position (or sentinel) *)
Definition First (a : arrays) (lo j : nat) : Prop :=
  (lo <= j <= length (cells a))%nat /\ ctrl a j <> 0 /\ forall m, (lo <= m < j)%nat -> ctrl a m = 0.

Lemma occ_testbit g i : length g = 16%nat -> N.testbit (b_match_occupied g) (N.of_nat i) = negb (nth i g 0 =? 0) && (i <? 15)%nat.
Proof.
  intros Hg. rewrite (occupied_mask g Hg).
  destruct (mask15_bits (map (fun x => negb (x =? 0)) g) _ ltac:(rewrite map_length; exact Hg) eq_refl) as (_ & _ & T).
  rewrite T. destruct (Nat.ltb_spec i 15) as [L|]; [|rewrite !andb_false_r; reflexivity].
  rewrite (nth_map_lt _ g i false 0) by lia. reflexivity.
Qed.
Lemma ctz_first x n : (n < 64)%nat -> N.testbit x (N.of_nat n) = true -> (forall i, (i < n)%nat -> N.testbit x (N.of_nat i) = false) -> countr_zero x = n.
Proof. intros H1 H2 H3. apply ctz_from_spec; auto; [lia|]. intros j Hj. apply H3. lia. Qed.
Lemma mask_zero x : (forall i, N.testbit x (N.of_nat i) = false) -> x = 0.
Proof. intros H. apply bits_inj_nat. intros i. rewrite H, N.bits_0. reflexivity. Qed.
Lemma mask_nonzero x i : N.testbit x i = true -> x <> 0.
Proof. intros H ->. rewrite N.bits_0 in H. discriminate. Qed.

Variable k : N. Variable a : arrays. Variable h : N.
Hypothesis HG : GoodA c h k a.
Let L := length (cells a).
Let G := N.to_nat (2 ^ k).
Lemma HS' : Shape k a. Proof. apply HG. Qed.
Lemma L_eq : L = (15 * G - 1)%nat. Proof. exact (sh_cells _ _ HS'). Qed.
Lemma G_pos : (0 < G)%nat. Proof. apply pow_nat_pos. Qed.
Lemma div_le j : (j <= L)%nat -> (j / 15 < G)%nat.
Proof. intros H. apply div_lt_groups. rewrite L_eq in H. pose proof G_pos. lia. Qed.
Lemma grp_get g : (g < G)%nat -> nth_error (a_groups a) g = Some (grp a g).
Proof. intros H. exact (shape_get_group k a g HS' H). Qed.
Lemma grp16 g : (g < G)%nat -> length (grp a g) = 16%nat.
Proof. intros H. exact (shape_grp_len k a g HS' H). Qed.
Lemma ctrl_slot g n : (n < 15)%nat -> ctrl a (g * 15 + n) = nth n (grp a g) 0.
Proof. intros H. unfold ctrl. change (g * 15 + n)%nat with (slot_index g n). rewrite slot_div, slot_mod by exact H. reflexivity. Qed.
Lemma ctrl_one j : (j <= L)%nat -> ctrl a j <> 0 -> (ctrl a j =? 1) = Nat.eqb j L.
Proof.
  intros Hj Hc. destruct (Nat.eqb_spec j L) as [->|Hn].
  - apply N.eqb_eq. exact (sh_sent _ _ HS').
  - apply N.eqb_neq. destruct HG as [HS Hs]. destruct (nth_error (cells a) j) as [x|] eqn:E.
    + specialize (Hs j x E). destruct x as [| |e]; cbn [slot_ok] in Hs; [congruence|destruct Hs|].
      destruct Hs as [-> _]. pose proof (low_class_ge2 (hash_of c h (fst e))). lia.
    + apply nth_error_None in E. fold L in E. lia.
Qed.
Lemma sentinel_slot j : (j <= L)%nat -> ctrl a j <> 0 -> b_is_sentinel (grp a (j / 15)) (j mod 15) = Nat.eqb j L.
Proof. intros H1 H2. unfold b_is_sentinel. fold (ctrl a j). apply ctrl_one; assumption. Qed.
Lemma sentinel_slot_n j : (j <= L)%nat -> ctrl a j <> 0 -> bn_is_sentinel (grp a (j / 15)) (j mod 15) = Nat.eqb j L.
Proof.
  intros H1 H2. unfold bn_is_sentinel. destruct (Nat.eqb_spec (j mod 15) 14) as [E|N]; cbn [andb].
  - rewrite <- E at 1. fold (ctrl a j). apply ctrl_one; assumption.
  - symmetry. apply Nat.eqb_neq. intros ->. apply N. apply (shape_sent_pos _ _ HS').
Qed.

(** scanning group after group *)
Lemma mask_first g j : (g < G)%nat -> First a (g * 15) j -> (j / 15 = g)%nat -> countr_zero (b_match_occupied (grp a g)) = (j mod 15)%nat /\ b_match_occupied (grp a g) <> 0.
Proof.
  intros Hg ([H1 H2] & H3 & H4) Hj. pose proof (mod15 j) as M. pose proof (grp16 g Hg) as L16.
  assert (N.testbit (b_match_occupied (grp a g)) (N.of_nat (j mod 15)) = true) as T.
  { rewrite occ_testbit by exact L16. apply Nat.ltb_lt in M. rewrite M, andb_true_r. rewrite <- Hj. fold (ctrl a j).
    apply negb_true_iff, N.eqb_neq. exact H3. }
  split; [|eapply mask_nonzero; eauto]. apply ctz_first; [lia|exact T|].
  intros i Hi. rewrite occ_testbit by exact L16. rewrite <- ctrl_slot by lia. pose proof (i_split j).
  rewrite H4; [reflexivity|]. lia.
Qed.
Lemma mask_none g j : (g < G)%nat -> First a (g * 15) j -> (g < j / 15)%nat -> b_match_occupied (grp a g) = 0 /\ First a (S g * 15) j.
Proof.
  intros Hg ([H1 H2] & H3 & H4) Hj. pose proof (grp16 g Hg) as L16. pose proof (i_split j).
  split.
  - apply mask_zero. intros i. rewrite occ_testbit by exact L16. destruct (Nat.ltb_spec i 15) as [Li|]; [|apply andb_false_r].
    rewrite <- ctrl_slot by exact Li. rewrite H4; [reflexivity|]. nia.
  - split; [nia|]. split; [exact H3|]. intros m Hm. apply H4. lia.
Qed.
Lemma first_group g j : First a (g * 15) j -> (g <= j / 15)%nat.
Proof. intros ([H1 _] & _). apply Nat.div_le_lower_bound; lia. Qed.

Lemma inc_groups_ok j : forall fuel g, (g < G)%nat -> First a (g * 15) j -> (G < fuel + g)%nat ->
  exists it, inc_groups fuel a (g * 16) (g * 15) = Some it /\ IsAt a j it.
Proof.
  induction fuel as [|fuel IH]; intros g Hg F Hf; [lia|]. cbn [inc_groups].
  rewrite Nat.div_mul by lia. rewrite (grp_get g Hg). pose proof (first_group g j F) as Hj.
  destruct (Nat.eq_dec (j / 15) g) as [E|N].
  - destruct (mask_first g j Hg F E) as [E1 E2]. apply N.eqb_neq in E2. rewrite E2, E1. cbn [negb].
    destruct F as ([_ H2] & H3 & _). fold L in H2.
    rewrite <- E. rewrite sentinel_slot by assumption. destruct (Nat.eqb_spec j L) as [->|Hn].
    + eexists. split; [reflexivity|]. right. auto.
    + eexists. split; [reflexivity|]. left. fold L. split; [lia|]. unfold it_at. f_equal. f_equal. symmetry. apply i_split.
  - destruct (mask_none g j Hg F ltac:(lia)) as [E1 F']. rewrite E1. cbn [N.eqb negb].
    replace (g * 16 + 16)%nat with (S g * 16)%nat by lia. replace (g * 15 + 15)%nat with (S g * 15)%nat by lia.
    apply IH; [|exact F'|lia]. destruct F as ([_ H2] & _). pose proof (div_le j H2). lia.
Qed.

Lemma inc_slots_ok j : forall fuel i, (i < L)%nat -> First a (S i) j -> (15 <= fuel + i mod 15)%nat ->
  exists it, inc_slots fuel a (i / 15 * 16 + i mod 15) i = Some it /\ IsAt a j it.
Proof.
  induction fuel as [|fuel IH]; intros i Hi F Hf; [pose proof (mod15 i); lia|]. cbn [inc_slots].
  rewrite pc_mod. pose proof (mod15 i) as M. pose proof (i_split i) as Si. pose proof (div_le i ltac:(lia)) as Dg.
  destruct (Nat.eqb_spec (i mod 15) 14) as [E|N].
  - assert (S i / 15 = S (i / 15))%nat as E'.
    { replace (S i) with (S (i / 15) * 15)%nat by lia. apply Nat.div_mul. lia. }
    replace (i / 15 * 16 + i mod 15 + 2)%nat with (S (i / 15) * 16)%nat by lia.
    replace (S i) with (S (i / 15) * 15)%nat in * by lia.
    pose proof (first_group _ _ F). destruct F as ([F1 F2] & F'). pose proof (div_le j F2).
    pose proof (sh_groups _ _ HS') as Lg. fold G in Lg.
    apply inc_groups_ok; [lia|split; [lia|exact F']|lia].
  - assert (S i / 15 = i / 15 /\ S i mod 15 = S (i mod 15))%nat as [E1 E2].
    { replace (S i) with (slot_index (i / 15) (S (i mod 15))) by (unfold slot_index; lia). split; [apply slot_div|apply slot_mod]; lia. }
    assert (byte_at a (S (i / 15 * 16 + i mod 15)) = Some (ctrl a (S i))) as ->.
    { unfold byte_at. replace (S (i / 15 * 16 + i mod 15)) with (S i / 15 * 16 + S i mod 15)%nat by lia.
      rewrite pc_div, pc_mod. rewrite grp_get by lia. unfold ctrl. apply nth_error_nth'. rewrite grp16 by lia. pose proof (mod15 (S i)). lia. }
    destruct F as ([F1 F2] & F3 & F4). fold L in F2.
    destruct (N.eqb_spec (ctrl a (S i)) 0) as [Z|Nz].
    + assert (j <> S i) by congruence.
      replace (S (i / 15 * 16 + i mod 15)) with (S i / 15 * 16 + S i mod 15)%nat by lia.
      apply IH; [lia| |lia]. split; [fold L; lia|]. split; [exact F3|]. intros m Hm. apply F4. lia.
    + assert (j = S i) as ->. { destruct (Nat.eq_dec j (S i)); [assumption|]. exfalso. apply Nz, F4. lia. }
      rewrite ctrl_one by assumption. destruct (Nat.eqb_spec (S i) L) as [El|Nl].
      * eexists. split; [reflexivity|]. right. auto.
      * eexists. split; [reflexivity|]. left. fold L. split; [lia|]. unfold it_at. f_equal. lia.
Qed.

Lemma inc_find_ok j : forall fuel g p, (S g < G)%nat -> First a (S g * 15) j -> (G <= fuel + g)%nat ->
  inc_find fuel a (g * 16) (g * 15 + p) = Some (j / 15 * 16, j / 15 * 15 + p, b_match_occupied (grp a (j / 15)))%nat /\
  countr_zero (b_match_occupied (grp a (j / 15))) = (j mod 15)%nat.
Proof.
  induction fuel as [|fuel IH]; intros g p Hg F Hf; [lia|]. cbn [inc_find].
  replace (g * 16 + 16)%nat with (S g * 16)%nat by lia. rewrite Nat.div_mul by lia. rewrite (grp_get (S g) Hg).
  replace (g * 15 + p + 15)%nat with (S g * 15 + p)%nat by lia.
  pose proof (first_group _ j F) as Hj. destruct (Nat.eq_dec (j / 15) (S g)) as [E|N].
  - destruct (mask_first (S g) j Hg F E) as [E1 E2]. rewrite E. apply N.eqb_neq in E2. rewrite E2. auto.
  - destruct (mask_none (S g) j Hg F ltac:(lia)) as [E1 F']. rewrite E1. cbn [N.eqb].
    apply IH; [|exact F'|lia]. destruct F as ([_ H2] & _). pose proof (div_le j H2). lia.
Qed.

Lemma inc_interleaved_ok i j : (i < L)%nat -> First a (S i) j -> exists it, inc_interleaved a (it_at i) = Some it /\ IsAt a j it.
Proof.
  intros Hi F. unfold inc_interleaved, it_at. cbn [it_p it_pc]. rewrite pc_mod.
  replace (i / 15 * 16 + i mod 15 - i mod 15)%nat with (i / 15 * 16)%nat by lia. rewrite Nat.div_mul by lia.
  pose proof (mod15 i) as M. pose proof (i_split i) as Si. pose proof (div_le i ltac:(lia)) as Dg.
  rewrite (grp_get _ Dg). pose proof F as ([F1 F2] & F3 & F4). fold L in F2. pose proof (i_split j) as Sj. pose proof (mod15 j) as Mj.
  set (g := (i / 15)%nat) in *. set (n0 := (i mod 15)%nat) in *. pose proof (grp16 g Dg) as L16.
  set (mask := N.shiftl _ _).
  assert (forall x, N.testbit mask (N.of_nat x) = (n0 <? x)%nat && (negb (nth x (grp a g) 0 =? 0) && (x <? 15)%nat)) as T.
  { intros x. unfold mask. destruct (Nat.ltb_spec n0 x) as [Lx|Gx].
    - rewrite N.shiftl_spec_high' by lia. rewrite N.shiftr_spec'. replace (N.of_nat x - N.of_nat (n0 + 1) + N.of_nat (n0 + 1)) with (N.of_nat x) by lia.
      rewrite occ_testbit by exact L16. reflexivity.
    - rewrite N.shiftl_spec_low by lia. reflexivity. }
  assert (exists n, countr_zero n = (j mod 15)%nat /\
     (if mask =? 0 then inc_find (S (length (a_groups a))) a (g * 16) i else Some (g * 16, i, mask)%nat) = Some (j / 15 * 16, j / 15 * 15 + n0, n)%nat) as (n & En & ->).
  { assert (g <= j / 15)%nat as Hgj by (apply Nat.div_le_lower_bound; lia).
    destruct (Nat.eq_dec (j / 15) g) as [E|N].
    - assert (N.testbit mask (N.of_nat (j mod 15)) = true) as Tj.
      { rewrite T. assert (n0 <? j mod 15 = true)%nat as -> by (apply Nat.ltb_lt; lia).
        assert (j mod 15 <? 15 = true)%nat as -> by (apply Nat.ltb_lt; lia). rewrite <- E. fold (ctrl a j).
        rewrite andb_true_r. apply negb_true_iff, N.eqb_neq. exact F3. }
      exists mask. split.
      + apply ctz_first; [lia|exact Tj|]. intros x Hx. rewrite T. destruct (Nat.ltb_spec n0 x) as [Lx|]; [|reflexivity].
        rewrite <- ctrl_slot by lia. rewrite F4 by lia. reflexivity.
      + pose proof (mask_nonzero _ _ Tj) as Nz. apply N.eqb_neq in Nz. rewrite Nz. rewrite E. replace (g * 15 + n0)%nat with i by lia. reflexivity.
    - pose proof (div_le j ltac:(lia)) as Dj. exists (b_match_occupied (grp a (j / 15))).
      assert (mask = 0) as ->.
      { apply mask_zero. intros x. rewrite T. destruct (Nat.ltb_spec n0 x) as [Lx|]; [|reflexivity].
        destruct (Nat.ltb_spec x 15) as [L15|]; [|rewrite !andb_false_r; reflexivity].
        rewrite <- ctrl_slot by lia. rewrite F4; [reflexivity|]. nia. }
      cbn [N.eqb]. pose proof (sh_groups _ _ HS') as Lg. fold G in Lg.
      assert (First a (S g * 15) j) as F'.
      { split; [fold L; nia|]. split; [exact F3|]. intros m Hm. apply F4. lia. }
      destruct (inc_find_ok j (S (length (a_groups a))) g n0 ltac:(lia) F' ltac:(lia)) as [E1 E2].
      split; [exact E2|]. rewrite <- E1. replace (g * 15 + n0)%nat with i by lia. reflexivity. }
  rewrite Nat.div_mul by lia. rewrite grp_get by (apply div_le; lia). rewrite En, sentinel_slot_n by assumption.
  destruct (Nat.eqb_spec j L) as [->|Nl].
  - eexists. split; [reflexivity|]. right. auto.
  - eexists. split; [reflexivity|]. left. fold L. split; [lia|]. unfold it_at. f_equal. f_equal. lia.
Qed.

Lemma it_next_ok i j : (i < L)%nat -> First a (S i) j -> exists it, it_next c a (it_at i) = Some it /\ IsAt a j it.
Proof.
  intros Hi F. unfold it_next. destruct (regular c).
  - unfold inc_regular, it_at. cbn [it_p it_pc]. apply inc_slots_ok; auto. lia.
  - apply inc_interleaved_ok; assumption.
Qed.

Lemma first_hd lo : (lo <= L)%nat -> First a lo (hd L (filter (fun i => negb (ctrl a i =? 0)) (seq lo (L - lo)))).
Proof.
  intros Hlo. remember (L - lo)%nat as d. revert lo Hlo Heqd. induction d as [|d IH]; intros lo Hlo E.
  - cbn [seq filter hd]. assert (lo = L) as -> by lia. split; [fold L; lia|]. split.
    + rewrite (sh_sent _ _ HS' : ctrl a L = 1). discriminate.
    + intros m Hm. lia.
  - cbn [seq filter]. destruct (N.eqb_spec (ctrl a lo) 0) as [Z|Nz]; cbn [negb hd].
    + destruct (IH (S lo) ltac:(lia) ltac:(lia)) as ([F1 F2] & F3 & F4). split; [lia|]. split; [exact F3|].
      intros m Hm. destruct (Nat.eq_dec m lo) as [->|]; [exact Z|]. apply F4. lia.
    + split; [fold L; lia|]. split; [exact Nz|]. intros m Hm. lia.
Qed.
(** occupied slots after slot i *)
Definition after (i : nat) : list nat := filter (fun i => negb (ctrl a i =? 0)) (seq (S i) (L - S i)).
Lemma occ_after d i r : occ a = d ++ i :: r -> after i = r /\ (i < L)%nat.
Proof.
  intros E. assert (In i (occ a)) as Hi by (rewrite E; apply in_or_app; right; now left).
  pose proof (occ_nodup a) as ND. rewrite E in ND. pose proof (NoDup_remove_2 _ _ _ ND) as Hn.
  unfold occ in Hi. apply filter_In in Hi as [Hi Hc]. apply in_seq in Hi. fold L in Hi. split; [|lia].
  assert (occ a = filter (fun i => negb (ctrl a i =? 0)) (seq 0 i) ++ i :: after i) as E2.
  { unfold occ, after. fold L. replace L with (i + S (L - S i))%nat at 1 by lia. rewrite seq_app, filter_app_.
    cbn [seq filter Nat.add]. rewrite Hc. reflexivity. }
  rewrite E in E2. clear - E2 Hn ND. revert E2. generalize (filter (fun i0 => negb (ctrl a i0 =? 0)) (seq 0 i)) as d'.
  intros d' E2. revert d' E2. induction d as [|x d IH]; intros [|y d'] E2; cbn in *.
  - congruence.
  - injection E2 as -> E3. exfalso. apply Hn. rewrite E3. apply in_or_app. right. now left.
  - injection E2 as -> E3. exfalso. inversion ND as [|? ? N1 N2]; subst. apply N1. apply in_or_app. right. now left.
  - injection E2 as -> E3. inversion ND; subst. eapply IH; eauto.
Qed.
Lemma it_next_after i : (i < L)%nat -> exists it, it_next c a (it_at i) = Some it /\ IsAt a (hd L (after i)) it.
Proof. intros Hi. apply it_next_ok; [exact Hi|]. apply first_hd. lia. Qed.
Lemma it_begin_ok : exists it, it_begin c a = Some it /\ IsAt a (hd L (occ a)) it.
Proof.
  unfold it_begin. rewrite (sh_elems _ _ HS'). pose proof G_pos as GP. rewrite (grp_get 0 GP).
  assert (0 < L)%nat as Lp by (rewrite L_eq; lia).
  assert ((N.land (b_match_occupied (grp a 0)) 1 =? 0) = (ctrl a 0 =? 0)) as ->.
  { change 1 with (2 ^ 0) at 1. rewrite land_pow2. pose proof (occ_testbit (grp a 0) 0 (grp16 0 GP)) as T.
    change (N.of_nat 0) with 0 in T. rewrite T. change (nth 0 (grp a 0) 0) with (ctrl a 0).
    cbn [Nat.ltb Nat.leb]. rewrite andb_true_r, negb_involutive. reflexivity. }
  unfold occ. fold L. replace (seq 0 L) with (0%nat :: seq 1 (L - 1)) by (destruct L; [lia|]; cbn [seq]; rewrite Nat.sub_succ, Nat.sub_0_r; reflexivity).
  cbn [filter]. destruct (N.eqb_spec (ctrl a 0) 0) as [Z|Nz]; cbn [negb hd].
  - exact (it_next_after 0 Lp).
  - eexists. split; [reflexivity|]. left. split; [fold L; lia|reflexivity].
Qed.
End Iter.

(** ** Positions in the traversal *)
Section Pos.
Context {K V : Type} (c : Cfg K V).
Notation arrays := (arrays K V).
Notation table := (table K V).

(** it is the iterator reached from begin() by m increments; m = size() is end() *)
Definition IterAt (t : table) (m : nat) (it : iter) : Prop :=
  (m <= length (elems (arr t)))%nat /\ IsAt (arr t) (nth m (occ (arr t)) (length (cells (arr t)))) it.

Lemma occ_len (t : table) : Inv c t -> length (occ (arr t)) = length (elems (arr t)).
Proof.
  intros H. destruct (i_arr _ _ H) as [E|(k & HG & _)]; [rewrite E; reflexivity|].
  eapply occ_length; eauto.
Qed.
Lemma occ_split (t : table) m e : Inv c t -> nth_error (elems (arr t)) m = Some e ->
  exists k d i r, GoodA c (hid t) k (arr t) /\ occ (arr t) = d ++ i :: r /\ length d = m /\ nth_error (cells (arr t)) i = Some (Live e).
Proof.
  intros H He. destruct (i_arr _ _ H) as [E|(k & HG & _)]; [rewrite E in He; destruct m; discriminate|].
  assert (m < length (occ (arr t)))%nat as L by (rewrite (occ_length c _ _ _ HG); apply nth_error_Some; congruence).
  apply nth_error_Some in L. destruct (nth_error (occ (arr t)) m) as [i|] eqn:Ei; [|congruence].
  destruct (nth_error_split _ _ Ei) as (d & r & E & Ld). exists k, d, i, r. do 3 (split; [assumption|]).
  assert (In i (occ (arr t))) as Hi by (rewrite E; apply in_or_app; right; now left).
  apply (good_occ c _ _ _ _ HG) in Hi as [e' He']. rewrite He'. f_equal. f_equal.
  rewrite (elems_occ c _ _ _ HG), E, at_slots_app in He. rewrite nth_error_app2 in He.
  - assert (length (at_slots (arr t) d) = length d) as Lx.
    { apply at_slots_live. intros j Hj. apply (good_occ c _ _ _ _ HG). rewrite E. apply in_or_app. now left. }
    rewrite Lx, Ld, Nat.sub_diag in He. unfold at_slots in He. cbn [flat_map] in He. rewrite He' in He. cbn in He. congruence.
  - assert (length (at_slots (arr t) d) = length d) as Lx.
    { apply at_slots_live. intros j Hj. apply (good_occ c _ _ _ _ HG). rewrite E. apply in_or_app. now left. }
    lia.
Qed.
Lemma nth_mid {A} (d : list A) i r x : nth (length d) (d ++ i :: r) x = i.
Proof. rewrite app_nth2, Nat.sub_diag by lia. reflexivity. Qed.
Lemma nth_hd {A} (r : list A) x : nth 0 r x = hd x r. Proof. destruct r; reflexivity. Qed.

Lemma iter_begin (t : table) : Inv c t -> exists it, it_begin c (arr t) = Some it /\ IterAt t 0 it.
Proof.
  intros H. destruct (i_arr _ _ H) as [E|(k & HG & _)].
  - exists (It 0 None). rewrite E. split; [reflexivity|]. split; [rewrite E; cbn; lia|]. right. rewrite E. cbn. auto.
  - destruct (it_begin_ok c k (arr t) (hid t) HG) as (it & E & A). exists it. split; [exact E|]. split; [lia|]. rewrite nth_hd. exact A.
Qed.
Lemma is_at_p (a : arrays) i it : IsAt a i it -> (it_p it = if (i <? length (cells a))%nat then Some i else None) /\ (i <= length (cells a))%nat.
Proof.
  intros [[L ->]|[-> E]].
  - apply Nat.ltb_lt in L as L'. rewrite L'. split; [reflexivity|lia].
  - rewrite Nat.ltb_irrefl. split; [exact E|lia].
Qed.
Lemma nth_occ (t : table) m : Inv c t -> (m < length (elems (arr t)))%nat -> (nth m (occ (arr t)) (length (cells (arr t))) < length (cells (arr t)))%nat.
Proof.
  intros H L. destruct (i_arr _ _ H) as [E|(k & [HS _] & _)]; [rewrite E in L; cbn in L; lia|].
  apply (occ_in k (arr t) _ HS). apply nth_In. rewrite occ_len by exact H. exact L.
Qed.
Lemma nth_occ_end (t : table) : Inv c t -> nth (length (elems (arr t))) (occ (arr t)) (length (cells (arr t))) = length (cells (arr t)).
Proof. intros H. apply nth_overflow. rewrite occ_len by exact H. lia. Qed.
Lemma iter_eqb (t : table) m m' x y : Inv c t -> IterAt t m x -> IterAt t m' y -> it_eqb x y = Nat.eqb m m'.
Proof.
  intros H [L1 A1] [L2 A2]. apply is_at_p in A1 as [P1 _], A2 as [P2 _]. unfold it_eqb. rewrite P1, P2.
  pose proof (nth_occ t) as N. pose proof (nth_occ_end t H) as NE.
  destruct (Nat.ltb_spec (nth m (occ (arr t)) (length (cells (arr t)))) (length (cells (arr t)))) as [B1|B1];
  destruct (Nat.ltb_spec (nth m' (occ (arr t)) (length (cells (arr t)))) (length (cells (arr t)))) as [B2|B2].
  - destruct (Nat.eqb_spec m m') as [->|Hn]; [apply Nat.eqb_refl|]. apply Nat.eqb_neq. intros C. apply Hn.
    apply (NoDup_nth (occ (arr t)) (length (cells (arr t)))); [apply occ_nodup| | |exact C]; rewrite occ_len by exact H.
    + destruct (Nat.eq_dec m (length (elems (arr t)))) as [->|]; lia.
    + destruct (Nat.eq_dec m' (length (elems (arr t)))) as [->|]; lia.
  - destruct (Nat.eqb_spec m m') as [->|]; [lia|reflexivity].
  - destruct (Nat.eqb_spec m m') as [->|]; [lia|reflexivity].
  - symmetry. apply Nat.eqb_eq. destruct (Nat.eq_dec m (length (elems (arr t)))) as [->|]; [|specialize (N m H); lia].
    destruct (Nat.eq_dec m' (length (elems (arr t)))) as [->|]; [|specialize (N m' H)]; lia.
Qed.
Lemma iter_end (t : table) : Inv c t -> IterAt t (length (elems (arr t))) it_end.
Proof. intros H. split; [lia|]. right. split; [apply nth_occ_end; exact H|reflexivity]. Qed.
Lemma iter_deref {St} (t : table) m it e (s : St) n : Inv c t -> IterAt t m it -> nth_error (elems (arr t)) m = Some e ->
  it_deref (arr t) it s n = Ret e s n.
Proof.
  intros H [L A] He. destruct (occ_split t m e H He) as (k & d & i & r & HG & E & Ld & Hc). subst m. rewrite E, nth_mid in A.
  apply is_at_p in A as [P _]. assert (i < length (cells (arr t)))%nat as Li by (apply nth_error_Some; congruence).
  apply Nat.ltb_lt in Li. rewrite Li in P. unfold it_deref. rewrite P. unfold read_element.
  pose proof HG as [HS _]. rewrite (get_cell_eq k) by exact HS. rewrite Hc. reflexivity.
Qed.
Lemma nth_mid_S {A} (d : list A) i r x : nth (S (length d)) (d ++ i :: r) x = hd x r.
Proof. rewrite app_nth2 by lia. replace (S (length d) - length d)%nat with 1%nat by lia. cbn [nth]. apply nth_hd. Qed.
Lemma is_at_lt (a : arrays) i it : (i < length (cells a))%nat -> IsAt a i it -> it = it_at i.
Proof. intros L [[_ ->]|[-> _]]; [reflexivity|lia]. Qed.
Lemma iter_next (t : table) m it : Inv c t -> IterAt t m it -> (m < length (elems (arr t)))%nat ->
  exists it', it_next c (arr t) it = Some it' /\ IterAt t (S m) it'.
Proof.
  intros H [L A] Hm. destruct (nth_error (elems (arr t)) m) as [e|] eqn:He; [|apply nth_error_None in He; lia].
  destruct (occ_split t m e H He) as (k & d & i & r & HG & E & Ld & Hc). subst m. rewrite E, nth_mid in A.
  assert (i < length (cells (arr t)))%nat as Li by (apply nth_error_Some; congruence).
  rewrite (is_at_lt _ _ _ Li A). destruct (it_next_after c k (arr t) (hid t) HG i Li) as (it' & E' & A').
  exists it'. split; [exact E'|]. split; [lia|]. rewrite E, nth_mid_S. destruct (occ_after k (arr t) d i r E) as [<- _]. exact A'.
Qed.
Lemma iter_uniq (t : table) m m' it : Inv c t -> IterAt t m it -> IterAt t m' it -> m = m'.
Proof.
  intros H A B. pose proof (iter_eqb t m m' it it H A B) as E. apply Nat.eqb_eq. rewrite <- E. unfold it_eqb.
  destruct (it_p it); [apply Nat.eqb_refl|reflexivity].
Qed.

Lemma filter_all {A} (f : A -> bool) l : (forall x, In x l -> f x = true) -> filter f l = l.
Proof. induction l as [|x l IH]; intros H; [reflexivity|]. cbn. rewrite H by now left. f_equal. apply IH. intros y Hy. apply H. now right. Qed.
Lemma filter_remove (d : list nat) i r : NoDup (d ++ i :: r) -> filter (fun j => negb (mem [i] j)) (d ++ i :: r) = d ++ r.
Proof.
  intros ND. pose proof (NoDup_remove_2 _ _ _ ND) as Hn. rewrite filter_app_. cbn [filter].
  assert (mem [i] i = true) as -> by (apply mem_spec; now left). cbn [negb].
  rewrite !filter_all; [reflexivity| |]; intros x Hx; apply negb_true_iff; destruct (mem [i] x) eqn:E; auto; apply mem_spec in E as [->|[]]; exfalso; apply Hn, in_or_app; auto.
Qed.
Lemma erased_occ h k D (a a' : arrays) : GoodA c h k a -> erased k D a a' -> occ a' = filter (fun i => negb (mem D i)) (occ a).
Proof.
  intros HG W. unfold occ. rewrite (er_len _ _ _ _ W). generalize (seq 0 (length (cells a))) as l.
  induction l as [|i l IH]; [reflexivity|]. cbn [filter]. destruct (mem D i) eqn:E.
  - apply mem_spec in E as Hi. destruct (er_in _ _ _ _ W i Hi) as [_ E2]. rewrite E2. cbn [N.eqb negb].
    destruct (negb (ctrl a i =? 0)); cbn [filter]; rewrite ?E; cbn [negb]; exact IH.
  - assert (~ In i D) as Hi by (intros C; apply mem_spec in C; congruence).
    destruct (er_out _ _ _ _ W i Hi) as [E1 E2]. rewrite E2.
    destruct (negb (ctrl a i =? 0)); cbn [filter]; rewrite ?E; cbn [negb]; [|exact IH]. f_equal. exact IH.
Qed.

(** the list without its m-th element *)
Definition drop_nth {A} (m : nat) (l : list A) : list A := firstn m l ++ skipn (S m) l.
Lemma drop_mid {A} (d : list A) i r : drop_nth (length d) (d ++ i :: r) = d ++ r.
Proof.
  unfold drop_nth. rewrite firstn_app, Nat.sub_diag, firstn_all. cbn [firstn]. rewrite app_nil_r. f_equal.
  rewrite skipn_app, skipn_all2 by lia. replace (S (length d) - length d)%nat with 1%nat by lia. reflexivity.
Qed.

Record ErasedAt (t t' : table) (m : nat) (it : iter) : Prop := {
  ea_inv : Inv c t'; ea_ids : Ids t t'; ea_cap : capacity (arr t') = capacity (arr t);
  ea_elems : elems (arr t') = drop_nth m (elems (arr t));
  ea_other : forall j x, IterAt t j x -> j <> m -> IterAt t' (if (j <? m)%nat then j else pred j) x;
  ea_next : exists it', it_next c (arr t') it = Some it' /\ IterAt t' m it'
}.
Lemma iter_erase (t : table) m it e n : Inv c t -> IterAt t m it -> nth_error (elems (arr t)) m = Some e ->
  outcome (erase_it it t n) (fun _ t' => ErasedAt t t' m it) (fun _ _ => False).
Proof.
  intros H [L A] He. destruct (occ_split t m e H He) as (k & d & i & r & HG & E & Ld & Hc). subst m. rewrite E, nth_mid in A.
  assert (i < length (cells (arr t)))%nat as Li by (apply nth_error_Some; congruence).
  rewrite (is_at_lt _ _ _ Li A). unfold erase_it, it_at. cbn [it_p it_pc]. rewrite pc_div, pc_mod.
  pose proof (erase_ok c t i e n H Hc) as X. unfold erase_at in X. rewrite slot_of in X.
  eapply outcome_weaken; [exact X| |auto]. intros _ t' ([ETi ETs ETm (k' & W & HS')] & I' & _ & Ec & Ecap).
  pose proof HG as [HS _]. assert (k' = k) as -> by (apply (erased_k k k' [] (arr t) (arr t)); [exact HS|exact HS'|apply erased_nil; exact HS]).
  pose proof (good_erased c _ _ _ _ _ HG W) as HG'. pose proof (er_len _ _ _ _ W) as EL.
  pose proof (erased_occ _ _ _ _ _ HG W) as Eo. pose proof (occ_nodup (arr t)) as ND. rewrite E in ND, Eo. rewrite (filter_remove _ _ _ ND) in Eo.
  assert (elems (arr t') = drop_nth (length d) (elems (arr t))) as Ee.
  { rewrite (erased_order c _ _ _ _ _ HG W), E, (filter_remove _ _ _ ND), at_slots_app.
    rewrite (elems_occ c _ _ _ HG), E, at_slots_app.
    assert (length (at_slots (arr t) d) = length d) as Lx.
    { apply at_slots_live. intros j Hj. apply (good_occ c _ _ _ _ HG). rewrite E. apply in_or_app. now left. }
    rewrite <- Lx. change (at_slots (arr t) (i :: r)) with (match nth_error (cells (arr t)) i with Some x => live x | None => [] end ++ at_slots (arr t) r).
    rewrite Hc. cbn [live app]. rewrite drop_mid. reflexivity. }
  assert (length (elems (arr t)) = S (length (elems (arr t'))) /\ length (elems (arr t')) = (length d + length r)%nat) as [El1 El2].
  { rewrite <- (occ_len t H), <- (occ_len t' I'), E, Eo, !app_length. cbn [length]. lia. }
  constructor; auto.
  - intros j x [Lj Aj] Hj. split.
    { destruct (Nat.ltb_spec j (length d)); lia. }
    rewrite EL. rewrite E in Aj. rewrite Eo.
    assert (nth j (d ++ i :: r) (length (cells (arr t))) = nth (if (j <? length d)%nat then j else pred j) (d ++ r) (length (cells (arr t)))) as <-.
    { destruct (Nat.ltb_spec j (length d)) as [B|B].
      - rewrite !app_nth1 by lia. reflexivity.
      - rewrite !app_nth2 by lia. replace (j - length d)%nat with (S (pred j - length d)) by lia. reflexivity. }
    destruct Aj as [[B ->]|[B1 B2]]; [left|right]; rewrite EL; auto.
  - destruct (it_next_after c k (arr t') (hid t) HG' i ltac:(lia)) as (it' & E' & A').
    exists it'. split; [exact E'|]. split; [lia|]. rewrite Eo.
    assert (after (arr t') i = r) as Er.
    { destruct (occ_after k (arr t) d i r E) as [<- _]. unfold after. rewrite EL.
      apply filter_ext_in. intros j Hj. apply in_seq in Hj. destruct (er_out _ _ _ _ W j) as [_ ->]; [intros [->|[]]; lia|reflexivity]. }
    rewrite Er in A'. rewrite app_nth2, Nat.sub_diag, nth_hd by lia. exact A'.
Qed.

(** ** traversal *)
Lemma walk_ok {St} (t : table) (s : St) n last m2 : Inv c t -> IterAt t m2 last -> forall fuel m it, (m <= m2)%nat -> IterAt t m it -> (m2 < fuel + m)%nat ->
  walk c fuel (arr t) it last s n = Ret (firstn (m2 - m) (skipn m (elems (arr t)))) s n.
Proof.
  intros H Al. induction fuel as [|fuel IH]; intros m it Hm A Hf; [lia|]. cbn [walk].
  rewrite (iter_eqb t m m2 it last H A Al). destruct (Nat.eqb_spec m m2) as [->|Hn].
  - rewrite Nat.sub_diag. reflexivity.
  - destruct Al as [Ll _]. destruct (nth_error (elems (arr t)) m) as [e|] eqn:He; [|apply nth_error_None in He; lia].
    unfold bind at 1. rewrite (iter_deref t m it e s n H A He).
    destruct (iter_next t m it H A ltac:(lia)) as (it' & E & A'). unfold bind at 1. rewrite E. cbn [of_option ret].
    unfold bind. rewrite (IH (S m) it' ltac:(lia) A' ltac:(lia)). unfold ret. f_equal.
    destruct (nth_error_split _ _ He) as (l1 & l2 & El & Ll1). rewrite El, <- Ll1 in *. 
    rewrite !skipn_app, skipn_all, (skipn_all2 l1 (n:=S (length l1))) by lia. replace (length l1 - length l1)%nat with 0%nat by lia. replace (S (length l1) - length l1)%nat with 1%nat by lia.
    cbn [skipn app]. replace (m2 - length l1)%nat with (S (m2 - S (length l1))) by lia. reflexivity.
Qed.
Lemma cap_elems (t : table) : Inv c t -> (length (elems (arr t)) <= N.to_nat (capacity (arr t)))%nat.
Proof.
  intros H. destruct (i_arr _ _ H) as [E|(k & [HS _] & _)]; [rewrite E; cbn; lia|].
  destruct (cap_shape k _ HS) as [_ ->]. pose proof (elems_len (arr t)). lia.
Qed.
Lemma iterate_ok {St} (t : table) (s : St) n : Inv c t -> m_iterate c t s n = Ret (elems (arr t)) s n.
Proof.
  intros H. unfold m_iterate. destruct (iter_begin t H) as (it & E & A). unfold bind. rewrite E. cbn [of_option ret].
  pose proof (cap_elems t H). unfold of_option, ret.
  rewrite (walk_ok t s n it_end (length (elems (arr t))) H (iter_end t H) (S (N.to_nat (capacity (arr t)))) 0 it ltac:(lia) A ltac:(lia)).
  rewrite Nat.sub_0_r. cbn [skipn]. rewrite firstn_all. reflexivity.
Qed.

(** ** erase through iterators *)
Lemma erase_at_iter_ok (t : table) m it e n : Inv c t -> IterAt t m it -> nth_error (elems (arr t)) m = Some e ->
  outcome (m_erase_at c it t n) (fun it' t' => ErasedAt t t' m it /\ IterAt t' m it') (fun _ _ => False).
Proof.
  intros H A He. unfold m_erase_at. eapply outcome_bind; [apply (iter_erase t m it e n H A He)|].
  intros u t' n' EA. cbv beta in EA. rewrite bind_get. destruct (ea_next _ _ _ _ EA) as (it' & E & A'). rewrite E. cbn [of_option ret outcome]. auto.
Qed.

Lemma drop_firstn {A} (l : list A) m j e : (m <= j)%nat -> nth_error l m = Some e ->
  firstn m l ++ skipn (S j) l = firstn m (drop_nth m l) ++ skipn j (drop_nth m l).
Proof.
  intros Hj He. destruct (nth_error_split _ _ He) as (l1 & l2 & -> & <-). rewrite drop_mid.
  rewrite !firstn_app, Nat.sub_diag, firstn_all. cbn [firstn]. rewrite !app_nil_r. f_equal.
  rewrite !skipn_app, (skipn_all2 l1 (n:=S j)), (skipn_all2 l1 (n:=j)) by lia. cbn [app]. replace (S j - length l1)%nat with (S (j - length l1)) by lia. reflexivity.
Qed.
Lemma erase_range_ok : forall fuel (t : table) m m2 it last n, Inv c t -> IterAt t m it -> IterAt t m2 last -> (m <= m2)%nat -> (m2 < fuel + m)%nat ->
  outcome (m_erase_range c fuel it last t n)
    (fun r t' => Inv c t' /\ Ids t t' /\ capacity (arr t') = capacity (arr t) /\ r = last /\
       elems (arr t') = firstn m (elems (arr t)) ++ skipn m2 (elems (arr t)) /\ IterAt t' m last)
    (fun _ _ => False).
Proof.
  induction fuel as [|fuel IH]; intros t m m2 it last n H A Al Hm Hf; [lia|]. cbn [m_erase_range].
  rewrite (iter_eqb t m m2 it last H A Al). destruct (Nat.eqb_spec m m2) as [->|Hn].
  - cbn [ret outcome]. do 4 (split; [auto using Ids_refl|]). split; [|exact Al]. symmetry. apply firstn_skipn.
  - pose proof Al as [Ll _]. destruct (nth_error (elems (arr t)) m) as [e|] eqn:He; [|apply nth_error_None in He; lia].
    rewrite bind_get. destruct (iter_next t m it H A ltac:(lia)) as (it' & E & A'). unfold bind at 1. rewrite E. cbn [of_option ret].
    eapply outcome_bind; [apply (iter_erase t m it e n H A He)|]. intros u t' n' EA. cbv beta in EA.
    pose proof (ea_other _ _ _ _ EA (S m) it' A' ltac:(lia)) as A1. pose proof (ea_other _ _ _ _ EA m2 last Al ltac:(lia)) as A2.
    assert (S m <? m = false)%nat as B1 by (apply Nat.ltb_ge; lia). assert (m2 <? m = false)%nat as B2 by (apply Nat.ltb_ge; lia).
    rewrite B1 in A1. rewrite B2 in A2. cbn [pred] in A1.
    eapply outcome_weaken; [apply (IH t' m (pred m2) it' last n' (ea_inv _ _ _ _ EA) A1 A2); lia| |auto].
    intros r t2 (I2 & D2 & C2 & -> & El & At). split; [exact I2|]. split.
    { destruct (ea_ids _ _ _ _ EA), D2. constructor; congruence. }
    split; [rewrite C2; apply (ea_cap _ _ _ _ EA)|]. split; [reflexivity|]. split; [|exact At].
    rewrite El, (ea_elems _ _ _ _ EA). destruct m2 as [|m2]; [lia|]. cbn [pred]. symmetry. eapply drop_firstn; [lia|exact He].
Qed.

(** the documented erasing loop *)
Lemma erase_loop_ok pr : forall fuel (t : table) m it n, Inv c t -> IterAt t m it -> (length (elems (arr t)) < fuel + m)%nat ->
  outcome (erase_loop c fuel pr it t n)
    (fun log t' => Inv c t' /\ Ids t t' /\ capacity (arr t') = capacity (arr t) /\ log = skipn m (elems (arr t)) /\
       elems (arr t') = firstn m (elems (arr t)) ++ filter (fun e => negb (pr e)) (skipn m (elems (arr t))))
    (fun _ _ => False).
Proof.
  induction fuel as [|fuel IH]; intros t m it n H A Hf; [destruct A; lia|]. cbn [erase_loop].
  rewrite (iter_eqb t m _ it it_end H A (iter_end t H)). destruct (Nat.eqb_spec m (length (elems (arr t)))) as [->|Hn].
  - cbn [ret outcome]. rewrite skipn_all, firstn_all. cbn [filter]. rewrite app_nil_r. auto using Ids_refl.
  - pose proof A as [La _]. destruct (nth_error (elems (arr t)) m) as [e|] eqn:He; [|apply nth_error_None in He; lia].
    rewrite bind_get. unfold bind at 1. rewrite (iter_deref t m it e t n H A He).
    destruct (nth_error_split _ _ He) as (l1 & l2 & El & Ll1).
    assert (skipn m (elems (arr t)) = e :: l2) as Es.
    { rewrite El, <- Ll1, skipn_app, skipn_all2, Nat.sub_diag by lia. reflexivity. }
    assert (firstn m (elems (arr t)) = l1) as Ef.
    { rewrite El, <- Ll1, firstn_app, firstn_all, Nat.sub_diag by lia. cbn [firstn]. apply app_nil_r. }
    rewrite Es, Ef. cbn [filter]. destruct (pr e); cbn [negb].
    + eapply outcome_bind; [apply (erase_at_iter_ok t m it e n H A He)|]. intros it' t' n' [EA A']. cbv beta in *.
      pose proof (ea_elems _ _ _ _ EA) as Ee. rewrite El, <- Ll1, drop_mid in Ee.
      assert (skipn m (elems (arr t')) = l2) as Es'.
      { rewrite Ee, <- Ll1, skipn_app, skipn_all2, Nat.sub_diag by lia. reflexivity. }
      assert (firstn m (elems (arr t')) = l1) as Ef'.
      { rewrite Ee, <- Ll1, firstn_app, firstn_all, Nat.sub_diag by lia. cbn [firstn]. apply app_nil_r. }
      eapply outcome_bind; [apply (IH t' m it' n' (ea_inv _ _ _ _ EA) A')|].
      { rewrite Ee, app_length. rewrite El, app_length in Hf. cbn [length] in Hf. lia. }
      intros log t2 n2 (I2 & D2 & C2 & -> & E2). cbn [ret outcome]. rewrite Es', Ef' in E2. rewrite Es'. split; [exact I2|]. split.
      { destruct (ea_ids _ _ _ _ EA), D2. constructor; congruence. }
      split; [rewrite C2; apply (ea_cap _ _ _ _ EA)|]. auto.
    + destruct (iter_next t m it H A ltac:(lia)) as (it' & E & A'). unfold bind at 1. rewrite E. cbn [of_option ret].
      assert (skipn (S m) (elems (arr t)) = l2) as Es'.
      { rewrite El, <- Ll1, skipn_app, skipn_all2 by lia. replace (S (length l1) - length l1)%nat with 1%nat by lia. reflexivity. }
      assert (firstn (S m) (elems (arr t)) = l1 ++ [e]) as Ef'.
      { rewrite El, <- Ll1, firstn_app, firstn_all2 by lia. replace (S (length l1) - length l1)%nat with 1%nat by lia. reflexivity. }
      eapply outcome_bind; [apply (IH t (S m) it' n H A'); lia|].
      intros log t2 n2 (I2 & D2 & C2 & -> & E2). cbn [ret outcome]. rewrite Es', Ef', <- app_assoc in E2. rewrite Es'. auto.
Qed.

(** ** find and equal_range as iterators *)
Lemma find_it_ok (t : table) key n : Inv c t ->
  outcome (m_find_it c key t n)
    (fun it t' => t' = t /\ exists m, IterAt t m it /\
       match nth_error (elems (arr t)) m with
       | Some e => keqf c (pid t) key (fst e) = true
       | None => m = length (elems (arr t)) /\ forall e, In e (elems (arr t)) -> keqf c (pid t) key (fst e) = false
       end)
    (fun kd t' => t' = t /\ (kd = KHash \/ kd = KEq) /\ raised c kd).
Proof.
  intros H. unfold m_find_it. rewrite bind_get. eapply outcome_bind; [apply (find_ok c t key t n H)|].
  intros loc s n' [-> F]. destruct loc as [[g x]|]; cbn [ret outcome found] in *; (split; [reflexivity|]).
  - destruct F as (Hx & e & Hc & Hk). set (i := slot_index g x) in *.
    destruct (i_arr _ _ H) as [E|(k & HG & _)]; [rewrite E in Hc; destruct i; discriminate|].
    assert (In i (occ (arr t))) as Hi by (apply (good_occ c _ _ _ _ HG); eauto).
    destruct (In_nth_error _ _ Hi) as [m Hm]. exists m.
    assert (m < length (elems (arr t)))%nat as Lm by (rewrite <- (occ_len t H); apply nth_error_Some; congruence).
    destruct (nth_error (elems (arr t)) m) as [e'|] eqn:He; [|apply nth_error_None in He; lia].
    destruct (occ_split t m e' H He) as (k' & d & i' & r & _ & E & Ld & Hc').
    assert (i' = i) as -> by (rewrite E, <- Ld, nth_error_app2, Nat.sub_diag in Hm by lia; cbn in Hm; congruence).
    split.
    + split; [lia|]. rewrite E, <- Ld, nth_mid. left. split; [apply nth_error_Some; congruence|].
      unfold it_make, it_at, i. cbn [fst snd]. rewrite (slot_div g x), (slot_mod g x) by exact Hx. reflexivity.
    + congruence.
  - exists (length (elems (arr t))). split; [apply iter_end; exact H|].
    assert (nth_error (elems (arr t)) (length (elems (arr t))) = None) as -> by (apply nth_error_None; lia). auto.
Qed.
Lemma equal_range_ok (t : table) key n : Inv c t ->
  outcome (m_equal_range c key t n)
    (fun r t' => t' = t /\ exists m m2, IterAt t m (fst r) /\ IterAt t m2 (snd r) /\ (m <= m2)%nat /\
       forall j e, nth_error (elems (arr t)) j = Some e -> (keqf c (pid t) key (fst e) = true <-> (m <= j < m2)%nat))
    (fun kd t' => t' = t /\ (kd = KHash \/ kd = KEq) /\ raised c kd).
Proof.
  intros H. unfold m_equal_range. eapply outcome_bind; [apply (find_it_ok t key n H)|].
  intros it t' n' (-> & m & A & F). cbv beta in *. rewrite (iter_eqb t m _ it it_end H A (iter_end t H)).
  destruct (nth_error (elems (arr t)) m) as [e|] eqn:He.
  - assert (m < length (elems (arr t)))%nat as L by (apply nth_error_Some; congruence).
    destruct (Nat.eqb_spec m (length (elems (arr t)))); [lia|]. rewrite bind_get. unfold bind.
    destruct (iter_next t m it H A L) as (it' & E & A'). rewrite E. cbn [of_option ret outcome fst snd]. split; [reflexivity|].
    exists m, (S m). split; [exact A|]. split; [exact A'|]. split; [lia|]. intros j e' Hj. split.
    + intros Hk. assert (j = m); [|lia]. pose proof (i_compat _ _ H) as [(R & S & T) _].
      pose proof (i_uniq _ _ H) as U. destruct (occ_split t j e' H Hj) as (k1 & d1 & i1 & r1 & _).
      assert (keqf c (pid t) (fst e) (fst e') = true) as Q.
      { apply (T _ key); [rewrite S; exact F|exact Hk]. }
      clear - U Hj He Q S. revert m j He Hj. induction (elems (arr t)) as [|x l IH]; intros m j He Hj; [destruct m; discriminate|].
      inversion U as [|? ? N1 N2]; subst. rewrite Forall_forall in N1.
      destruct m as [|m], j as [|j]; cbn in *; auto.
      * injection He as ->. apply nth_error_In in Hj. rewrite (N1 _ Hj) in Q. discriminate.
      * injection Hj as ->. apply nth_error_In in He. rewrite S, (N1 _ He) in Q. discriminate.
    + intros Lj. assert (j = m) as -> by lia. congruence.
  - destruct F as [-> F]. rewrite Nat.eqb_refl. cbn [ret outcome fst snd]. split; [reflexivity|].
    exists (length (elems (arr t))), (length (elems (arr t))). split; [exact A|]. split; [exact A|]. split; [lia|].
    intros j e Hj. apply nth_error_In in Hj. rewrite (F _ Hj). split; [discriminate|lia].
Qed.
End Pos.
