(** Facts about one 16-byte metadata group, in the form used by the table proofs. *)
From Coq Require Import NArith Bool List Arith Lia ZifyBool ZifyNat ZifyN.
From Verif Require Import GroupModel GroupSpec GroupProofs FoaModel.
Import ListNotations.
Local Open Scope N_scope.

Lemma set_nth_len {A} (l : list A) i x : length (FoaModel.set_nth l i x) = length l.
Proof. exact (GroupProofs.set_nth_length l i x). Qed.

Lemma set_nth_get {A} (l : list A) i j x d : (i < length l)%nat ->
  nth j (FoaModel.set_nth l i x) d = if Nat.eqb j i then x else nth j l d.
Proof. rewrite Nat.eqb_sym. exact (GroupProofs.set_nth_nth l i j x d). Qed.

Lemma set_nth_err {A} (l : list A) i j x : (i < length l)%nat ->
  nth_error (FoaModel.set_nth l i x) j = if Nat.eqb j i then Some x else nth_error l j.
Proof.
  intros Hi. unfold FoaModel.set_nth.
  rewrite <- (firstn_skipn i l) at 3.
  assert (length (firstn i l) = i) as L by (apply firstn_length_le; lia).
  destruct (skipn i l) as [|a r] eqn:Es.
  { exfalso. pose proof (skipn_length i l). rewrite Es in H. cbn in H. lia. }
  destruct (Nat.eqb_spec j i) as [->|Hn].
  - rewrite nth_error_app2 by lia. rewrite L, Nat.sub_diag. reflexivity.
  - destruct (Nat.lt_ge_cases j i).
    + rewrite !nth_error_app1 by lia. reflexivity.
    + rewrite !nth_error_app2 by lia. rewrite L.
      destruct (j - i)%nat as [|m] eqn:Em; [lia|]. reflexivity.
Qed.

Lemma set_nth_split {A} (l : list A) i x y : nth_error l i = Some y ->
  exists l1 l2, l = l1 ++ y :: l2 /\ length l1 = i /\ FoaModel.set_nth l i x = l1 ++ x :: l2.
Proof.
  intros H. destruct (nth_error_split l i H) as (l1 & l2 & -> & <-).
  exists l1, l2. repeat split; auto. unfold FoaModel.set_nth.
  rewrite firstn_app, firstn_all, Nat.sub_diag, firstn_O, app_nil_r.
  rewrite skipn_app, skipn_all, Nat.sub_diag. reflexivity.
Qed.

Lemma mask15_bits l m : length l = 16%nat -> m = N.land (mask_of l) 0x7FFF ->
  mask_loop 16 m = filter (fun i => nth i l false) (seq 0 15) /\ m < 2 ^ 15 /\
  forall i, N.testbit m (N.of_nat i) = nth i l false && (i <? 15)%nat.
Proof.
  intros Hl ->.
  assert (forall i, N.testbit (N.land (mask_of l) 0x7FFF) (N.of_nat i) = nth i l false && (i <? 15)%nat) as T.
  { intros i. rewrite N.land_spec, mask_of_testbit, testbit_7fff. reflexivity. }
  assert (N.land (mask_of l) 0x7FFF < 2 ^ 15) as B.
  { change 0x7FFF with (N.ones 15). rewrite N.land_ones. apply N.mod_lt. lia. }
  split; [|split; assumption].
  rewrite mask_loop_bits by exact B. unfold mask_bits. apply filter_ext_in'.
  intros i Hi. rewrite T. apply in_seq in Hi. destruct (Nat.ltb_spec i 15); [apply andb_true_r|lia].
Qed.

Definition tag_bits (P : N -> bool) (g : bytes16) : list nat :=
  filter (fun i => P (nth i g 0)) (seq 0 15).

Lemma tag_bits_map P g m : length g = 16%nat -> m = N.land (mask_of (map P g)) 0x7FFF ->
  mask_loop 16 m = tag_bits P g /\ m < 2 ^ 15.
Proof.
  intros Hg Hm. destruct (mask15_bits (map P g) m) as (E & B & _); auto.
  { rewrite map_length. exact Hg. }
  split; [|exact B]. rewrite E. unfold tag_bits. apply filter_ext_in'.
  intros i Hi. apply in_seq in Hi. apply nth_map_lt. lia.
Qed.

Lemma match_bits g h : length g = 16%nat ->
  mask_loop 16 (b_match g h) = tag_bits (N.eqb (low_class h)) g /\ b_match g h < 2 ^ 15.
Proof.
  intros Hg. apply tag_bits_map; [exact Hg|]. unfold b_match.
  destruct (reduced_facts h) as (_ & _ & _ & _ & E). rewrite E.
  rewrite cmpeq_repeat by lia. do 2 f_equal. apply map_ext. intros a. apply N.eqb_sym.
Qed.
Lemma available_bits g : length g = 16%nat ->
  mask_loop 16 (b_match_available g) = tag_bits (N.eqb 0) g /\ b_match_available g < 2 ^ 15.
Proof.
  intros Hg. apply tag_bits_map; [exact Hg|]. unfold b_match_available.
  rewrite cmpeq_repeat by lia. rewrite (map_ext _ (N.eqb 0)); [reflexivity|]. intros a. apply N.eqb_sym.
Qed.

Lemma occupied_mask g : length g = 16%nat -> b_match_occupied g = N.land (mask_of (map (fun x => negb (x =? 0)) g)) 0x7FFF.
Proof.
  intros Hg. unfold b_match_occupied, b_match_available. rewrite cmpeq_repeat by lia.
  apply bits_inj_nat. intros i. rewrite !N.land_spec, testbit_7fff.
  destruct (Nat.ltb_spec i 15) as [L|G]; [|rewrite !andb_false_r; reflexivity].
  rewrite !andb_true_r, N.lnot_spec_low by lia.
  rewrite N.land_spec, testbit_7fff, !mask_of_testbit.
  rewrite (nth_map_lt _ g i false 0), (nth_map_lt _ g i false 0) by lia.
  replace (i <? 15)%nat with true by (symmetry; apply Nat.ltb_lt; exact L).
  rewrite andb_true_r. reflexivity.
Qed.

Lemma occupied_bits g : length g = 16%nat ->
  mask_loop 16 (b_match_occupied g) = tag_bits (fun x => negb (x =? 0)) g /\ b_match_occupied g < 2 ^ 15.
Proof. intros Hg. apply tag_bits_map; [exact Hg|]. apply occupied_mask, Hg. Qed.

(** slots holding elements: the sentinel position of the last group is excluded *)
Definition occ_bits (g : bytes16) (is_last : bool) : list nat :=
  filter (fun i => negb (nth i g 0 =? 0) && negb (is_last && Nat.eqb i 14)) (seq 0 15).

Lemma really_occupied_bits g last : length g = 16%nat ->
  mask_loop 16 (match_really_occupied g last) = occ_bits g last.
Proof.
  intros Hg. unfold match_really_occupied. rewrite occupied_mask by exact Hg.
  set (m0 := N.land (mask_of _) 0x7FFF).
  assert (forall i, N.testbit m0 (N.of_nat i) = nth i (map (fun x => negb (x =? 0)) g) false && (i <? 15)%nat) as T0.
  { intros i. unfold m0. rewrite N.land_spec, mask_of_testbit, testbit_7fff. reflexivity. }
  set (m := N.land m0 _).
  assert (forall i, (i < 15)%nat -> N.testbit m (N.of_nat i) = negb (nth i g 0 =? 0) && negb (last && Nat.eqb i 14)) as T.
  { intros i Hi. unfold m. rewrite N.land_spec, T0, (nth_map_lt _ g i false 0), N.lnot_spec_low by lia.
    replace (i <? 15)%nat with true by (symmetry; apply Nat.ltb_lt; exact Hi). rewrite andb_true_r. f_equal. f_equal.
    destruct last; cbn [andb]; [|apply N.bits_0].
    change (N.shiftl 1 14) with (2 ^ 14). rewrite N.pow2_bits_eqb.
    destruct (Nat.eqb_spec i 14) as [->|Hn]; [reflexivity|]. apply N.eqb_neq. lia. }
  assert (m < 2 ^ 15) as B.
  { destruct (N.eq_dec m 0) as [->|Hm]; [lia|].
    apply N.log2_lt_pow2; [lia|].
    destruct (N.lt_ge_cases (N.log2 m) 15) as [|G]; [assumption|exfalso].
    pose proof (N.bit_log2 m Hm) as Hb. unfold m in Hb. rewrite N.land_spec in Hb.
    apply andb_true_iff in Hb as [Hb _]. fold m in Hb.
    replace (N.log2 m) with (N.of_nat (N.to_nat (N.log2 m))) in Hb by lia. rewrite T0 in Hb.
    apply andb_true_iff in Hb as [_ Hb]. apply Nat.ltb_lt in Hb. lia. }
  rewrite mask_loop_bits by exact B. unfold mask_bits, occ_bits. apply filter_ext_in'.
  intros i Hi. apply T. apply in_seq in Hi. lia.
Qed.

Lemma mask_loop_S f m : mask_loop (S f) m = if m =? 0 then [] else countr_zero m :: mask_loop f (N.land m (m - 1)).
Proof. reflexivity. Qed.
Lemma mask_loop_nil m : (m =? 0) = match mask_loop 16 m with [] => true | _ => false end.
Proof. rewrite mask_loop_S. destruct (m =? 0); reflexivity. Qed.
Lemma mask_loop_hd m n r : mask_loop 16 m = n :: r -> countr_zero m = n.
Proof. rewrite mask_loop_S. destruct (m =? 0); congruence. Qed.

Lemma not_overflowed_bit g h : b_is_not_overflowed g h = negb (N.testbit (nth 15 g 0) (h mod 8)).
Proof.
  unfold b_is_not_overflowed. destruct (shift_table_nth (h mod 8) (hmod8 h)) as [E _].
  rewrite E. apply land_pow2.
Qed.
Lemma mark_overflow_eq g h : b_mark_overflow g h = FoaModel.set_nth g 15 (N.lor (nth 15 g 0) (2 ^ (h mod 8))).
Proof.
  unfold b_mark_overflow. destruct (shift_table_nth (h mod 8) (hmod8 h)) as [_ E]. rewrite E. reflexivity.
Qed.
Lemma lor_pow2_bit x j i : N.testbit (N.lor x (2 ^ j)) i = N.testbit x i || (j =? i).
Proof. rewrite N.lor_spec, N.pow2_bits_eqb. reflexivity. Qed.
Lemma b_set_eq g n h : b_set g n h = FoaModel.set_nth g n (low_class h).
Proof. unfold b_set. destruct (reduced_facts h) as (_ & E & _). rewrite E. reflexivity. Qed.
Lemma b_reset_eq g n : b_reset g n = FoaModel.set_nth g n 0. Proof. reflexivity. Qed.
Lemma low_class_ge2 h : 2 <= low_class h.
Proof. destruct (reduced_facts h) as (_ & _ & B & _). lia. Qed.
Lemma low_class_mod8 h : low_class h mod 8 = h mod 8.
Proof. destruct (reduced_facts h) as (_ & _ & _ & B & _). exact B. Qed.
