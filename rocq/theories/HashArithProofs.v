From Coq Require Import NArith ZArith Bool List Lia ZifyBool ZifyNat ZifyN.
From Verif Require Import HashArithModel.
Import ListNotations.
Local Open Scope N_scope.

Lemma p32 : 2 ^ 64 = 2 ^ 32 * 2 ^ 32. Proof. reflexivity. Qed.

(** ** mulx *)
Lemma div_lt_B p B : 1 < B -> p <= (B - 1) * (B - 1) -> p / B < B - 1.
Proof. intros HB H. apply N.div_lt_upper_bound; [lia|]. nia. Qed.
Lemma lt_BB a b B : a < B -> b < B -> a * B + b < B * B.
Proof. intros. nia. Qed.

Lemma mulx64_same x y : x < 2 ^ 64 -> y < 2 ^ 64 -> mulx64_portable x y = mulx64_int128 x y.
Proof.
  intros Hx Hy. unfold mulx64_portable, mulx64_int128. cbv zeta. unfold u64w, u32w.
  rewrite !N.shiftr_div_pow2, !N.shiftl_mul_pow2, p32.
  set (B := 2 ^ 32) in *.
  assert (0 < B) as HB by reflexivity.
  rewrite p32 in Hx, Hy. fold B in Hx, Hy.
  pose proof (N.div_mod x B ltac:(lia)) as Ex. pose proof (N.mod_lt x B ltac:(lia)) as Lx1.
  assert (x / B < B) as Lx2 by (apply N.div_lt_upper_bound; lia).
  pose proof (N.div_mod y B ltac:(lia)) as Ey. pose proof (N.mod_lt y B ltac:(lia)) as Ly1.
  assert (y / B < B) as Ly2 by (apply N.div_lt_upper_bound; lia).
  set (x1 := x mod B) in *. set (x2 := x / B) in *. set (y1 := y mod B) in *. set (y2 := y / B) in *.
  assert (forall a b, a < B -> b < B -> a * b <= (B - 1) * (B - 1)) as MB by (intros; nia).
  assert (forall a b, a < B -> b < B -> (a * b) mod (B * B) = a * b) as MS.
  { intros a b Ha Hb. apply N.mod_small. pose proof (MB a b Ha Hb). nia. }
  rewrite (MS x2 y2), (MS x1 y2), (MS x2 y1), (MS x1 y1) by assumption.
  pose proof (MB x1 y1 Lx1 Ly1) as b11. pose proof (MB x1 y2 Lx1 Ly2) as b12.
  pose proof (MB x2 y1 Lx2 Ly1) as b21. pose proof (MB x2 y2 Lx2 Ly2) as b22.
  set (p11 := x1 * y1) in *. set (p12 := x1 * y2) in *. set (p21 := x2 * y1) in *. set (p22 := x2 * y2) in *.
  assert (x * y = p22 * (B * B) + (p12 + p21) * B + p11) as EP.
  { rewrite Ex, Ey. unfold p11, p12, p21, p22. ring. }
  rewrite EP.
  pose proof (N.div_mod p11 B ltac:(lia)) as E11. pose proof (N.mod_lt p11 B ltac:(lia)) as L11.
  pose proof (N.div_mod p12 B ltac:(lia)) as E12. pose proof (N.mod_lt p12 B ltac:(lia)) as L12.
  pose proof (N.div_mod p21 B ltac:(lia)) as E21. pose proof (N.mod_lt p21 B ltac:(lia)) as L21.
  assert (1 < B) as HB1 by reflexivity.
  pose proof (div_lt_B p11 B HB1 b11) as H11.
  pose proof (div_lt_B p12 B HB1 b12) as H12.
  pose proof (div_lt_B p21 B HB1 b21) as H21.
  set (h11 := p11 / B) in *. set (l11 := p11 mod B) in *.
  set (h12 := p12 / B) in *. set (l12 := p12 mod B) in *.
  set (h21 := p21 / B) in *. set (l21 := p21 mod B) in *.
  assert (h11 + l12 + l21 < B * B) as R2.
  { assert (3 < B) as HB3 by reflexivity. clear -H11 L12 L21 HB3. clearbody B h11 l12 l21.
    apply N.lt_le_trans with (3 * B); [lia|]. apply N.mul_le_mono_r. lia. }
  rewrite (N.mod_small (h11 + l12 + l21)) by exact R2.
  set (r2 := h11 + l12 + l21) in *.
  pose proof (N.div_mod r2 B ltac:(lia)) as E2. pose proof (N.mod_lt r2 B ltac:(lia)) as L2.
  set (h2 := r2 / B) in *. set (l2 := r2 mod B) in *.
  assert (B * B <> 0) as NB by discriminate.
  assert ((r2 * B) mod (B * B) = l2 * B) as M2.
  { rewrite E2. replace ((B * h2 + l2) * B) with (l2 * B + h2 * (B * B)) by ring.
    rewrite N.mod_add by exact NB. apply N.mod_small. rewrite <- (N.add_0_r (l2 * B)). apply lt_BB; assumption. }
  rewrite M2.
  assert (p22 * (B * B) + (p12 + p21) * B + p11 = (l2 * B + l11) + (p22 + h12 + h21 + h2) * (B * B)) as ET.
  { rewrite E12, E21, E11.
    assert (r2 * B = h2 * (B * B) + l2 * B) as K by (rewrite E2; ring).
    assert ((B * h12 + l12 + (B * h21 + l21)) * B + (B * h11 + l11) = (h12 + h21) * (B * B) + r2 * B + l11) as K2
      by (unfold r2; ring).
    rewrite <- N.add_assoc, K2, K. ring. }
  rewrite ET.
  assert (l2 * B + l11 < B * B) as LL by (apply lt_BB; assumption).
  rewrite N.mod_add by exact NB. rewrite N.div_add by exact NB. rewrite (N.div_small (l2 * B + l11)) by exact LL.
  rewrite (N.mod_small (l2 * B + l11)) by exact LL.
  f_equal. rewrite N.add_0_l.
  repeat rewrite N.add_mod_idemp_l by exact NB.
  rewrite <- (N.add_assoc ((p22 + h12) mod (B * B))). rewrite N.add_mod_idemp_l by exact NB.
  f_equal. ring.
Qed.

Lemma mulx32_same x y : mulx32_checked x y = mulx32 x y.
Proof.
  unfold mulx32_checked, mulx32. cbv zeta. f_equal.
  change 0xFFFFFFFF with (N.ones 32). rewrite N.land_ones. unfold u32w.
  apply N.mod_mod. lia.
Qed.

(** ** prime_fmod *)
Lemma get_remainder_same f d : f < 2 ^ 64 -> d < 2 ^ 32 -> get_remainder_portable f d = get_remainder f d.
Proof.
  intros Hf Hd. unfold get_remainder_portable, get_remainder. cbv zeta.
  change 0xFFFFFFFF with (N.ones 32). rewrite N.land_ones.
  rewrite !N.shiftr_div_pow2. unfold u64w. rewrite p32 in *. set (B := 2 ^ 32) in *.
  assert (0 < B) as HB by reflexivity.
  pose proof (N.div_mod f B ltac:(lia)) as Ef. pose proof (N.mod_lt f B ltac:(lia)) as L1.
  assert (f / B < B) as L2 by (apply N.div_lt_upper_bound; lia).
  set (lo := f mod B) in *. set (hi := f / B) in *.
  assert (lo * d <= (B - 1) * (B - 1)) as b1 by nia. assert (hi * d <= (B - 1) * (B - 1)) as b2 by nia.
  rewrite (N.mod_small (lo * d)), (N.mod_small (hi * d)) by nia.
  assert (lo * d / B < B) as L3 by (apply N.div_lt_upper_bound; nia).
  rewrite (N.mod_small (hi * d + lo * d / B)) by nia.
  assert (f * d = (lo * d) + (hi * d) * B) as E by (rewrite Ef; ring).
  rewrite <- N.div_div by lia. rewrite E, N.div_add by lia. rewrite (N.add_comm (lo * d / B)).
  rewrite N.mod_small; [reflexivity|].
  apply N.div_lt_upper_bound; nia.
Qed.

(** Lemire's direct remainder: correct whenever M = ceil(2^64/d) *)
Lemma lemire a M d : 1 < d -> d < 2 ^ 32 -> a < 2 ^ 32 -> M * d < 2 ^ 64 + d -> 2 ^ 64 <= M * d ->
  fast_modulo get_remainder a M d = a mod d.
Proof.
  intros H1 Hd Ha HM1 HM2. unfold fast_modulo, get_remainder, u32w, u64w.
  rewrite N.shiftr_div_pow2.
  set (W := 2 ^ 64) in *.
  assert (0 < W) as HW by reflexivity.
  set (e := M * d - W). assert (M * d = W + e) as EM by (unfold e; lia). assert (e < d) as He by (unfold e; lia).
  pose proof (N.div_mod a d ltac:(lia)) as Ea. pose proof (N.mod_lt a d ltac:(lia)) as Lr.
  set (q := a / d) in *. set (r := a mod d) in *.
  assert (M * a = q * W + (q * e + M * r)) as E1.
  { rewrite Ea. replace (M * (d * q + r)) with (q * (M * d) + M * r) by ring. rewrite EM. ring. }
  assert (q * e + M * r < W) as Lf.
  { (* M r + q e < W: multiply by d *)
    assert (a * e < W) as K.
    { apply N.lt_le_trans with (2 ^ 32 * 2 ^ 32); [apply N.mul_lt_mono; [exact Ha|apply N.lt_trans with d; assumption]|]. apply N.leb_le. reflexivity. }
    assert (d * (q * e + M * r) < d * W) as D; [|apply N.mul_lt_mono_pos_l in D; [exact D|apply N.lt_trans with 1; [reflexivity|exact H1]]].
    replace (d * (q * e + M * r)) with (r * (M * d) + (d * q) * e) by ring. rewrite EM.
    replace (r * (W + e) + d * q * e) with (r * W + (d * q + r) * e) by ring. rewrite <- Ea.
    assert ((r + 1) * W <= d * W) as K2 by (apply N.mul_le_mono_r; clear -Lr; lia).
    rewrite N.mul_add_distr_r, N.mul_1_l in K2. clearbody W q r e. clear -K K2.
    set (rW := r * W) in *. set (dW := d * W) in *. set (ae := a * e) in *. lia. }
  assert (M * a = (q * e + M * r) + q * W) as E1' by lia.
  rewrite E1', N.mod_add, (N.mod_small (q * e + M * r)) by (lia || exact Lf).
  assert (((q * e + M * r) * d) / W = r) as ER.
  { symmetry. apply (N.div_unique _ _ _ (d * q * e + r * e)).
    - replace (d * q * e + r * e) with (a * e) by (rewrite Ea; ring).
      apply N.lt_le_trans with (2 ^ 32 * 2 ^ 32); [apply N.mul_lt_mono; [exact Ha|apply N.lt_trans with d; assumption]|]. apply N.leb_le. reflexivity.
    - replace ((q * e + M * r) * d) with (r * (M * d) + d * q * e) by ring. rewrite EM. ring. }
  rewrite ER. rewrite (N.mod_small r W) by (unfold W; lia). apply N.mod_small. lia.
Qed.

Lemma tables_ok :
  forallb (fun i => match nth_error inv_sizes32 i, nth_error sizes i with
     | Some M, Some d => (1 <? d) && (d <? 2 ^ 32) && (M * d <? 2 ^ 64 + d) && (2 ^ 64 <=? M * d)
     | _, _ => false end) (seq 0 29) = true.
Proof. vm_compute. reflexivity. Qed.

Lemma fca_position_ok rem : (forall f d, f < 2 ^ 64 -> d < 2 ^ 32 -> rem f d = get_remainder f d) ->
  forall hash i d, hash < 2 ^ 64 -> nth_error sizes i = Some d ->
  fca_position_with rem hash i =
    Some (if (i <? 29)%nat then ((hash mod 2 ^ 32 + hash / 2 ^ 32) mod 2 ^ 32) mod d else hash mod d).
Proof.
  intros Hrem hash i d Hh Hs. unfold fca_position_with.
  change (length inv_sizes32) with 29%nat.
  destruct (Nat.ltb_spec i 29) as [L|G].
  - pose proof tables_ok as T. rewrite forallb_forall in T. specialize (T i ltac:(apply in_seq; lia)).
    rewrite Hs in *. destruct (nth_error inv_sizes32 i) as [M|]; [|discriminate].
    repeat rewrite andb_true_iff in T. destruct T as (((T1 & T2) & T3) & T4).
    apply N.ltb_lt in T1, T2, T3. apply N.leb_le in T4.
    assert (u32w d = d) as -> by (apply N.mod_small; exact T2).
    assert (hash / 2 ^ 32 < 2 ^ 32) as Hd by (apply N.div_lt_upper_bound; [lia|exact Hh]).
    f_equal. unfold fast_modulo. rewrite Hrem.
    2:{ apply N.mod_lt. apply N.pow_nonzero. lia. }
    2:{ exact T2. }
    fold (fast_modulo get_remainder (u32w (u32w hash + u32w (N.shiftr hash 32))) M d).
    rewrite lemire; try assumption.
    2:{ apply N.mod_lt. apply N.pow_nonzero. lia. }
    unfold u32w. rewrite N.shiftr_div_pow2. rewrite (N.mod_small (hash / 2 ^ 32)) by exact Hd. reflexivity.
  - assert (nth_error (skipn 29 sizes) (i - 29) = Some d) as ->; [|reflexivity].
    rewrite <- Hs. replace i with (29 + (i - 29))%nat at 2 by lia.
    generalize (i - 29)%nat. intros k. rewrite <- (firstn_skipn 29 sizes) at 2.
    rewrite nth_error_app2; [f_equal; cbn [length firstn sizes]; lia|cbn [length firstn sizes]; lia].
Qed.

Lemma sizes_pos i d : nth_error sizes i = Some d -> 13 <= d.
Proof.
  intros H. apply nth_error_In in H.
  assert (forallb (fun d => 13 <=? d) sizes = true) as F by reflexivity.
  rewrite forallb_forall in F. specialize (F d H). lia.
Qed.

(** size_index finds the least size >= n when there is one *)
Lemma size_index_from_spec l : forall i n, l <> [] ->
  exists d, nth_error l (size_index_from l i n - i) = Some d /\ (i <= size_index_from l i n)%nat /\
    (n <= last l 0 -> n <= d) /\ (forall j e, (j < size_index_from l i n - i)%nat -> nth_error l j = Some e -> e < n).
Proof.
  induction l as [|s l IH]; intros i n Hl; [congruence|].
  destruct l as [|s' l].
  - cbn [size_index_from last]. rewrite Nat.sub_diag. exists s. repeat split; auto.
    intros j e Hj. lia.
  - change (size_index_from (s :: s' :: l) i n) with (if n <=? s then i else size_index_from (s' :: l) (S i) n).
    destruct (N.leb_spec n s) as [L|G].
    + rewrite Nat.sub_diag. exists s. repeat split; auto. intros j e Hj. lia.
    + destruct (IH (S i) n ltac:(discriminate)) as (d & E & Hi & Hle & Hlt).
      set (r := size_index_from (s' :: l) (S i) n) in *. exists d.
      replace (r - i)%nat with (S (r - S i)) by lia. split; [exact E|]. split; [lia|]. split; [exact Hle|].
      { intros [|j] e Hj Ej; cbn [nth_error] in Ej; [injection Ej as ->; lia|].
        apply (Hlt j e); [lia|exact Ej]. }
Qed.
