(** Facts on the float model: rounding is monotone, exact on representable
    values, off by less than one unit in the last place. *)
From Coq Require Import ZArith Lia.
From Verif Require Import FloatModel.
Local Open Scope Z_scope.

Lemma rne_bounds num den : 0 < den ->
  2 * den * rne num den - den <= 2 * num <= 2 * den * rne num den + den.
Proof.
  intros Hd. unfold rne.
  pose proof (Z.div_mod num den ltac:(lia)) as E.
  pose proof (Z.mod_pos_bound num den Hd) as B.
  destruct (Z.ltb_spec (2 * (num mod den)) den);
  [|destruct (Z.ltb_spec den (2 * (num mod den)));
    [|destruct (Z.even (num / den))]]; nia.
Qed.

Lemma rne_floor num den : 0 < den -> num / den <= rne num den <= num / den + 1.
Proof.
  intros Hd. unfold rne.
  destruct (_ <? _); [lia|]. destruct (_ <? _); [lia|]. destruct (Z.even _); lia.
Qed.

Lemma rne_exact k den : 0 < den -> rne (k * den) den = k.
Proof.
  intros Hd. unfold rne. rewrite Z.div_mul, Z.mod_mul by lia.
  destruct (Z.ltb_spec (2 * 0) den); lia.
Qed.

(** monotone in the rational argument *)
Lemma rne_mono n1 d1 n2 d2 : 0 < d1 -> 0 < d2 ->
  n1 * d2 <= n2 * d1 -> rne n1 d1 <= rne n2 d2.
Proof.
  intros H1 H2 H.
  pose proof (Z.div_mod n1 d1 ltac:(lia)) as E1.
  pose proof (Z.mod_pos_bound n1 d1 H1) as B1.
  pose proof (Z.div_mod n2 d2 ltac:(lia)) as E2.
  pose proof (Z.mod_pos_bound n2 d2 H2) as B2.
  assert (n1 / d1 <= n2 / d2) as Hq.
  { apply Z.div_le_lower_bound; [lia|].
    assert (d1 * (d2 * (n1 / d1)) <= d1 * n2) by nia. nia. }
  destruct (Z.eq_dec (n1 / d1) (n2 / d2)) as [Eq|Ne].
  - unfold rne. rewrite Eq in *.
    assert ((n1 mod d1) * d2 <= (n2 mod d2) * d1) as Hr by nia.
    destruct (Z.ltb_spec (2 * (n1 mod d1)) d1).
    { destruct (_ <? _); [lia|]. destruct (_ <? _); [lia|]. destruct (Z.even _); lia. }
    destruct (Z.ltb_spec (2 * (n2 mod d2)) d2); [nia|].
    destruct (Z.ltb_spec d1 (2 * (n1 mod d1))).
    { destruct (Z.ltb_spec d2 (2 * (n2 mod d2))); [lia|nia]. }
    destruct (Z.ltb_spec d2 (2 * (n2 mod d2))).
    { destruct (Z.even _); lia. }
    destruct (Z.even _); lia.
  - pose proof (rne_floor n1 d1 H1). pose proof (rne_floor n2 d2 H2). lia.
Qed.

Lemma rne_le_int num den k : 0 < den -> num <= k * den -> rne num den <= k.
Proof.
  intros Hd H. rewrite <- (rne_exact k 1) by lia. apply rne_mono; lia.
Qed.
Lemma rne_ge_int num den k : 0 < den -> k * den <= num -> k <= rne num den.
Proof.
  intros Hd H. rewrite <- (rne_exact k 1) by lia. apply rne_mono; lia.
Qed.

Section Round.
Variables p b : Z.
Hypothesis Hp : 1 < p.
Hypothesis Hb : 0 <= b.

Let sh num den := Z.max 0 (Z.log2 (num * 2 ^ b / den) - (p - 1)).

Lemma sh_nonneg num den : 0 <= sh num den.
Proof. unfold sh; lia. Qed.

Lemma quot_mono n1 d1 n2 d2 : 0 <= n1 -> 0 < d1 -> 0 < d2 -> n1 * d2 <= n2 * d1 ->
  n1 * 2 ^ b / d1 <= n2 * 2 ^ b / d2.
Proof.
  intros H0 H1 H2 H.
  pose proof (Z.pow_pos_nonneg 2 b ltac:(lia) Hb) as Pb.
  apply Z.div_le_lower_bound; [lia|].
  pose proof (Z.mul_div_le (n1 * 2 ^ b) d1 H1) as L.
  set (q := n1 * 2 ^ b / d1) in *.
  assert (d1 * (d2 * q) <= d1 * (n2 * 2 ^ b)) as K.
  { apply Z.le_trans with (d2 * (n1 * 2 ^ b)); [nia|].
    replace (d2 * (n1 * 2 ^ b)) with ((n1 * d2) * 2 ^ b) by ring.
    replace (d1 * (n2 * 2 ^ b)) with ((n2 * d1) * 2 ^ b) by ring.
    apply Z.mul_le_mono_nonneg_r; lia. }
  nia.
Qed.

Lemma fround_mono n1 d1 n2 d2 : 0 <= n1 -> 0 < d1 -> 0 < d2 ->
  n1 * d2 <= n2 * d1 -> fround p b n1 d1 <= fround p b n2 d2.
Proof.
  intros H0 H1 H2 H. unfold fround. cbv zeta.
  fold (sh n1 d1). fold (sh n2 d2).
  pose proof (quot_mono n1 d1 n2 d2 H0 H1 H2 H) as Q.
  pose proof (Z.pow_pos_nonneg 2 b ltac:(lia) Hb) as Pb.
  assert (sh n1 d1 <= sh n2 d2) as S.
  { unfold sh. pose proof (Z.log2_le_mono _ _ Q). lia. }
  pose proof (sh_nonneg n1 d1) as S1. pose proof (sh_nonneg n2 d2) as S2.
  assert (0 < 2 ^ sh n1 d1) as P1 by (apply Z.pow_pos_nonneg; lia).
  assert (0 < 2 ^ sh n2 d2) as P2 by (apply Z.pow_pos_nonneg; lia).
  destruct (Z.eq_dec (sh n1 d1) (sh n2 d2)) as [E|Ne].
  - rewrite E. apply Z.mul_le_mono_nonneg_r; [lia|]. rewrite E in P1.
    apply rne_mono; try nia.
    replace (n1 * 2 ^ b * (d2 * 2 ^ sh n2 d2)) with ((n1 * d2) * (2 ^ b * 2 ^ sh n2 d2)) by ring.
    replace (n2 * 2 ^ b * (d1 * 2 ^ sh n2 d2)) with ((n2 * d1) * (2 ^ b * 2 ^ sh n2 d2)) by ring.
    apply Z.mul_le_mono_nonneg_r; [nia|lia].
  - assert (sh n1 d1 < sh n2 d2) as L by lia.
    apply Z.le_trans with (2 ^ (p + sh n1 d1)).
    + rewrite Z.pow_add_r by lia. apply Z.mul_le_mono_nonneg_r; [lia|].
      apply rne_le_int; [nia|].
      replace (2 ^ p * (d1 * 2 ^ sh n1 d1)) with (d1 * 2 ^ (p + sh n1 d1))
        by (rewrite Z.pow_add_r by lia; ring).
      assert (n1 * 2 ^ b / d1 < 2 ^ (p + sh n1 d1)) as U.
      { destruct (Z.le_gt_cases (n1 * 2 ^ b / d1) 0).
        - assert (0 < 2 ^ (p + sh n1 d1)) by (apply Z.pow_pos_nonneg; lia). lia.
        - apply Z.log2_lt_pow2; [lia|]. unfold sh. lia. }
      pose proof (Z.mul_succ_div_gt (n1 * 2 ^ b) d1 H1). nia.
    + apply Z.le_trans with (2 ^ (p - 1 + sh n2 d2)).
      { apply Z.pow_le_mono_r; lia. }
      rewrite Z.pow_add_r by lia. apply Z.mul_le_mono_nonneg_r; [lia|].
      apply rne_ge_int; [nia|].
      replace (2 ^ (p - 1) * (d2 * 2 ^ sh n2 d2)) with (d2 * 2 ^ (p - 1 + sh n2 d2))
        by (rewrite Z.pow_add_r by lia; ring).
      assert (2 ^ (p - 1 + sh n2 d2) <= n2 * 2 ^ b / d2) as U.
      { assert (0 < n2 * 2 ^ b / d2).
        { destruct (Z.le_gt_cases (n2 * 2 ^ b / d2) 0) as [Z0|]; [|lia].
          pose proof (Z.log2_nonpos _ Z0). unfold sh in L. lia. }
        apply Z.log2_le_pow2; [lia|]. unfold sh in *. lia. }
      pose proof (Z.mul_div_le (n2 * 2 ^ b) d2 H2). nia.
Qed.

(** a value with at most p significant bits is represented exactly *)
Lemma fround_exact_int n : 0 <= n < 2 ^ p -> fround p b n 1 = n * 2 ^ b.
Proof.
  intros Hn. unfold fround. cbv zeta. fold (sh n 1).
  pose proof (Z.pow_pos_nonneg 2 b ltac:(lia) Hb) as Pb.
  pose proof (sh_nonneg n 1) as S.
  assert (0 < 2 ^ sh n 1) as P1 by (apply Z.pow_pos_nonneg; lia).
  assert (sh n 1 <= b) as Hs.
  { unfold sh. rewrite Z.div_1_r.
    destruct (Z.eq_dec n 0) as [->|N0].
    { rewrite Z.mul_0_l. change (Z.log2 0) with 0. lia. }
    assert (Z.log2 (n * 2 ^ b) < p + b).
    { apply Z.log2_lt_pow2; [nia|]. rewrite Z.pow_add_r by lia. nia. }
    lia. }
  replace (n * 2 ^ b) with ((n * 2 ^ (b - sh n 1)) * (1 * 2 ^ sh n 1)) at 1.
  - rewrite rne_exact by nia.
    replace b with ((b - sh n 1) + sh n 1) at 2 by lia.
    rewrite Z.pow_add_r by lia. ring.
  - replace b with ((b - sh n 1) + sh n 1) at 2 by lia.
    rewrite (Z.pow_add_r 2 (b - sh n 1)) by lia. ring.
Qed.
End Round.

Lemma f32_ceil_mono x y : x <= y -> f32_ceil x <= f32_ceil y.
Proof.
  intros H. unfold f32_ceil.
  assert (- y / 2 ^ 149 <= - x / 2 ^ 149) by (apply Z.div_le_mono; [reflexivity|lia]). lia.
Qed.
Lemma f32_trunc_mono x y : x <= y -> f32_trunc x <= f32_trunc y.
Proof. intros H. unfold f32_trunc. apply Z.div_le_mono; [reflexivity|lia]. Qed.

Lemma fround_nonneg p b n d : 0 <= n -> 0 < d -> 0 <= b -> 0 <= fround p b n d.
Proof.
  intros. unfold fround. cbv zeta.
  assert (0 < 2 ^ b) by (apply Z.pow_pos_nonneg; lia).
  set (s := Z.max _ _).
  assert (0 < 2 ^ s) by (apply Z.pow_pos_nonneg; lia).
  apply Z.mul_nonneg_nonneg; [|lia].
  apply rne_ge_int; nia.
Qed.

Lemma f32_of_int_mono a b : 0 <= a -> a <= b -> f32_of_int a <= f32_of_int b.
Proof. intros. apply fround_mono; lia. Qed.
Lemma f32_div_mono_l x y d : 0 <= x -> 0 < d -> x <= y -> f32_div x d <= f32_div y d.
Proof. intros. apply fround_mono; nia. Qed.
Lemma f32_of_int_nonneg a : 0 <= a -> 0 <= f32_of_int a.
Proof. intros. apply fround_nonneg; lia. Qed.
