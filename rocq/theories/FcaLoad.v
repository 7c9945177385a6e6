(** Load factor arithmetic of the closed-addressing containers: how far single-precision rounding can push the load above max_load_factor. *)
From Coq Require Import NArith ZArith Bool List Arith Lia.
From Verif Require Import FloatModel FloatProofs HashArithModel HashArithProofs FoaModel FcaModel FcaRehash.
Local Open Scope Z_scope.

(** relative error of a rounding whose result is not subnormal *)
Lemma fround_rel p b num den : 1 <= p -> 0 <= num -> 0 < den -> 0 <= b -> 2 ^ (p - 1) * den <= num * 2 ^ b ->
  num * 2 ^ b * (2 ^ p - 1) <= fround p b num den * den * 2 ^ p <= num * 2 ^ b * (2 ^ p + 1).
Proof.
  intros Hp Hn Hd Hb Hx. unfold fround. set (X := num * 2 ^ b) in *. 
  assert (0 < 2 ^ (p - 1)) as P0 by (apply Z.pow_pos_nonneg; lia).
  assert (2 ^ p = 2 * 2 ^ (p - 1)) as P2 by (rewrite <- Z.pow_succ_r by lia; f_equal; lia).
  assert (2 ^ (p - 1) <= X / den) as Q by (apply Z.div_le_lower_bound; [lia|]; rewrite Z.mul_comm; exact Hx).
  assert (p - 1 <= Z.log2 (X / den)) as L by (apply Z.log2_le_pow2; [lia|exact Q]).
  rewrite Z.max_r by lia. set (s := Z.log2 (X / den) - (p - 1)) in *. assert (0 <= s) as S0 by lia. assert (0 < 2 ^ s) as PS by (apply Z.pow_pos_nonneg; lia).
  assert (2 ^ s * 2 ^ (p - 1) <= X / den) as SQ. { rewrite <- Z.pow_add_r by lia. replace (s + (p - 1)) with (Z.log2 (X / den)) by lia. apply Z.log2_spec. lia. }
  assert (den * 2 ^ s * 2 ^ (p - 1) <= X) as SX. { rewrite <- Z.mul_assoc. apply (Z.le_trans _ (den * (X / den))); [apply Z.mul_le_mono_nonneg_l; lia|]. apply Z.mul_div_le. lia. }
  set (D := den * 2 ^ s) in *. assert (0 < D) as PD by (apply Z.mul_pos_pos; assumption). pose proof (rne_bounds X D PD) as RB. set (r := rne X D) in *.
  replace (r * 2 ^ s * den * 2 ^ p) with (r * D * 2 ^ p) by (unfold D; ring). rewrite P2. set (w := 2 ^ (p - 1)) in *. nia.
Qed.

(** the load does not exceed max_load_factor by more than a relative 2^-23: n*(1 - 2^-23) <= mlf * bc *)
Definition Near (n bc : N) (mlf : option Z) : Prop :=
  match mlf with None => True | Some m => Z.of_N n * (2 ^ 23 - 1) * 2 ^ 149 <= 2 ^ 23 * m * Z.of_N bc end.

Lemma f64_int_exact n : 0 <= n < 2 ^ 53 -> f64_of_int n = n * 2 ^ 1074.
Proof. intros H. apply fround_exact_int; [lia|lia|exact H]. Qed.
Lemma near_ml n bc m : (n < 2 ^ 64)%N -> (0 < bc < 2 ^ 53)%N -> min_mlf <= m -> (n <= max_load_for (Some m) bc)%N -> Near n bc (Some m).
Proof.
  intros Ln Lb Lm H. unfold Near, max_load_for in *. destruct (N.eqb_spec bc 0) as [E|_]; [lia|]. rewrite f64_int_exact in H by lia.
  set (F := f64_mul (f64_of_f32 m) (Z.of_N bc * 2 ^ 1074)) in *. unfold f64_mul, f64_of_f32 in F.
  assert (116 <= Z.log2 min_mlf) as _ by (vm_compute; discriminate). assert (2 ^ 116 <= m) as Lm2 by (apply (Z.le_trans _ min_mlf); [vm_compute; discriminate|exact Lm]).
  assert (0 < 2 ^ 116) as P116 by reflexivity. assert (0 < 2 ^ 1074) as P1074 by reflexivity.
  assert (Z.of_N n * 2 ^ 1074 <= F) as G.
  { unfold to_size in H. destruct (Z.leb_spec (2 ^ (64 + 1074)) F) as [S|S].
    - apply (Z.le_trans _ (2 ^ (64 + 1074))); [|exact S]. rewrite Z.pow_add_r by lia. apply Z.mul_le_mono_nonneg_r; [lia|]. lia.
    - assert (0 <= F) as F0 by (apply fround_nonneg; [|reflexivity|lia]; apply Z.mul_nonneg_nonneg; apply Z.mul_nonneg_nonneg; lia).
      assert (Z.of_N n <= F / 2 ^ 1074) as Q. { apply N2Z.inj_le in H. rewrite Z2N.id in H by (apply Z.div_pos; lia). exact H. }
      pose proof (Z.mul_div_le F (2 ^ 1074) P1074). nia. }
  assert (2 ^ (1074 - 149) = 2 ^ 925) as E1 by reflexivity.
  destruct (fround_rel 53 1074 (m * 2 ^ (1074 - 149) * (Z.of_N bc * 2 ^ 1074)) (2 ^ 1074 * 2 ^ 1074)) as [_ U]; [lia| |reflexivity|lia| |].
  - apply Z.mul_nonneg_nonneg; apply Z.mul_nonneg_nonneg; lia.
  - replace (m * 2 ^ (1074 - 149) * (Z.of_N bc * 2 ^ 1074) * 2 ^ 1074) with ((m * 2 ^ (1074 - 149)) * Z.of_N bc * (2 ^ 1074 * 2 ^ 1074)) by ring. apply Z.mul_le_mono_nonneg_r; [vm_compute; discriminate|].
    apply (Z.le_trans _ (2 ^ 116 * 2 ^ (1074 - 149) * 1)); [vm_compute; discriminate|]. apply Z.mul_le_mono_nonneg; [vm_compute; discriminate| |lia|lia]. apply Z.mul_le_mono_nonneg_r; [vm_compute; discriminate|exact Lm2].
  - fold F in U. set (c := 2 ^ 1074) in *. rewrite E1 in U. assert (c = 2 ^ 925 * 2 ^ 149) as Ec by reflexivity. assert (0 < 2 ^ 925) as P925 by reflexivity. assert (0 < 2 ^ 149) as P149 by reflexivity.
    set (d := 2 ^ 925) in *. set (e := 2 ^ 149) in *. clearbody F c d e.
    assert (Z.of_N n * e * 2 ^ 53 * (d * (c * c)) <= m * Z.of_N bc * (2 ^ 53 + 1) * (d * (c * c))) as V.
    { replace (Z.of_N n * e * 2 ^ 53 * (d * (c * c))) with ((Z.of_N n * c) * (c * c) * 2 ^ 53) by (rewrite Ec; ring).
      apply (Z.le_trans _ (F * (c * c) * 2 ^ 53)); [|replace (m * Z.of_N bc * (2 ^ 53 + 1) * (d * (c * c))) with (m * d * (Z.of_N bc * c) * c * (2 ^ 53 + 1)) by ring; exact U].
      apply Z.mul_le_mono_nonneg_r; [lia|]. apply Z.mul_le_mono_nonneg_r; [apply Z.mul_nonneg_nonneg; lia|exact G]. }
    assert (0 < d * (c * c)) as PD by (repeat apply Z.mul_pos_pos; assumption). apply (Z.mul_le_mono_pos_r _ _ _ PD) in V.
    assert (0 <= m * Z.of_N bc) as MB by (apply Z.mul_nonneg_nonneg; lia). clear - V MB.
    set (a := m * Z.of_N bc) in *. replace (2 ^ 23 * m * Z.of_N bc) with (2 ^ 23 * a) by (unfold a; ring). set (g := Z.of_N n * e) in *. replace (Z.of_N n * (2 ^ 23 - 1) * e) with (g * (2 ^ 23 - 1)) by (unfold g; ring). clearbody a g. 
    change (2 ^ 53) with 9007199254740992 in *. change (2 ^ 23) with 8388608. lia.
Qed.
Lemma f32_int_rel n : 1 <= n -> n * 2 ^ 149 * (2 ^ 24 - 1) <= f32_of_int n * 2 ^ 24.
Proof.
  intros H. destruct (fround_rel 24 149 n 1) as [L _]; [lia|lia|lia|lia| |].
  - rewrite Z.mul_1_r. apply (Z.le_trans _ (1 * 2 ^ 149)); [vm_compute; discriminate|]. apply Z.mul_le_mono_nonneg_r; [vm_compute; discriminate|exact H].
  - unfold f32_of_int. rewrite Z.mul_1_r in L. exact L.
Qed.
Lemma ceil_ge q : q <= f32_ceil q * 2 ^ 149.
Proof. unfold f32_ceil. assert (0 < 2 ^ 149) as P by reflexivity. set (e := 2 ^ 149) in *. clearbody e. pose proof (Z.mul_div_le (- q) e P). nia. Qed.
Lemma near_mb n bc m : (0 < n)%N -> (0 < bc < 2 ^ 53)%N -> min_mlf <= m -> (min_buckets n (Some m) <= bc)%N -> Near n bc (Some m).
Proof.
  intros Ln Lb Lm H. unfold Near. assert (0 < m) as Pm by (apply (Z.lt_le_trans _ min_mlf); [reflexivity|exact Lm]).
  destruct (Z.le_gt_cases (Z.of_N n * 2 ^ 149) (m * Z.of_N bc)) as [T|T].
  { assert (0 < 2 ^ 149) as P by reflexivity. set (e := 2 ^ 149) in *. clearbody e. change (2 ^ 23) with 8388608. nia. }
  unfold min_buckets, ceil_div in H. set (A := f32_of_int (Z.of_N n)) in *. set (q := f32_div A m) in *.
  pose proof (f32_int_rel (Z.of_N n) ltac:(lia)) as RA. fold A in RA.
  assert (q <= Z.of_N bc * 2 ^ 149) as Q.
  { destruct (f32_inf q) eqn:I.
    - exfalso. unfold size_max in H. cbn [N.eqb andb] in H. destruct (N.eqb_spec (2 ^ 64 - 1) 0); [lia|]. cbn [andb] in H. lia.
    - pose proof (ceil_ge q) as CG. apply (Z.le_trans _ _ _ CG). apply Z.mul_le_mono_nonneg_r; [vm_compute; discriminate|].
      unfold to_size in H. destruct (Z.leb_spec (2 ^ (64 + 0)) (f32_ceil q)) as [S|S].
      + exfalso. unfold size_max in H. destruct (N.eqb_spec (2 ^ 64 - 1) 0); [lia|]. cbn [andb] in H. lia.
      + rewrite Z.div_1_r in H. destruct (N.eqb_spec (Z.to_N (f32_ceil q)) 0) as [Z0|Z0]; cbn [andb] in H; lia. }
  assert (0 <= A) as A0 by (apply f32_of_int_nonneg; lia).
  destruct (fround_rel 24 149 A m) as [L _]; [lia|exact A0|exact Pm|lia| |].
  - assert (0 < 2 ^ 149) as P by reflexivity. assert (2 ^ 24 <= 2 ^ 149) as P2 by (vm_compute; discriminate). assert (m <= Z.of_N n * 2 ^ 149) as M2 by nia. change (2 ^ (24 - 1)) with 8388608. change (2 ^ 24) with 16777216 in *.
    set (e := 2 ^ 149) in *. clearbody e A. clear - RA P P2 M2 A0. assert (Z.of_N n * e <= 2 * A) as X by nia. assert (16777216 * A <= e * A) by (apply Z.mul_le_mono_nonneg_r; lia). nia.
  - fold (f32_div A m) in L. fold q in L. assert (0 < 2 ^ 149) as P by reflexivity. set (e := 2 ^ 149) in *. clearbody e q A. change (2 ^ 24) with 16777216 in *. change (2 ^ 23) with 8388608.
    clear - L RA Q P Pm A0. set (nn := Z.of_N n) in *. set (bb := Z.of_N bc) in *. clearbody nn bb.
    assert (A * e * 16777215 <= bb * e * m * 16777216) as X. { apply (Z.le_trans _ _ _ L). apply Z.mul_le_mono_nonneg_r; [lia|]. apply Z.mul_le_mono_nonneg_r; [lia|exact Q]. }
    assert (A * 16777215 <= bb * m * 16777216) as Y by nia.
    lia.
Qed.
