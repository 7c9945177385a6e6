From Coq Require Import ZArith NArith Bool List Lia ZifyBool ZifyNat ZifyN Permutation.
From Verif Require Import FloatModel FloatProofs SizeModel.
Import ListNotations.
Local Open Scope N_scope.

Lemma pow2_pos k : 0 < 2 ^ k.
Proof. apply N.neq_0_lt_0, N.pow_nonzero; lia. Qed.

Lemma size_index_pow n : 0 < n -> n <= 2 ^ 63 ->
  exists k, 1 <= k <= 63 /\ size_index n = 64 - k /\ size_of (size_index n) = 2 ^ k /\ n <= 2 ^ k
       /\ (2 < n -> 2 ^ k < 2 * n).
Proof.
  intros H0 H63. unfold size_index, size_of.
  destruct (N.leb_spec n 2) as [L|L].
  - exists 1. replace (64 - (64 - 1)) with 1 by lia. change (2 ^ 1) with 2. lia.
  - rewrite N.size_log2 by lia. set (l := N.log2 (n - 1)).
    destruct (N.log2_spec (n - 1) ltac:(lia)) as [Lo Hi]. fold l in Lo, Hi.
    assert (l < 63) as Hl.
    { apply (N.pow_lt_mono_r_iff 2); lia. }
    assert (1 <= l). { destruct (N.eq_dec l 0) as [E|]; [|lia]. rewrite E in Hi. simpl in Hi. lia. }
    exists (N.succ l). replace (64 - (64 - N.succ l)) with (N.succ l) by lia.
    rewrite N.pow_succ_r' in *. lia.
Qed.

Lemma groups_for_pow n : n < 2 ^ 64 ->
  exists k, 1 <= k <= 61 /\ size_index_for n = 64 - k /\ groups_for n = 2 ^ k /\ n < 15 * 2 ^ k
       /\ (30 <= n -> 15 * 2 ^ k <= 2 * n).
Proof.
  intros H. unfold groups_for, size_index_for.
  assert (n / GN <= n / 15) as Hd by (unfold GN; lia).
  assert (15 * (n / 15) <= n) by (apply N.mul_div_le; lia).
  assert (n < 15 * (n / 15 + 1)) by (rewrite N.add_1_r; apply N.mul_succ_div_gt; lia).
  unfold GN in *.
  destruct (size_index_pow (n / 15 + 1) ltac:(lia)) as (k & Hk & E & Es & Hle & Hup).
  { change (2 ^ 63) with 9223372036854775808. change (2^64) with 18446744073709551616 in H. lia. }
  exists k. rewrite E in *.
  assert (k <= 61).
  { destruct (N.le_gt_cases (n / 15 + 1) 2).
    - assert (2 ^ k = 2 ^ 1) as E1; [|apply N.pow_inj_r in E1; lia].
      unfold size_index in E. destruct (N.leb_spec (n / 15 + 1) 2); [|lia].
      assert (k = 1) by lia. subst. reflexivity.
    - specialize (Hup ltac:(lia)).
      assert (2 ^ k < 2 ^ 62).
      { change (2 ^ 62) with 4611686018427387904. change (2^64) with 18446744073709551616 in H. lia. }
      apply N.pow_lt_mono_r_iff in H3; lia. }
  repeat split; try lia.
  intros H30. specialize (Hup ltac:(lia)).
  assert (k <> 0) by lia.
  assert (exists j, 2 ^ k = 2 * j) as [j Ej].
  { exists (2 ^ (k - 1)). rewrite <- N.pow_succ_r'. f_equal. lia. }
  lia.
Qed.

(** The position is a valid group index. *)
Lemma position_lt h k : h < 2 ^ 64 -> k <= 64 -> position h (64 - k) < 2 ^ k.
Proof.
  intros Hh Hk. unfold position. rewrite N.shiftr_div_pow2.
  apply N.div_lt_upper_bound; [apply N.pow_nonzero; lia|].
  rewrite <- N.pow_add_r. replace (64 - k + k) with 64 by lia. exact Hh.
Qed.

Lemma ceil_div_mlf_mono a b : a <= b -> ceil_div_mlf a <= ceil_div_mlf b.
Proof.
  intros H. unfold ceil_div_mlf.
  assert (f32_ceil (f32_div (f32_of_int (Z.of_N a)) mlf32)
          <= f32_ceil (f32_div (f32_of_int (Z.of_N b)) mlf32))%Z; [|lia].
  apply f32_ceil_mono, f32_div_mono_l; [apply f32_of_int_nonneg; lia|reflexivity|].
  apply f32_of_int_mono; lia.
Qed.

Definition ks : list N := map N.of_nat (seq 1 60).
Lemma in_ks k : 1 <= k <= 60 -> In k ks.
Proof.
  intros H. unfold ks. apply in_map_iff. exists (N.to_nat k). split; [lia|].
  apply in_seq. lia.
Qed.

(** The finite part of the float argument: for every one of the 60 possible group counts,
    one more element than the max load needs strictly more slots than the capacity. *)
Lemma ml_table_check :
  forallb (fun k => (15 * 2 ^ k <=? ceil_div_mlf (initial_max_load (15 * 2 ^ k - 1) + 1))
                    && (initial_max_load (15 * 2 ^ k - 1) <=? 15 * 2 ^ k - 1)
                    && (0 <? initial_max_load (15 * 2 ^ k - 1))) ks = true.
Proof. vm_compute. reflexivity. Qed.

Lemma ml_table k : 1 <= k <= 60 ->
  15 * 2 ^ k <= ceil_div_mlf (initial_max_load (15 * 2 ^ k - 1) + 1) /\
  0 < initial_max_load (15 * 2 ^ k - 1) <= 15 * 2 ^ k - 1.
Proof.
  intros H. pose proof ml_table_check as C. rewrite forallb_forall in C.
  specialize (C k (in_ks k H)). lia.
Qed.

Lemma reserve_enough n k : 1 <= k <= 60 -> ceil_div_mlf n < 15 * 2 ^ k ->
  n <= initial_max_load (15 * 2 ^ k - 1).
Proof.
  intros Hk H. destruct (ml_table k Hk) as [A _].
  destruct (N.le_gt_cases n (initial_max_load (15 * 2 ^ k - 1))) as [|G]; [assumption|].
  pose proof (ceil_div_mlf_mono (initial_max_load (15 * 2 ^ k - 1) + 1) n ltac:(lia)). lia.
Qed.

Lemma groups_for_max_load n g : ceil_div_mlf n < 2 ^ 64 ->
  g = groups_for (ceil_div_mlf n) -> g <= 2 ^ 60 -> n <= initial_max_load (g * GN - 1).
Proof.
  intros H64 -> Hg. destruct (groups_for_pow _ H64) as (k & Hk & _ & E & L & _).
  rewrite E in *. unfold GN. rewrite (N.mul_comm (2 ^ k)).
  apply reserve_enough; [|exact L].
  split; [lia|]. apply N.pow_le_mono_r_iff in Hg; lia.
Qed.

(** ** The quadratic prober *)
Fixpoint tri (n : nat) : N := match n with O => 0 | S m => N.of_nat (S m) + tri m end.

Lemma tri_eq n : 2 * tri n = N.of_nat n * (N.of_nat n + 1).
Proof. induction n as [|n IH]; [reflexivity|]. cbn [tri]. nia. Qed.

(** group visited at the i-th probe *)
Definition probe_pos (k pos0 : N) (i : nat) : N := (pos0 + tri i) mod 2 ^ k.

Lemma pow2_coprime_odd a b k : N.odd a = true -> (2 ^ k | a * b) -> (2 ^ k | b).
Proof.
  intros Ho H. apply (N.gauss _ a); [exact H|].
  assert (N.gcd (2 ^ k) a = 1); [|assumption].
  clear H. induction k as [|k IH] using N.peano_ind; [apply N.gcd_1_l|].
  rewrite N.pow_succ_r'.
  assert (N.gcd 2 a = 1) as G2.
  { apply N.odd_spec in Ho as [m ->].
    rewrite N.add_comm. rewrite (N.mul_comm 2 m). rewrite N.gcd_add_mult_diag_r. apply N.gcd_1_r. }
  apply N.divide_1_r.
  assert (N.gcd (N.gcd (2 * 2^k) a) 2 = 1) as C.
  { apply N.divide_1_r. rewrite <- G2. apply N.gcd_greatest.
    - apply N.gcd_divide_r.
    - transitivity (N.gcd (2 * 2 ^ k) a); [apply N.gcd_divide_l|apply N.gcd_divide_r]. }
  assert ((N.gcd (2 * 2 ^ k) a | 2 ^ k)) as D.
  { apply (N.gauss _ 2); [apply N.gcd_divide_l|exact C]. }
  rewrite <- IH. apply N.gcd_greatest; [exact D|apply N.gcd_divide_r].
Qed.

Lemma tri_inj k i j : N.of_nat i < 2 ^ k -> N.of_nat j < 2 ^ k ->
  tri i mod 2 ^ k = tri j mod 2 ^ k -> i = j.
Proof.
  intros Hi Hj H.
  assert (forall i j, (i < j)%nat -> N.of_nat j < 2 ^ k -> tri i mod 2 ^ k = tri j mod 2 ^ k -> False) as W.
  { clear. intros i j L Hj H.
    pose proof (pow2_pos k) as P.
    pose proof (tri_eq i) as Ti. pose proof (tri_eq j) as Tj.
    assert (tri i <= tri j) as Le by nia.
    assert ((2 ^ k | tri j - tri i)) as D.
    { exists (tri j / 2 ^ k - tri i / 2 ^ k).
      pose proof (N.div_mod (tri j) (2 ^ k) ltac:(lia)).
      pose proof (N.div_mod (tri i) (2 ^ k) ltac:(lia)).
      rewrite N.mul_sub_distr_r. nia. }
    set (d := N.of_nat j - N.of_nat i). set (s := N.of_nat j + N.of_nat i + 1).
    assert (2 * (tri j - tri i) = d * s) as E.
    { unfold d, s. nia. }
    assert ((2 ^ (k + 1) | d * s)) as D2.
    { rewrite <- E, N.add_1_r, N.pow_succ_r'. apply N.mul_divide_mono_l, D. }
    destruct (N.odd d) eqn:Od.
    - apply pow2_coprime_odd in D2; [|exact Od].
      apply N.divide_pos_le in D2; [|unfold s; lia].
      rewrite N.add_1_r, N.pow_succ_r' in D2. unfold s in D2. lia.
    - assert (N.odd s = true) as Os.
      { unfold s, d in *. replace (N.of_nat j + N.of_nat i + 1) with ((N.of_nat j - N.of_nat i) + (2 * N.of_nat i + 1)) by lia.
        rewrite N.odd_add, Od.
        replace (2 * N.of_nat i + 1) with (1 + 2 * N.of_nat i) by lia.
        rewrite N.odd_add_mul_2. reflexivity. }
      rewrite N.mul_comm in D2. apply pow2_coprime_odd in D2; [|exact Os].
      apply N.divide_pos_le in D2; [|unfold d; lia].
      rewrite N.add_1_r, N.pow_succ_r' in D2. unfold d in D2. lia. }
  destruct (Nat.lt_trichotomy i j) as [L|[E|L]]; [exfalso; eauto|exact E|exfalso; eapply W; eauto].
Qed.

Lemma probe_pos_inj k p i j : N.of_nat i < 2 ^ k -> N.of_nat j < 2 ^ k ->
  probe_pos k p i = probe_pos k p j -> i = j.
Proof.
  intros Hi Hj H. apply (tri_inj k); try assumption.
  unfold probe_pos in H. pose proof (pow2_pos k) as P.
  assert (forall a, (p mod 2^k + a mod 2^k) mod 2^k = (p + a) mod 2^k) as A
    by (intros; symmetry; apply N.add_mod; lia).
  rewrite <- !A in H.
  pose proof (N.mod_lt p (2^k) ltac:(lia)). pose proof (N.mod_lt (tri i) (2^k) ltac:(lia)).
  pose proof (N.mod_lt (tri j) (2^k) ltac:(lia)).
  set (a := p mod 2^k) in *. set (x := tri i mod 2^k) in *. set (y := tri j mod 2^k) in *.
  set (m := 2^k) in *.
  assert (forall z, z < m -> (a + z) mod m = if a + z <? m then a + z else a + z - m) as M.
  { intros z Hz. destruct (N.ltb_spec (a + z) m).
    - apply N.mod_small; lia.
    - replace (a + z) with ((a + z - m) + 1 * m) at 1 by lia.
      rewrite N.mod_add by lia. apply N.mod_small; lia. }
  rewrite (M x), (M y) in H by assumption.
  destruct (N.ltb_spec (a + x) m), (N.ltb_spec (a + y) m); lia.
Qed.

Lemma probe_pos_lt k p i : probe_pos k p i < 2 ^ k.
Proof. apply N.mod_lt. pose proof (pow2_pos k); lia. Qed.

Lemma NoDup_map_in {A B} (f : A -> B) (l : list A) :
  (forall x y, In x l -> In y l -> f x = f y -> x = y) -> NoDup l -> NoDup (map f l).
Proof.
  induction l as [|a l IH]; intros Hf Hl; cbn; [constructor|].
  inversion Hl as [|? ? Hn Hl']; subst. constructor.
  - intros C. apply in_map_iff in C as (y & E & Hy).
    apply Hn. rewrite <- (Hf y a); [exact Hy|now right|now left|exact E].
  - apply IH; [|exact Hl']. intros x y Hx Hy. apply Hf; now right.
Qed.

(** The first 2^k probes are a permutation of all the groups. *)
Lemma probe_perm k p :
  Permutation (map (fun i => N.to_nat (probe_pos k p i)) (seq 0 (N.to_nat (2 ^ k))))
              (seq 0 (N.to_nat (2 ^ k))).
Proof.
  apply NoDup_Permutation_bis.
  - apply NoDup_map_in; [|apply seq_NoDup].
    intros i j Hi Hj E. apply in_seq in Hi, Hj. apply (probe_pos_inj k p); lia.
  - rewrite map_length. lia.
  - intros x Hx. apply in_map_iff in Hx as (i & <- & Hi).
    apply in_seq. pose proof (probe_pos_lt k p i). lia.
Qed.

Lemma probe_covers k p g : N.of_nat g < 2 ^ k ->
  exists i, N.of_nat i < 2 ^ k /\ probe_pos k p i = N.of_nat g.
Proof.
  intros Hg. assert (In g (seq 0 (N.to_nat (2 ^ k)))) as I by (apply in_seq; lia).
  apply (Permutation_in _ (Permutation_sym (probe_perm k p))) in I.
  apply in_map_iff in I as (i & E & Hi). apply in_seq in Hi. exists i. lia.
Qed.

(** The state of the C++ prober after i calls to next. *)
Lemma pb_next_spec k pos0 i : k <= 63 -> N.of_nat (S i) < 2 ^ 64 ->
  pb_next {| pb_pos := probe_pos k pos0 i; pb_step := N.of_nat i |} (2 ^ k - 1)
  = ({| pb_pos := probe_pos k pos0 (S i); pb_step := N.of_nat (S i) |},
     N.of_nat (S i) <? 2 ^ k).
Proof.
  intros Hk Hi. unfold pb_next. cbn [pb_pos pb_step].
  pose proof (pow2_pos k) as P.
  replace (N.of_nat i + 1) with (N.of_nat (S i)) by lia.
  rewrite (N.mod_small (N.of_nat (S i))) by lia.
  f_equal.
  - f_equal. unfold probe_pos. rewrite <- N.pred_sub, <- N.ones_equiv, N.land_ones.
    assert (forall x, (x mod 2 ^ 64) mod 2 ^ k = x mod 2 ^ k) as MM.
    { intros x. replace (2 ^ 64) with (2 ^ k * 2 ^ (64 - k))
        by (rewrite <- N.pow_add_r; f_equal; lia).
      rewrite N.mod_mul_r by (apply N.pow_nonzero; lia).
      rewrite N.mul_comm, N.mod_add by lia. apply N.mod_mod; lia. }
    rewrite MM. cbn [tri]. rewrite N.add_mod_idemp_l by lia. f_equal. lia.
  - destruct (N.leb_spec (N.of_nat (S i)) (2 ^ k - 1)), (N.ltb_spec (N.of_nat (S i)) (2 ^ k)); lia.
Qed.

Lemma probe_loop_gen k pos0 : k <= 63 -> forall fuel i,
  N.of_nat i < 2 ^ k -> (N.to_nat (2 ^ k) <= i + fuel)%nat ->
  probe_loop fuel {| pb_pos := probe_pos k pos0 i; pb_step := N.of_nat i |} (2 ^ k - 1)
  = Some (map (probe_pos k pos0) (seq i (N.to_nat (2 ^ k) - i))).
Proof.
  intros Hk. assert (2 ^ k < 2 ^ 64) as H64 by (apply N.pow_lt_mono_r; lia).
  induction fuel as [|fuel IH]; intros i Hi Hf; [lia|].
  cbn [probe_loop]. rewrite pb_next_spec by lia.
  destruct (N.ltb_spec (N.of_nat (S i)) (2 ^ k)) as [L|G].
  - rewrite IH by lia. cbn [option_map pb_pos].
    replace (N.to_nat (2 ^ k) - i)%nat with (S (N.to_nat (2 ^ k) - S i)) by lia. reflexivity.
  - replace (N.to_nat (2 ^ k) - i)%nat with 1%nat by lia. reflexivity.
Qed.

Lemma probe_pos_0 k pos : pos < 2 ^ k -> probe_pos k pos 0 = pos.
Proof. intros H. unfold probe_pos. cbn [tri]. rewrite N.add_0_r. apply N.mod_small, H. Qed.

Lemma probe_loop_perm k pos fuel : k <= 63 -> pos < 2 ^ k -> (N.to_nat (2 ^ k) <= fuel)%nat ->
  exists l, probe_loop fuel (pb_init pos) (2 ^ k - 1) = Some l /\
            Permutation l (map N.of_nat (seq 0 (N.to_nat (2 ^ k)))).
Proof.
  intros Hk Hp Hf. exists (map (probe_pos k pos) (seq 0 (N.to_nat (2 ^ k)))). split.
  - unfold pb_init. pose proof (probe_loop_gen k pos Hk fuel 0%nat) as L.
    rewrite probe_pos_0 in L by exact Hp. rewrite Nat.sub_0_r in L. apply L; [|lia].
    pose proof (pow2_pos k). lia.
  - pose proof (probe_perm k pos) as P. apply (Permutation_map N.of_nat) in P.
    rewrite map_map in P. erewrite map_ext in P; [exact P|]. intros a. cbn. lia.
Qed.

(** ** max load as a function of the number of groups *)
Lemma ml_exact_check :
  forallb (fun k => let C := 15 * 2 ^ k - 1 in
     initial_max_load C =? (if k =? 1 then C else if k <=? 20 then 7 * C / 8 else 7 * C / 8 + 1)) ks = true.
Proof. vm_compute. reflexivity. Qed.
Lemma ml_exact k : 1 <= k <= 60 -> let C := 15 * 2 ^ k - 1 in
  initial_max_load C = if k =? 1 then C else if k <=? 20 then 7 * C / 8 else 7 * C / 8 + 1.
Proof.
  intros H. pose proof ml_exact_check as C. rewrite forallb_forall in C.
  specialize (C k (in_ks k H)). apply N.eqb_eq in C. exact C.
Qed.

(** ** allocation size *)
Lemma buffer_ok esz groups : 0 < esz -> 0 < groups -> buffer_fits esz groups = true ->
  esz * buffer_size_wrapped esz groups < buffer_bytes esz groups + esz /\
  buffer_bytes esz groups <= esz * buffer_size_wrapped esz groups.
Proof.
  intros He Hg Hf. unfold buffer_fits in Hf. apply N.ltb_lt in Hf.
  unfold buffer_size_wrapped. cbv zeta. unfold GN in *.
  assert (buffer_bytes esz groups = esz * (groups * 15 - 1) + 16 * (groups + 1) - 1) as EB by reflexivity.
  assert (groups * 15 - 1 <= esz * (groups * 15 - 1)) as G1 by nia.
  rewrite (N.mod_small (groups * 15 - 1)) by lia.
  set (P := esz * (groups * 15 - 1)) in *.
  assert ((P + 16 * (groups + 1) + (2 ^ 64 - 1)) mod 2 ^ 64 = buffer_bytes esz groups) as E1.
  { replace (P + 16 * (groups + 1) + (2 ^ 64 - 1)) with (buffer_bytes esz groups + 1 * 2 ^ 64) by lia.
    rewrite N.mod_add by lia. apply N.mod_small. lia. }
  rewrite E1. set (b := buffer_bytes esz groups) in *.
  assert ((b + esz + (2 ^ 64 - 1)) mod 2 ^ 64 = b + esz - 1) as E2.
  { replace (b + esz + (2 ^ 64 - 1)) with ((b + esz - 1) + 1 * 2 ^ 64) by lia.
    rewrite N.mod_add by lia. apply N.mod_small. lia. }
  rewrite E2. pose proof (N.div_mod (b + esz - 1) esz ltac:(lia)).
  pose proof (N.mod_lt (b + esz - 1) esz ltac:(lia)). lia.
Qed.
