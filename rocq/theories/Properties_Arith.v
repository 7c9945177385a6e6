(** Properties of the integer and float arithmetic (C05, C09, C10, C17, C18, C21, C46). *)
From Coq Require Import NArith ZArith Bool List Permutation Lia.
From Verif Require Import FloatModel SizeModel SizeProofs GroupModel GroupSpec GroupRun GroupProofs HashArithModel HashArithProofs.
Import ListNotations.
Local Open Scope N_scope.

(** C05: a probing loop over 2^k groups ends and inspects every group exactly once. *)
Theorem C05_probing_visits_every_group_exactly_once :
  forall k pos fuel, k <= 63 -> pos < 2 ^ k -> (N.to_nat (2 ^ k) <= fuel)%nat ->
  exists visited, probe_loop fuel (pb_init pos) (2 ^ k - 1) = Some visited /\
    Permutation visited (map N.of_nat (seq 0 (N.to_nat (2 ^ k)))).
Proof. exact probe_loop_perm. Qed.
Print Assumptions C05_probing_visits_every_group_exactly_once.
Example C05_example : probe_loop 8 (pb_init 5) 7 = Some [5; 6; 0; 3; 7; 4; 2; 1].
Proof. reflexivity. Qed.

(** C09, arithmetic part: the number of slots computed from n through single-precision floats
    always leaves a maximum load of at least n (up to 2^60 groups). *)
Theorem C09_reserve_arithmetic :
  forall n, ceil_div_mlf n < 2 ^ 64 -> groups_for (ceil_div_mlf n) <= 2 ^ 60 ->
  n <= initial_max_load (groups_for (ceil_div_mlf n) * 15 - 1).
Proof. intros n H1 H2. exact (groups_for_max_load n _ H1 eq_refl H2). Qed.
Print Assumptions C09_reserve_arithmetic.
Example C09_arith_example :
  ceil_div_mlf 16777217 < 2 ^ 64 /\ groups_for (ceil_div_mlf 16777217) <= 2 ^ 60 /\
  initial_max_load (groups_for (ceil_div_mlf 16777217) * 15 - 1) = 27525120.
Proof. repeat split; vm_compute; congruence. Qed.

(** C10: exact value of max_load() for a fresh array of 2^k groups, capacity C = 15*2^k-1. *)
Theorem C10_max_load_of_fresh_array :
  forall k, 1 <= k <= 60 ->
  let C := 15 * 2 ^ k - 1 in
  initial_max_load C = (if k =? 1 then C else if k <=? 20 then 7 * C / 8 else 7 * C / 8 + 1).
Proof. exact ml_exact. Qed.
Print Assumptions C10_max_load_of_fresh_array.
(** The documented note "max_load() >= max_load_factor() * bucket_count()" read over the reals
    (8 * max_load >= 7 * bucket_count) is false for capacity 59. *)
Theorem C10_documented_inequality_refuted :
  ~ (forall k, 1 <= k <= 60 -> let C := 15 * 2 ^ k - 1 in 7 * C <= 8 * initial_max_load C).
Proof. intros H. specialize (H 2 ltac:(lia)). vm_compute in H. apply H. reflexivity. Qed.
Print Assumptions C10_documented_inequality_refuted.

(** C17: whatever the sequence of metadata updates, the three layouts give the answers of the
    layout-free specification. *)
Theorem C17_layouts_agree :
  forall ops q, Forall op_ok ops -> query_ok (spec_run ops) q ->
  sse2_answer (sse2_run ops) q = spec_answer (spec_run ops) q /\
  neon_answer (neon_run ops) q = spec_answer (spec_run ops) q /\
  inter_answer (inter_run ops) q = spec_answer (spec_run ops) q.
Proof. exact layouts_agree. Qed.
Print Assumptions C17_layouts_agree.
(** stored control values are proper bytes, never 0 (free) or 1 (sentinel), and keep hash mod 8 *)
Theorem C17_control_values :
  forall h, 2 <= reduced_hash h < 256 /\ reduced_hash_sse2 h = reduced_hash h /\ reduced_hash h mod 8 = h mod 8.
Proof.
  intros h. destruct (reduced_facts h) as (A & B & C & D & _). rewrite A, B. auto.
Qed.
Print Assumptions C17_control_values.
(** the bit-scanning loop over a match mask enumerates exactly the set bits, in order *)
Theorem C17_mask_loop : forall mask, mask < 2 ^ 15 ->
  mask_loop 16 mask = filter (fun i => N.testbit mask (N.of_nat i)) (seq 0 15).
Proof. exact mask_loop_bits. Qed.
Print Assumptions C17_mask_loop.
Example C17_example :
  let ops := [GSentinel; GSet 3 0xABCD00; GSet 7 0x1F; GMark 0xFF07; GSet 9 0x1F; GReset 7; GMark 2] in
  Forall op_ok ops /\ query_ok (spec_run ops) (QMaybeCausedOverflow 9) /\
  spec_answer (spec_run ops) (QMatch 0x11F) = 0x200 /\
  inter_answer (inter_run ops) (QMatch 0x11F) = 0x200 /\
  spec_answer (spec_run ops) QOccupied = 0x4208 /\
  spec_answer (spec_run ops) (QMaybeCausedOverflow 9) = 1 /\
  spec_answer (spec_run ops) (QMaybeCausedOverflow 3) = 0.
Proof.
  repeat split; try reflexivity.
  - repeat constructor.
  - eexists; reflexivity.
Qed.

(** C18: the group position of any 64-bit hash is a group index, for the shift selected for any
    requested capacity. *)
Theorem C18_position_in_range :
  forall hash n, hash < 2 ^ 64 -> n < 2 ^ 64 -> position hash (size_index_for n) < groups_for n.
Proof.
  intros hash n Hh Hn. destruct (groups_for_pow n Hn) as (k & Hk & Es & Eg & _).
  rewrite Es, Eg. apply position_lt; [exact Hh|lia].
Qed.
Print Assumptions C18_position_in_range.
(** the number of groups is a power of two, at least 2, enough for n slots besides the sentinel's
    and, from 30 slots on, at most twice what is needed *)
Theorem C18_groups_for : forall n, n < 2 ^ 64 ->
  exists k, 1 <= k <= 61 /\ groups_for n = 2 ^ k /\ n <= capacity_for n /\ (30 <= n -> 15 * groups_for n <= 2 * n).
Proof.
  intros n Hn. destruct (groups_for_pow n Hn) as (k & Hk & Es & Eg & L & T).
  exists k. rewrite Eg. split; [lia|]. split; [reflexivity|]. split; [|exact T].
  unfold capacity_for. rewrite Eg. unfold GN. lia.
Qed.
Print Assumptions C18_groups_for.
Theorem C18_mulx_portable_agrees :
  forall x y, x < 2 ^ 64 -> y < 2 ^ 64 -> mulx64_portable x y = mulx64_int128 x y.
Proof. exact mulx64_same. Qed.
Print Assumptions C18_mulx_portable_agrees.
Theorem C18_mulx32_branches_agree : forall x y, mulx32_checked x y = mulx32 x y.
Proof. exact mulx32_same. Qed.
Print Assumptions C18_mulx32_branches_agree.
Example C18_example : mulx64_portable 0xFEDCBA9876543210 0x9E3779B97F4A7C15 = mulx 0xFEDCBA9876543210
  /\ mulx 0xFEDCBA9876543210 < 2 ^ 64 /\ position (mulx 0xFEDCBA9876543210) (size_index_for 1000) < groups_for 1000.
Proof. repeat split; vm_compute; congruence. Qed.

(** C21 *)
Theorem C21_position_is_true_remainder :
  forall hash i d, hash < 2 ^ 64 -> nth_error sizes i = Some d ->
  fca_position hash i =
    Some (if (i <? 29)%nat then ((hash mod 2 ^ 32 + hash / 2 ^ 32) mod 2 ^ 32) mod d else hash mod d).
Proof. intros hash i d. apply fca_position_ok. reflexivity. Qed.
Print Assumptions C21_position_is_true_remainder.
Theorem C21_portable_agrees :
  forall hash i d, hash < 2 ^ 64 -> nth_error sizes i = Some d ->
  fca_position_with get_remainder_portable hash i = fca_position hash i.
Proof.
  intros hash i d Hh Hi. unfold fca_position.
  rewrite (fca_position_ok get_remainder_portable get_remainder_same hash i d Hh Hi).
  symmetry. exact (fca_position_ok get_remainder (fun _ _ _ _ => eq_refl) hash i d Hh Hi).
Qed.
Print Assumptions C21_portable_agrees.
Theorem C21_position_in_range :
  forall hash i d, hash < 2 ^ 64 -> nth_error sizes i = Some d ->
  exists p, fca_position hash i = Some p /\ p < d.
Proof.
  intros hash i d Hh Hi. rewrite (C21_position_is_true_remainder hash i d Hh Hi).
  eexists. split; [reflexivity|]. pose proof (sizes_pos i d Hi).
  destruct (i <? 29)%nat; apply N.mod_lt; lia.
Qed.
Print Assumptions C21_position_in_range.
Example C21_example : fca_position 0xFEDCBA9876543210 5 = Some (0x7530ECA8 mod 389)
  /\ nth_error sizes 5 = Some 389.
Proof. split; reflexivity. Qed.

(** C46: as long as the byte count fits in size_t the number of value_type-sized units asked from the allocator
    covers the elements and the (16-byte aligned) groups, with less than one unit to spare. *)
Theorem C46_buffer_is_large_enough :
  forall esz groups, 0 < esz -> 0 < groups -> buffer_fits esz groups = true ->
  buffer_bytes esz groups <= esz * buffer_size_wrapped esz groups < buffer_bytes esz groups + esz.
Proof. intros esz groups H1 H2 H3. destruct (buffer_ok esz groups H1 H2 H3). split; assumption. Qed.
Print Assumptions C46_buffer_is_large_enough.
(** Without that proviso the computation wraps: 16-byte elements and 2^56 groups ask for 0 units. *)
Theorem C46_buffer_wraps_refuted :
  ~ (forall n, n < 2 ^ 64 -> buffer_bytes 16 (groups_for n) <= 16 * buffer_size_wrapped 16 (groups_for n)).
Proof. intros H. specialize (H (2 ^ 59) ltac:(lia)). vm_compute in H. apply H. reflexivity. Qed.
Print Assumptions C46_buffer_wraps_refuted.
Example C46_example : buffer_fits 16 (2 ^ 40) = true /\ groups_for (2 ^ 59) = 2 ^ 56 /\ buffer_size_wrapped 16 (2 ^ 56) = 0.
Proof. repeat split; reflexivity. Qed.
