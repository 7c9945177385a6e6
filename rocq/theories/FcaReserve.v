(** The bucket counts chosen by insertions of the closed-addressing containers: reserve(n) leaves room for n elements, and insertion never shrinks. *)
From Coq Require Import NArith ZArith Bool List Arith Lia Permutation.
From Verif Require Import FloatModel FloatProofs HashArithModel HashArithProofs FoaModel FoaGroup FoaBase FcaLinks FcaLinksProofs FcaModel FcaInv FcaIter FcaTab FcaRehash FcaLoad FcaOps FcaIns FcaIns2 FcaHandle FcaErase FcaErase2 FcaCopy FcaMove FcaMerge FcaQuery FcaEq FcaSpec FcaWorld FcaApi FcaRun FcaRun2 FcaRun3 FcaRun4 FcaProps FcaProps2.
Import ListNotations.
Local Open Scope Z_scope.

(** the maximum load is not much less than mlf * bc *)
Lemma ml_lower n bc m : (n < 2 ^ 64)%N -> (0 < bc < 2 ^ 53)%N -> min_mlf <= m -> (max_load_for (Some m) bc < n)%N -> m * Z.of_N bc * (2 ^ 53 - 1) <= Z.of_N n * 2 ^ 149 * 2 ^ 53.
Proof.
  intros Ln Lb Lm H. unfold max_load_for in *. destruct (N.eqb_spec bc 0) as [E|_]; [lia|]. rewrite f64_int_exact in H by lia.
  set (F := f64_mul (f64_of_f32 m) (Z.of_N bc * 2 ^ 1074)) in *. unfold f64_mul, f64_of_f32 in F.
  assert (2 ^ 116 <= m) as Lm2 by (apply (Z.le_trans _ min_mlf); [vm_compute; discriminate|exact Lm]).
  assert (0 < 2 ^ 116) as P116 by reflexivity. assert (0 < 2 ^ 1074) as P1074 by reflexivity.
  assert (F < Z.of_N n * 2 ^ 1074) as G.
  { unfold to_size in H. destruct (Z.leb_spec (2 ^ (64 + 1074)) F) as [S|S]; [unfold size_max in H; lia|].
    assert (0 <= F) as F0 by (apply fround_nonneg; [|reflexivity|lia]; apply Z.mul_nonneg_nonneg; apply Z.mul_nonneg_nonneg; lia).
    assert (F / 2 ^ 1074 < Z.of_N n) as Q. { apply N2Z.inj_lt in H. rewrite Z2N.id in H by (apply Z.div_pos; lia). exact H. }
    pose proof (Z.mul_succ_div_gt F (2 ^ 1074) P1074). set (q := F / 2 ^ 1074) in *. clearbody q. set (e := 2 ^ 1074) in *. clearbody e. nia. }
  assert (2 ^ (1074 - 149) = 2 ^ 925) as E1 by reflexivity.
  destruct (fround_rel 53 1074 (m * 2 ^ (1074 - 149) * (Z.of_N bc * 2 ^ 1074)) (2 ^ 1074 * 2 ^ 1074)) as [U _]; [lia| |reflexivity|lia| |].
  - apply Z.mul_nonneg_nonneg; apply Z.mul_nonneg_nonneg; lia.
  - replace (m * 2 ^ (1074 - 149) * (Z.of_N bc * 2 ^ 1074) * 2 ^ 1074) with ((m * 2 ^ (1074 - 149)) * Z.of_N bc * (2 ^ 1074 * 2 ^ 1074)) by ring. apply Z.mul_le_mono_nonneg_r; [vm_compute; discriminate|].
    apply (Z.le_trans _ (2 ^ 116 * 2 ^ (1074 - 149) * 1)); [vm_compute; discriminate|]. apply Z.mul_le_mono_nonneg; [vm_compute; discriminate| |lia|lia]. apply Z.mul_le_mono_nonneg_r; [vm_compute; discriminate|exact Lm2].
  - fold F in U. set (c := 2 ^ 1074) in *. rewrite E1 in U. assert (c = 2 ^ 925 * 2 ^ 149) as Ec by reflexivity. assert (0 < 2 ^ 925) as P925 by reflexivity. assert (0 < 2 ^ 149) as P149 by reflexivity.
    set (d := 2 ^ 925) in *. set (e := 2 ^ 149) in *. clearbody F c d e.
    assert (0 < d * (c * c)) as PD by (repeat apply Z.mul_pos_pos; assumption). apply (Z.mul_le_mono_pos_r _ _ _ PD).
    replace (m * Z.of_N bc * (2 ^ 53 - 1) * (d * (c * c))) with (m * d * (Z.of_N bc * c) * c * (2 ^ 53 - 1)) by ring. apply (Z.le_trans _ _ _ U).
    replace (Z.of_N n * e * 2 ^ 53 * (d * (c * c))) with ((Z.of_N n * c) * (c * c) * 2 ^ 53) by (rewrite Ec; ring).
    apply Z.mul_le_mono_nonneg_r; [lia|]. apply Z.mul_le_mono_nonneg_r; [apply Z.mul_nonneg_nonneg; lia|lia].
Qed.
Lemma mb_lower n bc p m : (0 < n < 2 ^ 64)%N -> (0 < bc < 2 ^ 53)%N -> (0 < p)%N -> (8 * p <= 7 * bc)%N -> min_mlf <= m -> (max_load_for (Some m) bc < n)%N -> (p < min_buckets n (Some m))%N.
Proof.
  intros Ln Lb Lp Hp Lm H. destruct (N.lt_ge_cases p (min_buckets n (Some m))) as [L|L]; [exact L|exfalso].
  assert (0 < min_mlf) as Pm by reflexivity.
  pose proof (near_mb n p m ltac:(lia) ltac:(lia) Lm L) as A. unfold Near in A. pose proof (ml_lower n bc m ltac:(lia) Lb Lm H) as B.
  assert (0 < 2 ^ 149) as P149 by reflexivity. set (e := 2 ^ 149) in *. clearbody e. change (2 ^ 53) with 9007199254740992 in *. change (2 ^ 23) with 8388608 in *.
  assert (0 < m) as M0 by lia. clear - A B Hp M0 Ln Lb P149. set (x := Z.of_N n * e) in *. assert (8 * (m * Z.of_N p) <= 7 * (m * Z.of_N bc)) as C by nia. assert (0 < m * Z.of_N bc) as D by nia.
  set (y := m * Z.of_N bc) in *. set (z := m * Z.of_N p) in *. replace (Z.of_N n * (8388608 - 1) * e) with (x * (8388608 - 1)) in A by (unfold x; ring). replace (8388608 * m * Z.of_N p) with (8388608 * z) in A by (unfold z; ring).
  clearbody x y z. lia.
Qed.

(** bucket counts *)
Lemma sizes_gap a b : In a sizes -> In b sizes -> (a < b)%N -> (8 * a <= 7 * b)%N.
Proof.
  assert (forallb (fun a => forallb (fun b => implb (a <? b)%N (8 * a <=? 7 * b)%N) sizes) sizes = true) as F by (vm_compute; reflexivity).
  intros Ha Hb L. rewrite forallb_forall in F. specialize (F a Ha). rewrite forallb_forall in F. specialize (F b Hb). apply N.ltb_lt in L. rewrite L in F. apply N.leb_le. exact F.
Qed.
Lemma bcf_less m d bc : bucket_count_for m = Some d -> In bc sizes -> (d < bc)%N -> (m <= d)%N.
Proof.
  intros E I L. destruct (N.le_gt_cases m 1649267441651) as [X|X]; [apply (bcf_ge m m d E); [lia|exact X]|]. exfalso.
  pose proof (bcf_ge 1649267441651 m d E ltac:(lia) ltac:(lia)) as G. pose proof (sizes_fix bc I). lia.
Qed.
Lemma sizes_sorted i j a b : nth_error sizes i = Some a -> nth_error sizes j = Some b -> (a < b)%N -> (i < j)%nat.
Proof.
  assert (forallb (fun i => forallb (fun j => implb (nth i sizes 0 <? nth j sizes 0)%N (Nat.ltb i j)) (seq 0 38)) (seq 0 38) = true) as F by (vm_compute; reflexivity).
  intros A B L. assert (forall k x, nth_error sizes k = Some x -> In k (seq 0 38) /\ nth k sizes 0%N = x) as Q. { intros k x H. split; [|apply nth_error_nth; exact H]. apply in_seq. split; [lia|]. change (k < length sizes)%nat. apply nth_error_Some. congruence. }
  destruct (Q _ _ A) as [IA EA]. destruct (Q _ _ B) as [IB EB]. rewrite forallb_forall in F. specialize (F i IA). rewrite forallb_forall in F. specialize (F j IB). rewrite EA, EB in F. apply N.ltb_lt in L. rewrite L in F. apply Nat.ltb_lt. exact F.
Qed.
Lemma bcf_mono a b x y : bucket_count_for a = Some x -> bucket_count_for b = Some y -> (a <= b)%N -> (x <= y)%N.
Proof.
  intros A B L. destruct (N.le_gt_cases x y) as [H|H]; [exact H|exfalso].
  assert (a <> 0%N) as Na. { intros ->. cbn in A. injection A as <-. lia. } pose proof A as A'. unfold bucket_count_for in A, B. destruct (N.eqb_spec a 0); [contradiction|]. destruct (N.eqb_spec b 0); [lia|].
  unfold fca_size in *. destruct (size_index_from_spec sizes 0 a ltac:(discriminate)) as (d & E & _ & _ & S). rewrite Nat.sub_0_r in *. fold (fca_size_index a) in *. specialize (S (fca_size_index b) y (sizes_sorted _ _ _ _ B A H) B).
  assert (In x sizes) as Ix by (apply nth_error_In in A; exact A).
  assert (bucket_count_for b = Some y) as B' by (unfold bucket_count_for; destruct (N.eqb_spec b 0); [lia|exact B]). pose proof (bcf_less b y x B' Ix H). lia.
Qed.
Lemma mb_mono a b mlf : (a <= b)%N -> match mlf with None => True | Some m => min_mlf <= m end -> (min_buckets a mlf <= min_buckets b mlf)%N.
Proof.
  intros L Hm. assert (match ceil_div a mlf, ceil_div b mlf with Some x, Some y => 0 <= x <= y | Some x, None => True | None, Some _ => False | None, None => True end) as Q.
  { unfold ceil_div. destruct mlf as [m|]; [|lia]. assert (0 < m) as Pm by (apply (Z.lt_le_trans _ min_mlf); [reflexivity|exact Hm]).
    pose proof (f32_of_int_nonneg (Z.of_N a) ltac:(lia)) as A0. pose proof (f32_of_int_mono (Z.of_N a) (Z.of_N b) ltac:(lia) ltac:(lia)) as AB. pose proof (f32_div_mono_l _ _ m A0 Pm AB) as D.
    assert (0 <= f32_div (f32_of_int (Z.of_N a)) m) as D0 by (apply fround_nonneg; lia). unfold f32_inf.
    set (x := f32_div (f32_of_int (Z.of_N a)) m) in *. set (y := f32_div (f32_of_int (Z.of_N b)) m) in *. clearbody x y.
    repeat match goal with |- context [Z.leb ?p ?q] => destruct (Z.leb_spec p q) end; try lia; auto. split; [|apply f32_ceil_mono; exact D]. change 0 with (f32_ceil 0). apply f32_ceil_mono. exact D0. }
  unfold min_buckets. destruct (ceil_div a mlf) as [x|], (ceil_div b mlf) as [y|]; try contradiction; unfold to_size, size_max.
  - change (64 + 0) with 64. rewrite !Z.div_1_r. repeat match goal with |- context [Z.leb ?p ?q] => destruct (Z.leb_spec p q) end; repeat match goal with |- context [N.eqb ?p ?q] => destruct (N.eqb_spec p q) end; repeat match goal with |- context [N.ltb ?p ?q] => destruct (N.ltb_spec p q) end; cbn [andb]; lia.
  - change (64 + 0) with 64. rewrite !Z.div_1_r. repeat match goal with |- context [Z.leb ?p ?q] => destruct (Z.leb_spec p q) end; repeat match goal with |- context [N.eqb ?p ?q] => destruct (N.eqb_spec p q) end; repeat match goal with |- context [N.ltb ?p ?q] => destruct (N.ltb_spec p q) end; cbn [andb]; try lia.
    all: assert (x < 18446744073709551616) by assumption; lia.
  - repeat match goal with |- context [N.eqb ?p ?q] => destruct (N.eqb_spec p q) end; repeat match goal with |- context [N.ltb ?p ?q] => destruct (N.ltb_spec p q) end; cbn [andb]; lia.
Qed.

Section Reserve.
Context {K V : Type} (c : FCfg K V).
Notation table := (FcaModel.table K V).
Implicit Types (t x : table).

(** an insertion keeps the buckets or takes more; it keeps them if there are buckets enough for n elements and it does not exceed n *)
Lemma bc_size t l : TInv c t l -> bucket_count (f_b t) = 0%N \/ In (bucket_count (f_b t)) sizes.
Proof. intros T. destruct (ci_b _ _ _ (ti_c _ _ _ T)) as [[B _]|(o & W & _)]; [left; rewrite B; reflexivity|right]. apply (fca_size_in _ _ (wb_size _ _ _ W)). Qed.
Lemma insert_bc t h o n v s' n' : in_program_arena c t h -> pre1 c o t -> strong1 o -> exec1 c o (t, h) n = Ret v s' n' ->
  (bucket_count (f_b t) <= bucket_count (f_b (fst s')))%N /\
  forall k b, (f_size t + 1 <= k)%N -> bucket_count_for (min_buckets k (f_mlf t)) = Some b -> (b <= bucket_count (f_b t))%N -> bucket_count (f_b (fst s')) = bucket_count (f_b t).
Proof.
  intros H Hp So E. destruct (arena_program c t h H) as [HP M]. destruct (prog_si c t h HP) as (r & I). pose proof (insert_cases c t h r o n I Hp So) as X. rewrite E in X.
  pose proof (si_t _ _ _ _ I) as T. cbn [fst] in T. pose proof (mlf_ok c t _ T) as Hm.
  destruct X as [[X|[_ [X _]]]|(hint & y & it & (l0 & l' & P & _ & S' & F & _ & B) & G)]; cbn [fst] in *; [rewrite X; split; [lia|reflexivity]|unfold same_bc in X; cbn [fst] in X; rewrite X; split; [lia|reflexivity]|].
  destruct G as [G|G]; cbn [fst] in G; [destruct (B G) as (_ & -> & _); split; [lia|reflexivity]|].
  destruct (N.le_gt_cases (f_size t + 1) (f_ml t)) as [Lm|Lm]; [destruct (B Lm) as (_ & -> & _); split; [lia|reflexivity]|].
  rewrite N.max_r in G by (apply mb_mono; [lia|exact Hm]).
  assert (bucket_count (f_b t) <= bucket_count (f_b (fst s')))%N as Up.
  { destruct (N.le_gt_cases (bucket_count (f_b t)) (bucket_count (f_b (fst s')))) as [L|L]; [exact L|exfalso].
    destruct (bc_size t _ T) as [Z|Is]; [lia|]. pose proof (bcf_less _ _ _ G Is L) as Lmb.
    destruct (bcf_in _ _ G) as [Z|Is']; [pose proof (min_buckets_pos (f_size t + 1) (f_mlf t) ltac:(lia)); lia|].
    pose proof (sizes_gap _ _ Is' Is L) as Gp. destruct (f_mlf t) as [m|] eqn:Em.
    - pose proof (bc_bound _ _ (ci_b _ _ _ (ti_c _ _ _ T))) as BB. pose proof (ti_room _ _ _ T) as Rm. pose proof (ti_size _ _ _ T) as Sz. unfold max_elems in Rm.
      pose proof (mb_lower (f_size t + 1) (bucket_count (f_b t)) (bucket_count (f_b (fst s'))) m ltac:(lia) ltac:(lia)) as Q.
      rewrite M, Em in Lm. assert (0 < bucket_count (f_b (fst s')))%N as Pb. { destruct (In_nth_error _ _ Is') as (j & Ej). pose proof (sizes_pos _ _ Ej). lia. }
      specialize (Q Pb Gp Hm Lm). lia.
    - rewrite M, Em in Lm. unfold max_load_for in Lm. destruct (N.eqb_spec (bucket_count (f_b t)) 0) as [Z|Z]; [lia|]. pose proof (ti_room _ _ _ T) as Rm. pose proof (ti_size _ _ _ T) as Sz. unfold max_elems, size_max in *. lia. }
  split; [exact Up|]. intros k b Lk Eb Lb. apply N.le_antisymm; [|exact Up]. etransitivity; [|exact Lb]. apply (bcf_mono _ _ _ _ G Eb). apply mb_mono; [exact Lk|exact Hm].
Qed.
Lemma insert_frame t h o n v s' n' : in_program c t h -> pre1 c o t -> strong1 o -> exec1 c o (t, h) n = Ret v s' n' ->
  f_mlf (fst s') = f_mlf t /\ (f_size (fst s') = f_size t /\ bucket_count (f_b (fst s')) = bucket_count (f_b t) \/ f_size (fst s') = (f_size t + 1)%N).
Proof.
  intros H Hp So E. destruct (prog_si c t h H) as (r & I). pose proof (insert_cases c t h r o n I Hp So) as X. rewrite E in X. pose proof (si_t _ _ _ _ I) as T. cbn [fst] in T.
  destruct X as [[X|(Xs & X & Xm)]|(hint & y & it & (l0 & l' & P & Hl & S' & F & _) & G)]; cbn [fst] in *; [rewrite X; auto|auto|]. destruct F as ((_ & _ & _ & Fm) & _). split; [exact Fm|right].
  rewrite (ti_size _ _ _ (si_t _ _ _ _ S')), (ti_size _ _ _ T). rewrite (Permutation_length P), (Permutation_length (insat_perm _ _ _ _ Hl)). cbn [length]. lia.
Qed.
End Reserve.
