(** More properties of the closed-addressing containers of programs: load factor, rehashing, erasure, exceptions, buckets (used by Properties_Fca.v). *)
From Coq Require Import NArith ZArith Bool List Arith Lia Permutation.
From Verif Require Import FloatModel FloatProofs HashArithModel HashArithProofs FoaModel FoaGroup FoaBase FcaLinks FcaLinksProofs FcaModel FcaInv FcaIter FcaTab FcaRehash FcaLoad FcaOps FcaIns FcaIns2 FcaHandle FcaErase FcaErase2 FcaCopy FcaMove FcaMerge FcaQuery FcaEq FcaSpec FcaWorld FcaApi FcaRun FcaRun2 FcaRun3 FcaRun4 FcaProps.
Import ListNotations.
Local Open Scope m_scope.
Local Open Scope nat_scope.

(** *** arithmetic of the load *)
Lemma mb_bound n m : (n <= 2 ^ 30)%N -> (min_mlf <= m)%Z -> (min_buckets n (Some m) <= 1649267441651)%N.
Proof.
  intros Ln Lm. unfold min_buckets, ceil_div. set (q := f32_div (f32_of_int (Z.of_N n)) m).
  assert (0 < min_mlf)%Z as P by reflexivity. pose proof (f32_of_int_nonneg (Z.of_N n) ltac:(lia)) as P0.
  set (Q := f32_div (f32_of_int (2 ^ 30)) min_mlf).
  assert (0 <= q <= Q)%Z as [B0 B1].
  { split; [apply fround_nonneg; lia|]. apply (Z.le_trans _ (f32_div (f32_of_int (2 ^ 30)) m)).
    - apply f32_div_mono_l; [exact P0|lia|]. apply f32_of_int_mono; lia.
    - apply fround_mono; [lia|lia|apply f32_of_int_nonneg; lia|lia|lia|]. apply Z.mul_le_mono_nonneg_l; [apply f32_of_int_nonneg; lia|exact Lm]. }
  assert (f32_inf q = false) as ->. { apply Z.leb_gt. apply (Z.le_lt_trans _ Q); [exact B1|]. vm_compute. reflexivity. }
  assert (0 <= f32_ceil q <= f32_ceil Q)%Z as [C0 C1]. { split; [|apply f32_ceil_mono; exact B1]. change 0%Z with (f32_ceil 0). apply f32_ceil_mono. exact B0. }
  assert (f32_ceil Q <= 1649267441651)%Z as C2 by (vm_compute; discriminate).
  unfold to_size. destruct (Z.leb_spec (2 ^ (64 + 0)) (f32_ceil q)) as [S|_]; [lia|]. rewrite Z.div_1_r.
  destruct (N.eqb (Z.to_N (f32_ceil q)) 0 && N.ltb 0 n); lia.
Qed.
(** with the default max_load_factor of 1 the bound is exact below 2^23 elements *)
Lemma near_one n bc : Near n bc (Some f32_one) -> (n < 2 ^ 23)%N -> (n <= bc)%N.
Proof.
  unfold Near, f32_one. assert (0 < 2 ^ 149)%Z as P by reflexivity. set (e := (2 ^ 149)%Z) in *. clearbody e. change (2 ^ 23)%Z with 8388608%Z. change (2 ^ 23)%N with 8388608%N. intros H L.
  assert (Z.of_N n * (8388608 - 1) <= 8388608 * Z.of_N bc)%Z by nia. lia.
Qed.
Lemma div_le_one a b : (0 <= a <= b)%Z -> (0 < b)%Z -> (f32_div a b <= f32_one)%Z.
Proof.
  intros H Hb. apply (Z.le_trans _ (f32_div 1 1)); [|vm_compute; discriminate]. apply fround_mono; lia.
Qed.

Lemma nodup_app_r {A} (l1 l2 : list A) : NoDup (l1 ++ l2) -> NoDup l2.
Proof. induction l1 as [|a l1 IH]; [auto|]. cbn [app]. intros H. inversion H. auto. Qed.
Lemma nodup_app_l {A} (l1 l2 : list A) : NoDup (l1 ++ l2) -> NoDup l1.
Proof. induction l1 as [|a l1 IH]; [constructor|]. cbn [app]. intros H. inversion H as [|? ? N1 N2]. subst. constructor; [intros I; apply N1; apply in_or_app; left; exact I|auto]. Qed.

Section Props2.
Context {K V : Type} (c : FCfg K V).
Notation node := (node K V).
Notation table := (FcaModel.table K V).
Notation cb := (base c).
Notation St := (table * heap)%type.
Notation TInv := (TInv c). Notation raised := (raised c). Notation SI := (SI c). Notation WI := (WI c).
Notation mworld := (@mworld K V).
Notation el := (@el K V).
Notation in_program := (in_program c).
Implicit Types (t x : table) (y z : node) (w : mworld).

(** *** C25 *)
Definition in_program_arena t (h : heap) : Prop := exists rs w i, runs_with c (no_new_arena c) rs w /\ slot w i = Some t /\ hp w = h.
Lemma runs_weaken (ok ok' : op K V -> mworld -> Prop) rs w : (forall o w, ok o w -> ok' o w) -> runs_with c ok rs w -> runs_with c ok' rs w.
Proof. intros I. induction 1; econstructor; eauto. Qed.
Lemma arena_program t h : in_program_arena t h -> in_program t h /\ MLok t.
Proof.
  intros (rs & w & i & R & Hs & Eh). split; [exists rs, w, i; split; [|auto]; eapply runs_weaken; [|exact R]; auto|]. apply (ml_in w i t (runs_ml c _ _ R) Hs).
Qed.
Lemma mlf_ok t l : TInv t l -> match f_mlf t with None => True | Some m => (min_mlf <= m)%Z end. Proof. intros T. apply (ci_mlf _ _ _ (ti_c _ _ _ T)). Qed.
Lemma near_of_ml t l n : TInv t l -> MLok t -> (0 < n)%N -> (n <= f_ml t)%N -> (n < 2 ^ 64)%N -> Near n (bucket_count (f_b t)) (f_mlf t).
Proof.
  intros T M Ln Hn L6. destruct (f_mlf t) as [m|] eqn:Em; [|exact I]. pose proof (mlf_ok t l T) as B. rewrite Em in B. pose proof (bc_bound _ _ (ci_b _ _ _ (ti_c _ _ _ T))) as BB.
  apply near_ml; [exact L6| |exact B|rewrite M, Em in Hn; exact Hn]. split; [|lia]. destruct (Nat.eq_dec (b_size (f_b t)) 0) as [Z|Z]; [|unfold bucket_count; lia]. rewrite (ci_null _ _ _ (ti_c _ _ _ T) Z) in Hn. lia.
Qed.
Lemma near_of_mb t l n : TInv t l -> (0 < n)%N -> (n <= 2 ^ 30)%N -> Enough n (f_mlf t) (bucket_count (f_b t)) -> Near n (bucket_count (f_b t)) (f_mlf t).
Proof.
  intros T Ln Hn E. destruct (f_mlf t) as [m|] eqn:Em; [|exact I]. pose proof (mlf_ok t l T) as B. rewrite Em in B. pose proof (bc_bound _ _ (ci_b _ _ _ (ti_c _ _ _ T))) as BB.
  specialize (E (mb_bound n m Hn B)). apply near_mb; [exact Ln| |exact B|exact E]. pose proof (min_buckets_pos n (Some m) Ln). lia.
Qed.
Lemma load_insert t h o n v s' n' : in_program_arena t h -> pre1 c o t -> strong1 o -> exec1 c o (t, h) n = Ret v s' n' ->
  f_size (fst s') = (f_size t + 1)%N -> (f_size (fst s') <= 2 ^ 30)%N -> Near (f_size (fst s')) (bucket_count (f_b (fst s'))) (f_mlf (fst s')).
Proof.
  intros H Hp So E Sz L. destruct (arena_program t h H) as [HP M]. destruct (prog_si c t h HP) as (r & I). pose proof (insert_cases c t h r o n I Hp So) as X. rewrite E in X.
  destruct X as [[X|[X _]]|(hint & y & it & (l0 & l' & P & _ & S' & F & _ & B) & G)]; cbn [fst] in *; [rewrite X in Sz; lia|lia|].
  pose proof (si_t _ _ _ _ I) as T. cbn [fst] in T. pose proof (si_t _ _ _ _ S') as T'. destruct F as ((_ & _ & _ & Fm) & _ & _). cbn [fst] in Fm.
  destruct G as [G|G]; cbn [fst] in G.
  - destruct (B G) as (_ & Bc & _). rewrite Bc, Fm, Sz. apply (near_of_ml t _ _ T M); lia.
  - rewrite <- Fm, <- Sz in G. apply (near_of_mb (fst s') l' _ T'); [lia|exact L|]. intros Y. apply (bcf_ge _ _ _ G); [lia|exact Y].
Qed.
Lemma prog_live t h r : SI r (t, h) (contents t) -> length (contents t) <= live h. Proof. intros I. pose proof (si_live _ _ _ _ I) as E. cbn [snd] in E. lia. Qed.
(** rehash and reserve: what they do *)
Lemma rehash_done t h n m v s' n' : in_program t h -> exec1 c (Rehash n) (t, h) m = Ret v s' n' ->
  snd s' = h /\ Permutation (elems (fst s')) (elems t) /\ f_mlf (fst s') = f_mlf t /\ f_size (fst s') = f_size t /\ bucket_count_for (N.max (min_buckets (f_size t) (f_mlf t)) n) = Some (bucket_count (f_b (fst s'))).
Proof.
  intros H E. destruct (prog_si c t h H) as (r & I). pose proof (si_t _ _ _ _ I) as T. cbn [fst] in T. pose proof (rehash_ok c t h (contents t) n m T (prog_live t h r I)) as Q. cbn [exec1] in E. unfold bind in E.
  destruct (rehash c n (t, h) m) as [[] s1 n1|k s1 n1|]; try discriminate. cbn in E. injection E as _ E _. subst s1. cbn [outcome] in Q. destruct Q as ((t' & l' & -> & T' & P & (S1 & S2 & S3 & S4) & _) & B). cbn [fst snd] in *.
  split; [reflexivity|]. split; [rewrite (elems_inv c t' l' T'), (elems_inv c t _ T); apply Permutation_map; symmetry; exact P|]. split; [exact S4|]. split; [|exact B]. rewrite (ti_size _ _ _ T'), (ti_size _ _ _ T), (Permutation_length P). reflexivity.
Qed.
Lemma reserve_is_rehash t h n m : exec1 c (Reserve n) (t, h) m = exec1 c (Rehash (min_buckets n (f_mlf t))) (t, h) m.
Proof. cbn [exec1]. unfold reserve. rewrite bind_bind, get_t_eq. reflexivity. Qed.
Lemma load_rehash t h n m v s' n' : in_program t h -> exec1 c (Rehash n) (t, h) m = Ret v s' n' -> (f_size t <= 2 ^ 30)%N -> Near (f_size (fst s')) (bucket_count (f_b (fst s'))) (f_mlf (fst s')).
Proof.
  intros H E L. destruct (rehash_done t h n m v s' n' H E) as (_ & _ & Em & Es & B). pose proof (step1 c t h (Rehash n) m H Logic.I) as Q. rewrite E in Q. destruct Q as (Q & _). pose proof (prog_inv c _ _ Q) as T'.
  rewrite Es, Em. destruct (N.eq_dec (f_size t) 0) as [Z|Z].
  - rewrite Z. unfold Near. rewrite <- Em. pose proof (mlf_ok _ _ T') as Y. destruct (f_mlf (fst s')) as [z|]; [|exact Logic.I]. assert (0 <= z)%Z by (apply (Z.le_trans _ min_mlf); [vm_compute; discriminate|exact Y]). change (Z.of_N 0) with 0%Z. rewrite !Z.mul_0_l. apply Z.mul_nonneg_nonneg; lia.
  - rewrite <- Em, <- Es. apply (near_of_mb _ _ _ T'); [lia|lia|]. rewrite Em, Es. intros Y. apply (bcf_ge _ _ _ B); [lia|exact Y].
Qed.
Lemma default_load t n : f_mlf t = Some f32_one -> f_size t = n -> Near n (bucket_count (f_b t)) (f_mlf t) -> (n < 2 ^ 23)%N -> (n <= bucket_count (f_b t))%N /\ (load_factor t <= f32_one)%Z.
Proof.
  intros Em Es Hn L. rewrite Em in Hn. pose proof (near_one _ _ Hn L) as B. split; [exact B|]. unfold load_factor. destruct (N.eqb_spec (f_size t) 0) as [Z|Z]; [vm_compute; discriminate|].
  rewrite Es in *. apply div_le_one; [split; [apply f32_of_int_nonneg; lia|apply f32_of_int_mono; lia]|]. apply (Z.lt_le_trans _ (f32_of_int 1)); [reflexivity|]. apply f32_of_int_mono; lia.
Qed.

(** *** C26 *)
Lemma rehash_buckets t h n m v s' n' : in_program t h -> exec1 c (Rehash n) (t, h) m = Ret v s' n' -> (n <= 1649267441651)%N -> (n <= bucket_count (f_b (fst s')))%N.
Proof. intros H E L. destruct (rehash_done t h n m v s' n' H E) as (_ & _ & _ & _ & B). apply (bcf_ge _ _ _ B); [lia|exact L]. Qed.
(** reserve(n) leaves room for n elements without rehashing *)

(** *** C31 *)
Lemma bucket_ok t h k {X} (s : X) n : in_program t h -> (0 < bucket_count (f_b t))%N ->
  match bucket_of c t k s n with Ret m s' _ => s' = s /\ (m < bucket_count (f_b t))%N | Exn kd s' _ => kd = KHash /\ raised kd /\ s' = s | Undef => False end.
Proof.
  intros H L. pose proof (bucket_of_ok c t (contents t) k s n (prog_inv c t h H) ltac:(unfold bucket_count in L; lia)) as Q. destruct (bucket_of c t k s n) as [m s' n1|kd s' n1|]; cbn [outcome] in Q; [|exact Q|exact Q]. destruct Q as (-> & Lm & _). auto.
Qed.
Definition in_bucket t (m : nat) (e : nat * (K * V)) : Prop := exists l, local_elements t m = Some l /\ In e (map el l).
Lemma local_lists t h m : in_program t h -> (N.of_nat m < bucket_count (f_b t))%N -> exists l, local_elements t m = Some l /\ bucket_size t m = Some (N.of_nat (length l)) /\ NoDup (map fst (map el l)).
Proof.
  intros H L. pose proof (prog_inv c t h H) as T. set (l := contents t) in *. assert (m < b_size (f_b t)) as Lm by (unfold bucket_count in L; lia). exists (chainat (f_b t) m).
  split; [apply (local_ok c t l m T Lm)|]. split; [apply (bucket_size_ok c t l m T Lm)|].
  pose proof (buckets_total c t l T) as P. pose proof (ti_c _ _ _ T) as C.
  rewrite ids_el. pose proof (Permutation_NoDup (Permutation_sym (Permutation_map nd_id P)) (ci_ids _ _ _ C)) as ND. assert (In m (seq 0 (b_size (f_b t)))) as Im by (apply in_seq; lia).
  apply in_split in Im as (a & b & Eab). rewrite Eab, flat_map_app, map_app in ND. cbn [flat_map] in ND. rewrite map_app in ND. apply nodup_app_r in ND. apply nodup_app_l in ND. exact ND.
Qed.
Lemma local_at t h m (e : nat * (K * V)) : in_program t h -> in_bucket t m e -> In e (elems t) /\ (N.of_nat m < bucket_count (f_b t))%N /\ forall (Y : Type) (s : Y) n i s' n', bucket_of c t (key e) s n = Ret i s' n' -> i = N.of_nat m.
Proof.
  intros H (l' & El & I). pose proof (prog_inv c t h H) as T. set (l := contents t) in *. pose proof (ti_c _ _ _ T) as C.
  assert (m < b_size (f_b t)) as Lm.
  { unfold local_elements in El. destruct (Nat.eqb_spec (b_size (f_b t)) 0) as [Z|Z]; [assert (l' = []) as -> by congruence; destruct I|]. assert (m < length (b_chains (f_b t))) as X by (apply nth_error_Some; congruence).
    pose proof (BOk_pos _ _ (ci_b _ _ _ C) ltac:(lia)) as (o & W & _). rewrite (wb_len _ _ _ W) in X. destruct (Nat.eq_dec m (b_size (f_b t))) as [->|]; [|lia]. exfalso.
    apply in_map_iff in I as (y & <- & I). pose proof (wb_last _ _ _ W) as D. unfold chainat in D. rewrite (nth_error_nth _ _ _ El) in D. subst l'. destruct I. }
  rewrite (local_ok c t l m T Lm) in El. assert (l' = chainat (f_b t) m) as -> by congruence. apply in_map_iff in I as (y & <- & I).
  split; [rewrite (elems_inv c t l T); apply in_map; apply (in_CInv c t l y m C I)|]. split; [unfold bucket_count; lia|]. intros Y s n i s' n' E. pose proof (ci_placed _ _ _ C _ _ I) as Pl.
  unfold bucket_of, hash_for, bind in E. change (key (el y)) with (nkey y) in E. destruct (tick cb KHash s n); [|discriminate|discriminate]. cbn in E. rewrite Pl in E. cbn [of_option] in E. injection E as E _ _. symmetry. exact E.
Qed.
Lemma local_ex t h (e : nat * (K * V)) : in_program t h -> In e (elems t) -> exists m, (N.of_nat m < bucket_count (f_b t))%N /\ in_bucket t m e.
Proof.
  intros H I. pose proof (prog_inv c t h H) as T. set (l := contents t) in *. rewrite (elems_inv c t l T) in I. apply in_map_iff in I as (y & <- & I).
  assert (In y (flat_map (chainat (f_b t)) (seq 0 (b_size (f_b t))))) as J by (apply (Permutation_in _ (Permutation_sym (buckets_total c t l T))); exact I).
  apply in_flat_map in J as (m & Im & J). apply in_seq in Im. exists m. split; [unfold bucket_count; lia|]. exists (chainat (f_b t) m). split; [apply (local_ok c t l m T); lia|apply in_map; exact J].
Qed.
Lemma local_all t h : in_program t h -> exists ls, Forall2 (fun m l => local_elements t m = Some l) (seq 0 (N.to_nat (bucket_count (f_b t)))) ls /\ Permutation (map el (concat ls)) (elems t).
Proof.
  intros H. pose proof (prog_inv c t h H) as T. set (l := contents t) in *. unfold bucket_count. rewrite Nat2N.id. exists (map (chainat (f_b t)) (seq 0 (b_size (f_b t)))). split.
  - assert (forall i, In i (seq 0 (b_size (f_b t))) -> i < b_size (f_b t)) as Ls by (intros i J; apply in_seq in J; lia). induction (seq 0 (b_size (f_b t))) as [|i r IH]; constructor; [apply (local_ok c t l i T); apply Ls; left; reflexivity|apply IH; intros j J; apply Ls; right; exact J].
  - rewrite (elems_inv c t l T). apply Permutation_map. rewrite <- flat_map_concat_map. apply (buckets_total c t l T).
Qed.

(** *** no rehashing while there is room *)
Lemma insert_no_rehash t h o n v s' n' : in_program_arena t h -> pre1 c o t -> strong1 o -> exec1 c o (t, h) n = Ret v s' n' -> (f_size t + 1 <= max_load_for (f_mlf t) (bucket_count (f_b t)))%N -> bucket_count (f_b (fst s')) = bucket_count (f_b t).
Proof.
  intros H Hp So E L. destruct (arena_program t h H) as [HP M]. destruct (prog_si c t h HP) as (r & I). pose proof (insert_cases c t h r o n I Hp So) as X. rewrite E in X.
  destruct X as [[X|[_ [X _]]]|(hint & y & it & (l0 & l' & P & _ & S' & F & _ & B) & G)]; cbn [fst] in *; [rewrite X; reflexivity|exact X|]. apply B. rewrite M. exact L.
Qed.
Lemma ml_one bc : (bc < 2 ^ 53)%N -> max_load_for (Some f32_one) bc = bc.
Proof.
  intros L. unfold max_load_for. destruct (N.eqb_spec bc 0) as [->|Z]; [reflexivity|]. rewrite f64_int_exact by lia. unfold f64_mul, f64_of_f32, f32_one.
  assert (fround 53 1074 (2 ^ 149 * 2 ^ (1074 - 149) * (Z.of_N bc * 2 ^ 1074)) (2 ^ 1074 * 2 ^ 1074) = Z.of_N bc * 2 ^ 1074)%Z as ->.
  { transitivity (fround 53 1074 (Z.of_N bc) 1); [|apply fround_exact_int; lia]. assert (2 ^ 149 * 2 ^ (1074 - 149) = 2 ^ 1074)%Z as -> by reflexivity. assert (0 < 2 ^ 1074)%Z as P by reflexivity. set (e := (2 ^ 1074)%Z) in *. clearbody e.
    apply Z.le_antisymm; apply fround_mono; try lia; try (apply Z.eq_le_incl; ring); repeat apply Z.mul_nonneg_nonneg; try lia; repeat apply Z.mul_pos_pos; lia. }
  unfold to_size. rewrite Z.pow_add_r by lia. destruct (Z.leb_spec (2 ^ 64 * 2 ^ 1074) (Z.of_N bc * 2 ^ 1074)) as [X|X]; [|rewrite Z.div_mul by (vm_compute; discriminate); lia].
  exfalso. apply Z.mul_le_mono_pos_r in X; [lia|reflexivity].
Qed.
Lemma default_no_rehash t h o n v s' n' : in_program_arena t h -> pre1 c o t -> strong1 o -> f_mlf t = Some f32_one -> exec1 c o (t, h) n = Ret v s' n' -> (f_size t < bucket_count (f_b t))%N -> bucket_count (f_b (fst s')) = bucket_count (f_b t).
Proof.
  intros H Hp So Em E L. apply (insert_no_rehash t h o n v s' n' H Hp So E). pose proof (bc_bound _ _ (ci_b _ _ _ (ti_c _ _ _ (prog_inv c t h (proj1 (arena_program t h H)))))) as B. rewrite Em, ml_one by lia. lia.
Qed.

(** *** C29 *)
Lemma insert_exn t h o n k s' n' : in_program t h -> pre1 c o t -> strong1 o -> exec1 c o (t, h) n = Exn k s' n' ->
  raised k /\ in_program (fst s') (snd s') /\ ((k <> KHash \/ (f_size t + 1 <= f_ml t)%N) -> fst s' = t /\ live (snd s') = live h) /\
  exists lost, Permutation (elems t) (lost ++ elems (fst s')) /\ live h = live (snd s') + length lost.
Proof.
  intros H Hp So E. destruct (prog_si c t h H) as (r & I). pose proof (insert_cases c t h r o n I Hp So) as X. rewrite E in X. pose proof (step1 c t h o n H Hp) as Q. rewrite E in Q. destruct Q as (Q & _).
  destruct X as (Rk & l' & lost & S' & P & F & Kp). split; [exact Rk|]. split; [exact Q|]. split.
  - intros Y. cbn [fst snd] in *. destruct (Kp Y) as ((K1 & K2 & _) & _ & _). auto.
  - exists (map el lost). rewrite (elems_inv c t _ (si_t _ _ _ _ I)), (elems_inv c (fst s') l' (si_t _ _ _ _ S')). split; [rewrite <- map_app; apply Permutation_map; exact P|].
    pose proof (si_live _ _ _ _ I) as L1. pose proof (si_live _ _ _ _ S') as L2. cbn [snd] in L1. apply Permutation_length in P. rewrite app_length in P. rewrite map_length. lia.
Qed.
Lemma rehash_exn t h n m k s' n' : in_program t h -> exec1 c (Rehash n) (t, h) m = Exn k s' n' ->
  raised k /\ in_program (fst s') (snd s') /\ ((k = KAlloc /\ s' = (t, h)) \/ (k = KHash /\ bucket_count (f_b (fst s')) = bucket_count (f_b t) /\ exists lost, Permutation (elems t) (lost ++ elems (fst s')) /\ live h = live (snd s') + length lost)).
Proof.
  intros H E. destruct (prog_si c t h H) as (r & I). pose proof (si_t _ _ _ _ I) as T. cbn [fst] in T. pose proof (step1 c t h (Rehash n) m H Logic.I) as Q. rewrite E in Q. destruct Q as (Q & _).
  pose proof (prog_live t h r I) as Lv. pose proof (rehash_ok c t h (contents t) n m T Lv) as X. cbn [exec1] in E. unfold bind in E.
  destruct (rehash c n (t, h) m) as [[] s1 n1|k1 s1 n1|]; try discriminate. injection E as -> -> _. cbn [outcome] in X. destruct X as (Rk & X). split; [exact Rk|]. split; [exact Q|].
  destruct X as [X|(-> & t' & l' & lost & -> & T' & P & _ & _ & B)]; [left; exact X|right]. cbn [fst snd live] in *. split; [reflexivity|]. split; [exact B|]. exists (map el lost). rewrite (elems_inv c t _ T), (elems_inv c t' l' T'), map_length.
  split; [rewrite <- map_app; apply Permutation_map; exact P|]. apply Permutation_length in P. rewrite app_length in P. lia.
Qed.

(** *** C27 *)
Lemma erase_keeps t h o n v s' n' : in_program t h -> pre1 c o t -> removes o -> exec1 c o (t, h) n = Ret v s' n' ->
  in_program (fst s') (snd s') /\ FcaSpec.spec1 (keqf cb) (multi c) (f_pid t) o (elems t) (Done v) (elems (fst s')) /\ bucket_count (f_b (fst s')) = bucket_count (f_b t) /\
  forall (e : nat * (K * V)) j it, nth_it t j = Some it -> nth_error (elems t) j = Some e -> In e (elems (fst s')) -> exists j', nth_it (fst s') j' = Some it /\ nth_error (elems (fst s')) j' = Some e.
Proof.
  intros H Hp Ro E. pose proof (step1 c t h o n H Hp) as Q. rewrite E in Q. destruct Q as (Q & S1 & _ & Hh). pose proof (erase_same_bc c t h o n H Hp Ro) as B. rewrite E in B. cbn [ends] in B. unfold same_bc in B. cbn [fst] in B.
  split; [exact Q|]. split; [exact S1|]. split; [exact B|]. intros e j it A1 A2 A3. apply (iterators_stay c t (fst s') h (snd s') e j it H Q Hh B A1 A2 A3).
Qed.

(** *** lookups change nothing *)
Definition reads (o : op1 K V) : Prop := match o with Find _ | At _ | Count _ | Contains _ | EqualRange _ | Iterate | Size => True | _ => False end.
Lemma reads_same t h o n : in_program t h -> reads o -> ends (exec1 c o (t, h) n) (fun s' => s' = (t, h)).
Proof.
  intros H Ro. pose proof (prog_inv c t h H) as T. set (l := contents t) in *.
  assert (forall kd (s' : St), RO c (t, h) kd s' -> s' = (t, h)) as RO1 by (intros kd s' X; apply X).
  destruct o; try destruct Ro; cbn [exec1]; rewrite get_t_eq.
  - eapply ends_bind; [apply (find_ok c t l k (t, h) n T)| |exact RO1]. cbv beta. intros it s' n' [-> _]. apply ends_deref_opt. reflexivity.
  - eapply ends_bind; [apply (find_ok c t l k (t, h) n T)| |exact RO1]. cbv beta. intros it s' n' [-> _]. apply ends_deref_opt. reflexivity.
  - eapply ends_bind; [apply (group_count_ok c t l k (t, h) n T)| |exact RO1]. cbv beta. intros it s' n' [-> _]. reflexivity.
  - eapply ends_bind; [apply (find_ok c t l k (t, h) n T)| |exact RO1]. cbv beta. intros it s' n' [-> _]. reflexivity.
  - eapply ends_bind; [apply (equal_range_ok c t l k (t, h) n T)| |exact RO1]. cbv beta. intros it s' n' [-> _]. reflexivity.
  - destruct (elements t); cbn [of_option]; [rewrite bind_ret; reflexivity|exact Logic.I].
  - reflexivity.
Qed.
(** extraction *)
Lemma slot_push w i (o : option node) : slot (MW (tabs w) (hands w ++ [o]) (hp w)) i = slot w i. Proof. reflexivity. Qed.
Lemma extract_keeps rs w i t o n v w' n' : runs c rs w -> slot w i = Some t -> (exists k, o = ExtractKey i k) \/ (exists m, o = ExtractNth i m) -> pre c o w -> exec c o w n = Ret v w' n' ->
  exists t', slot w' i = Some t' /\ runs c (rs ++ [(o, Done v)]) w' /\ bucket_count (f_b t') = bucket_count (f_b t) /\ hp w' = hp w /\
  forall (e : nat * (K * V)) j it, nth_it t j = Some it -> nth_error (elems t) j = Some e -> In e (elems t') -> exists j', nth_it t' j' = Some it /\ nth_error (elems t') j' = Some e.
Proof.
  intros R Hs Ho P E. assert (runs c (rs ++ [(o, Done v)]) w') as R' by (apply (runs_snoc c _ rs w o n (Done v) w' R P Logic.I); rewrite E; split; reflexivity).
  assert (in_program t (hp w)) as HP by (exists rs, w, i; auto). destruct (prog_si c t (hp w) HP) as (r & I). pose proof (si_t _ _ _ _ I) as T. cbn [fst] in T.
  assert (exists t' hands', w' = MW (FcaSpec.set (tabs w) i (Some t')) hands' (hp w) /\ SameB (t, hp w) (t', hp w)) as (t' & hands' & -> & SB).
  { destruct Ho as [(k & ->)|(m & ->)]; cbn [exec] in E.
    - unfold bind in E at 1. unfold run1 in E. rewrite Hs in E. pose proof (extract_key_ok c r (t, hp w) (contents t) k n I) as Q. destruct (extract_key c k (t, hp w) n) as [ob [t1 h1] n1|kd s1 n1|]; cbn [outcome] in Q; try discriminate.
      cbn [fst snd] in *. rewrite push_hand_eq in E. injection E as _ <- _. destruct (FcaTab.lookup c (f_pid t) k (contents t)) as [z|].
      + destruct Q as (_ & l1 & l2 & _ & _ & SB & Eh & _). cbn [snd] in Eh. subst h1. exists t1, (hands w ++ [ob]). split; [reflexivity|exact SB].
      + destruct Q as (_ & Q). injection Q as -> ->. exists t, (hands w ++ [ob]). split; [reflexivity|apply SameB_refl].
    - unfold bind in E at 1. unfold run1 in E. rewrite Hs in E. destruct P as (t0 & Hs0 & Lm). assert (t0 = t) as -> by congruence. rewrite (ti_size _ _ _ T) in Lm.
      destruct (it_at_ok c r (t, hp w) (contents t) m (fun it => extract_at it) n I ltac:(lia)) as (it & Ph & Eit). rewrite Eit in E. cbn [fst] in Ph.
      destruct (nth_error (contents t) m) as [y|] eqn:Ey; [|apply nth_error_None in Ey; lia]. pose proof (pos_node _ _ _ _ _ Ph Ey) as Ny. destruct (nth_error_split _ m Ey) as (l1 & l2 & El & Ll). rewrite El in I.
      pose proof (extract_at_ok c r (t, hp w) l1 y l2 it n (fun _ _ => False) I Ny) as Q. destruct (extract_at it (t, hp w) n) as [x1 [t1 h1] n1|kd s1 n1|]; cbn [outcome] in Q; [|destruct Q|destruct Q].
      destruct Q as (-> & _ & SB & Eh & _). cbn [fst snd] in *. subst h1. rewrite push_hand_eq in E. injection E as _ <- _. exists t1, (hands w ++ [Some y]). split; [reflexivity|exact SB]. }
  assert (slot (MW (FcaSpec.set (tabs w) i (Some t')) hands' (hp w)) i = Some t') as Hs'. { pose proof (put_slot w i (Some t') (hp w) i t Hs) as X. rewrite Nat.eqb_refl in X. exact X. }
  exists t'. split; [exact Hs'|]. split; [exact R'|]. destruct SB as (Bc & _ & _ & (Sh & _)). cbn [fst] in *. split; [exact Bc|]. split; [reflexivity|]. intros e j it A1 A2 A3.
  apply (iterators_stay c t t' (hp w) (hp w) e j it HP); try assumption. exists (rs ++ [(o, Done v)]), (MW (FcaSpec.set (tabs w) i (Some t')) hands' (hp w)), i. auto.
Qed.

(** *** C28 *)
Lemma equal_iff rs w i j t x eeq n v w' n' : runs c rs w -> slot w i = Some t -> slot w j = Some x -> pre c (Equal i j eeq) w -> exec c (Equal i j eeq) w n = Ret v w' n' ->
  w' = w /\ exists b, v = VBool b /\ (b = true <-> exists l', Permutation (elems x) l' /\ Forall2 (fun a d => keqf cb (f_pid x) (key a) (key d) = true /\ eeq (snd a) (snd d) = true) (elems t) l').
Proof.
  intros R Hi Hj P E. pose proof (exec_ok c w (Equal i j eeq) n (proj1 (runs_ok c _ _ _ R)) P) as Q. rewrite E in Q. cbn [outcome] in Q. destruct Q as (_ & S & _). cbn [spec] in S. destruct S as (a & b & A & B & _ & S).
  pose proof (look_at w i t Hi) as La. pose proof (look_at w j x Hj) as Lb. unfold is_at in *. assert (a = look t) as -> by congruence. assert (b = look x) as -> by congruence.
  split.
  - cbn [exec] in E. rewrite bind_get, Hi in E. cbn [of_option] in E. rewrite bind_ret, Hj in E. cbn [of_option] in E. rewrite bind_ret in E.
    pose proof (inv_in c w i t (proj1 (runs_ok c _ _ _ R)) Hi) as T. pose proof (inv_in c w j x (proj1 (runs_ok c _ _ _ R)) Hj) as Tx.
    destruct P as (t0 & x0 & E1 & E2 & Ep & Hm). assert (t0 = t) as -> by congruence. assert (x0 = x) as -> by congruence.
    unfold bind in E. destruct (equal_tables c eeq t x w n) as [b w1 n1|kd w1 n1|] eqn:Eq; try discriminate. injection E as _ <- _.
    unfold equal_tables in Eq. destruct (multi c) eqn:Mu.
    + destruct (Hm eq_refl) as (E3 & E4 & E5 & E6). pose proof (equals_equiv_ok c eeq E3 E4 E5 t x _ _ w n T Tx Ep E6) as Q. rewrite Eq in Q. apply Q.
    + pose proof (equals_unique_ok c eeq t x _ _ w n T Tx) as Q. rewrite Eq in Q. apply Q.
  - destruct v; try destruct S. exists b. split; [reflexivity|]. split; assumption.
Qed.

(** *** C48 *)
Lemma merge_self_step r : forall rounds s l n, multi c = true -> SI r s l -> l <> [] -> outcome (merge_self c rounds s n) (fun b s' => b = false /\ exists l', SI r s' l' /\ Permutation l l') (fun kd _ => raised kd).
Proof.
  induction rounds as [|k IH]; intros s l n Mu I Nl; cbn [merge_self]; [split; [reflexivity|eauto]|].
  destruct s as [t h]. pose proof (si_t _ _ _ _ I) as T. cbn [fst] in T. rewrite get_t_eq. destruct l as [|y l]; [contradiction|].
  destruct (N.eqb_spec (f_size t) 0) as [Z|_]; [rewrite (ti_size _ _ _ T) in Z; cbn [length] in Z; lia|].
  destruct (table_begin t _ (ci_b _ _ _ (ti_c _ _ _ T)) (ti_size _ _ _ T)) as (it & E & P). rewrite E. cbn [of_option]. rewrite bind_ret.
  assert (NIt (f_b t) y it) as Ny by exact P. pose proof (si_next _ _ _ _ I) as Nx. inversion Nx as [|? ? Nx1 _]. subst. cbn [snd] in Nx1.
  pose proof (al_in c t _ y T (or_introl eq_refl)) as Al. pose proof (ci_ids _ _ _ (ti_c _ _ _ T)) as ND. inversion ND as [|? ? ND1 _]. subst.
  assert (FcaIns2.room l 1) as Rm. { pose proof (ti_room _ _ _ T) as R. unfold FcaIns2.room in *. cbn [length] in R. lia. }
  eapply outcome_bind; [apply (extract_at_ok c r (t, h) [] y l it n (fun kd _ => raised kd) I Ny)|]. cbv beta. intros y' s1 n1 (-> & I1 & SB & Eh & _). cbn [app] in I1.
  destruct SB as (_ & _ & _ & (_ & _ & Sal & _)). cbn [fst] in Sal.
  unfold bind, on_exn. pose proof (insert_handle_equiv_ok c r s1 l y n1 I1) as Q. assert (InHand s1 l y) as IH1 by (split; [congruence|split; [exact ND1|rewrite Eh; exact Nx1]]). specialize (Q IH1 Mu Rm).
  destruct (insert_handle_equiv c y s1 n1) as [p s' n'|kd s' n'|]; cbn [outcome] in *; [| |exact Q].
  - destruct Q as (_ & ho & _ & l0 & l' & P2 & IA & I' & F & _). pose proof (Inserted_perm _ _ _ (InsAt_ins _ _ _ _ IA)) as Pi. assert (Permutation (y :: l) l') as PL by (rewrite Pi; constructor; exact P2).
    eapply outcome_weaken; [apply (IH s' l' n' Mu I')| |auto].
    + intros ->. apply Permutation_sym, Permutation_nil in PL. discriminate.
    + cbv beta. intros b s2 (Eb & l2 & I2 & P3). split; [exact Eb|]. exists l2. split; [exact I2|]. rewrite PL. exact P3.
  - destruct Q as (R & l' & lost & I' & P2 & F & NL). pose proof F as ((_ & _ & Fal & _) & _ & Fnx). pose proof (si_live _ _ _ _ I') as Lv'.
    destruct s' as [t' h']. cbn [fst snd] in *. rewrite delete_node_ok by (cbn [fst snd]; try lia; congruence). exact R.
Qed.
End Props2.
