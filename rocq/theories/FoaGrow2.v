(** Growth of the open-addressing containers: bounds on bucket_count(). *)
From Coq Require Import NArith ZArith Bool List Arith Lia ZifyBool ZifyNat ZifyN Permutation.
From Verif Require Import FloatModel FloatProofs SizeModel SizeProofs GroupModel GroupSpec FoaModel FoaGroup FoaBase FoaFind FoaArr FoaInv FoaRehash FoaOps FoaCopy FoaAssign FoaMerge FoaIterModel FoaIter FoaSpec FoaWorld FoaApi FoaRun FoaProps FoaProps2 FoaProps3 GrowSpec FoaGrow.
Import ListNotations.
Local Open Scope N_scope.

Section F.
Local Open Scope Z_scope.
(** rounding adds at most one part in 2^24, or half of the smallest float *)
Lemma fround_upper num den : 0 <= num -> 0 < den -> fround 24 149 num den * den * 2 ^ 24 <= num * 2 ^ 149 * (2 ^ 24 + 1) + den * 2 ^ 23.
Proof.
  intros Hn Hd. unfold fround. set (X := num * 2 ^ 149). set (s := Z.max 0 (Z.log2 (X / den) - (24 - 1))).
  assert (0 <= X) as HX by (unfold X; apply Z.mul_nonneg_nonneg; [exact Hn|vm_compute; discriminate]). clearbody X.
  assert (0 <= s) as Hs by (unfold s; lia). assert (0 < 2 ^ s) as Ps by (apply Z.pow_pos_nonneg; lia).
  destruct (rne_bounds X (den * 2 ^ s) ltac:(apply Z.mul_pos_pos; lia)) as [L _]. set (r := rne X (den * 2 ^ s)) in *. clearbody r.
  assert (den * 2 ^ s * 2 ^ 23 <= X + den * 2 ^ 23) as U.
  { destruct (Z.eq_dec s 0) as [-> |Ne]; [change (2 ^ 0) with 1; lia|].
    assert (s = Z.log2 (X / den) - 23) as Es by (unfold s in *; lia). clearbody s.
    assert (0 < X / den) as Q. { destruct (Z_lt_le_dec 0 (X / den)) as [P|P]; [exact P|]. exfalso. rewrite (Z.log2_nonpos _ P) in Es. lia. }
    pose proof (Z.log2_spec _ Q) as [P _]. replace (Z.log2 (X / den)) with (s + 23) in P by lia. rewrite Z.pow_add_r in P by lia.
    pose proof (Z.mul_div_le X den Hd) as D. nia. }
  replace (r * 2 ^ s * den * 2 ^ 24) with (2 ^ 23 * (2 * (den * 2 ^ s) * r)) by (change (2 ^ 24) with (2 ^ 23 * 2); ring).
  change (2 ^ 24) with 16777216. change (2 ^ 23) with 8388608 in *. lia.
Qed.
Lemma ceil_le x : f32_ceil x * 2 ^ 149 < x + 2 ^ 149.
Proof. unfold f32_ceil. pose proof (Z.div_mod (- x) (2 ^ 149) ltac:(discriminate)). pose proof (Z.mod_pos_bound (- x) (2 ^ 149) ltac:(reflexivity)). lia. Qed.
End F.
Lemma ceil_div_mlf_upper n : 7 * 2 ^ 22 * ceil_div_mlf n <= (8 * 2 ^ 22 + 8) * n + 8 * 2 ^ 22.
Proof.
  unfold ceil_div_mlf. set (a := f32_of_int (Z.of_N n)). set (q := f32_div a mlf32).
  assert (0 <= a)%Z as Ha by (apply f32_of_int_nonneg; lia).
  pose proof (fround_upper (Z.of_N n) 1 ltac:(lia) ltac:(lia)) as U1. fold (f32_of_int (Z.of_N n)) in U1. fold a in U1.
  pose proof (fround_upper a mlf32 Ha ltac:(reflexivity)) as U2. fold (f32_div a mlf32) in U2. fold q in U2.
  pose proof (ceil_le q) as U3. set (r := f32_ceil q) in *. clearbody r q a.
  apply N2Z.inj_le. rewrite N2Z.inj_add, !N2Z.inj_mul, N2Z.inj_add.
  change (Z.of_N (8 * 2 ^ 22)) with 33554432%Z. change (Z.of_N 8) with 8%Z. change (Z.of_N (2 ^ 22)) with 4194304%Z. change (Z.of_N 7) with 7%Z.
  assert (7 * 4194304 * r <= (33554432 + 8) * Z.of_N n + 33554432)%Z as G; [|lia].
  assert (0 <= Z.of_N n)%Z as Hn by lia. generalize dependent (Z.of_N n). intros z U1 Hz.
  unfold mlf32 in U2. revert U1 U2 U3. clear - Hz. 
  change (2 ^ 146)%Z with 89202980794122492566142873090593446023921664%Z. change (2 ^ 149)%Z with 713623846352979940529142984724747568191373312%Z.
  change (2 ^ 24)%Z with 16777216%Z. change (2 ^ 23)%Z with 8388608%Z. intros. lia.
Qed.
Lemma growth_capacity s : growth_request s < 2 ^ 64 -> capacity_for (growth_request s) = 29 \/ 3 * capacity_for (growth_request s) <= 7 * (s + 3).
Proof.
  intros L. destruct (N.lt_ge_cases (growth_request s) 30) as [S|G].
  - left. unfold capacity_for. rewrite groups_small by exact S. reflexivity.
  - right. destruct (groups_for_pow _ L) as (k & _ & _ & Eg & _ & H). specialize (H G). unfold capacity_for. rewrite Eg.
    unfold growth_request in *. pose proof (ceil_div_mlf_upper (s + s / 61 + 1)) as U.
    pose proof (N.mul_div_le s 61 ltac:(lia)) as D. set (m := ceil_div_mlf (s + s / 61 + 1)) in *. clearbody m.
    unfold GN. change (2 ^ 22) with 4194304 in U. set (d := s / 61) in *. clearbody d. clear L Eg. pose proof (pow2_pos k). lia.
Qed.
(** growth at most doubles the number of groups *)
Lemma double_check : forallb (fun k => groups_for (growth_request (initial_max_load (15 * 2 ^ k - 1))) <=? 2 * 2 ^ k) ks = true.
Proof. vm_compute. reflexivity. Qed.
Lemma full_check : forallb (fun k => 3 * initial_max_load (15 * 2 ^ k - 1) <=? 2 * initial_max_load (capacity_for (growth_request (initial_max_load (15 * 2 ^ k - 1))))) (map N.of_nat (seq 1 58)) = true.
Proof. vm_compute. reflexivity. Qed.
Lemma growth_mono a b : a <= b -> growth_request a <= growth_request b.
Proof. intros L. unfold growth_request. apply ceil_div_mlf_mono. pose proof (N.div_le_mono a b 61 ltac:(lia) L). lia. Qed.
Section Cap.
Context {K V : Type} (c : Cfg K V).
Hypothesis HC : good_cfg c.
Notation table := (table K V).
Lemma growth_doubles (t : table) : Inv c t -> capacity_for (growth_request (sz t)) <= N.max 29 (2 * cap t + 1).
Proof.
  intros H. pose proof (inv_bounds c t H) as (B1 & B2 & _). pose proof (i_ml _ _ H) as B3.
  destruct (i_arr _ _ H) as [E|(k & [HS _] & Hk)].
  - assert (sz t = 0) as -> by (rewrite E in B2; cbn in B2; lia). vm_compute (capacity_for (growth_request 0)). lia.
  - destruct (init_ml_shape _ _ HS) as [Ei _]. rewrite Ei in B3. pose proof (k_bound c k HC Hk) as K57. pose proof (sh_k _ _ HS) as Kk.
    pose proof double_check as C. rewrite forallb_forall in C. specialize (C k (in_ks k ltac:(lia))). apply N.leb_le in C.
    assert (growth_request (initial_max_load (15 * 2 ^ k - 1)) < 2 ^ 64) as L64.
    { unfold growth_request. apply (ceil_groups _ k); [lia|]. destruct (ml_table k ltac:(lia)) as [_ [_ M]]. set (x := initial_max_load _) in *.
      assert (x / 61 <= x / 15) by (apply N.div_le_compat_l; lia). pose proof (pow2_pos k).
      assert (x / 15 < 2 ^ k) by (apply N.div_lt_upper_bound; lia). lia. }
    destruct (groups_for_pow _ L64) as (k' & _ & _ & Eg & Hlt & _). rewrite Eg in C.
    pose proof (growth_mono (sz t) _ ltac:(exact (N.le_trans _ _ _ B1 B3))) as GM.
    unfold cap. destruct (cap_shape _ _ HS) as [-> _].
    assert (growth_request (sz t) < 2 ^ 64) as L by lia.
    pose proof (capacity_for_least (growth_request (sz t)) (k + 1) L ltac:(lia)) as X. rewrite N.add_1_r, N.pow_succ_r' in X.
    specialize (X ltac:(lia)). lia.
Qed.
Lemma change_cap (t t' : table) : Inv c t -> Inv c t' -> change t t' ->
  cap t' = cap t \/ (sz t = ml t /\ sz t' = sz t + 1 /\ cap t' <= N.max 29 (2 * cap t + 1) /\ (cap t' = 29 \/ 3 * cap t' <= 7 * (sz t' + 2))).
Proof.
  intros H H' [A B C|A B C|A B C D|A B C D F]; [left; exact C|left; exact C|left; exact D|right].
  split; [exact B|]. split; [exact A|]. rewrite D. split; [apply growth_doubles; exact H|].
  destruct (growth_ok c t HC H) as (_ & C1 & _ & _). destruct (growth_capacity (sz t) C1) as [E|E]; [left; exact E|right]. rewrite A. lia.
Qed.
Lemma uses_cap (P : table -> Prop) t0 i m t p : Inv c t0 -> (forall t, P t -> sz t <= p) -> uses c P t0 i m t -> cap t <= N.max (cap t0) (N.max 29 (7 * (p + 2) / 3)).
Proof.
  intros H HP U. induction U as [HP0|i m t o t' U IH S Pr (n & A) HP']; [lia|]. pose proof (uses_inv c HC P t0 i m t H U) as Ht.
  pose proof (single_change c HC t o n Ht Pr S) as X. specialize (HP t' HP').
  destruct (exec1 c o t n) as [v x n'|k x n'|]; [| |destruct A]; subst; destruct X as (Ht' & _ & X);
    (destruct (change_cap _ _ Ht Ht' X) as [->|(_ & _ & _ & [->|Y])]; [exact IH|lia|]);
    (assert (cap t' <= 7 * (p + 2) / 3) by (apply N.div_le_lower_bound; lia); lia).
Qed.
(** without erasures that lower max_load() *)
Definition undiminished (t : table) : Prop := ml t = initial_max_load (cap t).
Lemma full_growth (t t' : table) : Inv c t -> Inv c t' -> undiminished t -> sz t = ml t -> ml t' = init_ml (arr t') -> cap t' = capacity_for (growth_request (sz t)) -> 3 * sz t <= 2 * ml t'.
Proof.
  intros H H' U E Em Ec. rewrite Em. unfold init_ml. unfold cap in Ec. rewrite Ec. pose proof (inv_bounds c t H) as (B1 & B2 & _).
  destruct (i_arr _ _ H) as [E0|(k & [HS _] & Hk)].
  - assert (sz t = 0) as -> by (rewrite E0 in B2; cbn in B2; lia). lia.
  - unfold undiminished, cap in U. destruct (cap_shape _ _ HS) as [Ek _]. rewrite Ek in U. rewrite E, U. pose proof (k_bound c k HC Hk) as K57. pose proof (sh_k _ _ HS) as Kk.
    pose proof full_check as C. rewrite forallb_forall in C. apply N.leb_le, C. apply in_map_iff. exists (N.to_nat k). split; [lia|]. apply in_seq. lia.
Qed.
Lemma moved_full o t t' T I E : Inv c t -> Inv c t' -> undiminished t -> sz t <= ml t -> sz t' <= ml t' -> change t t' -> (inserts o = true -> sz t' < sz t -> sz t = ml t) ->
  T <= 3 * I + E -> T + sz t <= 3 * I + 2 * (ml t - sz t) + E ->
  T + moved o t t' <= 3 * (I + (sz t' - sz t)) + E /\ T + moved o t t' + sz t' <= 3 * (I + (sz t' - sz t)) + 2 * (ml t' - sz t') + E.
Proof.
  intros HI HI' HU B1 B2 X HF H1 H2. unfold moved, size, max_load.
  destruct X as [A B C|A B C|A B C D|A B C D F].
  - rewrite A, B, N.ltb_irrefl, N.sub_diag. destruct (inserts o); lia.
  - assert (sz t <? sz t' = false) as -> by (apply N.ltb_ge; exact A). destruct (inserts o).
    + specialize (HF eq_refl). clear - B1 B2 A B HF H1 H2. destruct (N.eq_dec (sz t') (sz t)) as [E0|E0]; [rewrite E0; lia|]. specialize (HF ltac:(lia)). lia.
    + clear - B1 B2 A B H1 H2. lia.
  - assert (sz t <? sz t' = true) as -> by (apply N.ltb_lt; lia). assert (sz t =? ml t = false) as -> by (apply N.eqb_neq; lia). destruct (inserts o); lia.
  - assert (sz t <? sz t' = true) as -> by (apply N.ltb_lt; lia). assert (sz t =? ml t = true) as -> by (apply N.eqb_eq; lia).
    pose proof (full_growth t t' HI HI' HU B C D) as Q.
    destruct (inserts o); clear - A B F Q H1 H2 B1; lia.
Qed.
Lemma uses_full (P : table -> Prop) t0 i m t : Inv c t0 -> (forall t, P t -> undiminished t) -> uses c P t0 i m t -> P t /\ m <= 3 * i + sz t0 /\ m + sz t <= 3 * i + 2 * (ml t - sz t) + sz t0.
Proof.
  intros H HP U. induction U as [|i m t o t' U IH S Pr (n & A) HP']; [split; [assumption|lia]|]. pose proof (uses_inv c HC P t0 i m t H U) as Ht. destruct (IH) as (Pt & I1 & I2).
  split; [exact HP'|].
  pose proof (single_change c HC t o n Ht Pr S) as X. pose proof (inv_bounds c t Ht) as (B1 & _ & _).
  destruct (exec1 c o t n) as [v x n'|k x n'|]; [| |destruct A]; subst; destruct X as (Ht' & HF & X); pose proof (inv_bounds c t' Ht') as (B2 & _ & _); apply moved_full; auto.
Qed.
End Cap.
