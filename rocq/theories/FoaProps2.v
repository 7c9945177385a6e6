(** More consequences of the refinement, as needed for the statements of Properties_Foa.v. *)
From Coq Require Import NArith ZArith Bool List Arith Lia ZifyBool ZifyNat ZifyN Permutation.
From Verif Require Import FloatModel SizeModel SizeProofs GroupModel GroupSpec FoaModel FoaGroup FoaBase FoaFind FoaArr FoaInv FoaRehash FoaOps FoaCopy FoaAssign FoaMerge FoaIterModel FoaIter FoaSpec FoaWorld FoaApi FoaRun FoaProps.
Import ListNotations.
Local Open Scope N_scope.

Section Props.
Context {K V : Type} (c : Cfg K V).
Hypothesis HC : good_cfg c.
Notation arrays := (arrays K V).
Notation table := (table K V).
Notation lookup := (lookup (V:=V) (keqf c)).
Notation add_all := (add_all (V:=V) (keqf c)).

Lemma rinv t : reachable c t -> Inv c t. Proof. apply reachable_inv. exact HC. Qed.

(** ** lookups change nothing *)
Definition read_only (o : op1 K V) : bool :=
  match o with Find _ | At _ | Count _ | Contains _ | EqualRange _ | Iterate | Size => true | _ => false end.
Lemma read_only_ok o (t : table) n : Inv c t -> read_only o = true ->
  match exec1 c o t n with Ret _ t' _ | Exn _ t' _ => t' = t | Undef => False end.
Proof.
  intros H Ho. pose proof (find_elem_ok c t) as FE.
  assert (forall A B (m : M table A) (f : A -> B), outcome (m t n) (fun _ t' => t' = t) (fun _ t' => t' = t) ->
    match bind m (fun a => ret (f a)) t n with Ret _ t' _ | Exn _ t' _ => t' = t | Undef => False end) as X.
  { intros A B m f Y. unfold bind, ret. destruct (m t n); exact Y. }
  assert (forall k, outcome (m_find c k t n) (fun _ t' => t' = t) (fun _ t' => t' = t)) as F1.
  { intros k. eapply outcome_weaken; [apply (FE k n H)| |]; intros ? ? Y; apply Y. }
  assert (forall A k (f : option (K * V) -> A), outcome (bind (m_find c k) (fun r => ret (f r)) t n) (fun _ t' => t' = t) (fun _ t' => t' = t)) as F2.
  { intros A k f. eapply outcome_bind; [apply F1|]. intros a s n' ->. reflexivity. }
  destruct o; try discriminate; cbn [exec1].
  - apply X, F1.
  - apply X, F2.
  - apply X, F2.
  - apply X, F2.
  - pose proof (equal_range_ok c t k n H) as Y. unfold bind at 1. destruct (m_equal_range c k t n) as [r t' n'|kd t' n'|]; cbn [outcome] in Y; [|apply Y|exact Y].
    destruct Y as (-> & m & m2 & A1 & A2 & L & _). rewrite bind_get. pose proof (cap_elems c t H) as CE. pose proof A2 as [L2 _]. unfold bind.
    rewrite (walk_ok c t t n' (snd r) m2 H A2 (S (N.to_nat (capacity (arr t)))) m (fst r) L A1 ltac:(lia)). reflexivity.
  - rewrite bind_get. unfold bind. rewrite (iterate_ok c t t n H). reflexivity.
  - reflexivity.
Qed.

(** ** rehash *)
Lemma rehash_post t n m : reachable c t -> size_ok c n ->
  match rehash c n t m with
  | Ret _ t' _ => n <= capacity (arr t') /\ sz t' = sz t /\ sz t' <= ml t' /\ Permutation (contents c t') (contents c t) /\
      (n = 0 -> contents c t = [] -> capacity (arr t') = 0)
  | Exn k t' _ => k = KAlloc /\ t' = t \/ k = KHash \/ k = KTransfer
  | Undef => False
  end.
Proof.
  intros R Hn. pose proof (rinv t R) as H. pose proof (rehash_ok c HC t n m H Hn) as X.
  destruct (rehash c n t m) as [u t' n'|kd t' n'|]; cbn [outcome] in X; [| |exact X].
  - destruct X as (I & Id & P & Es & Ec & Ln & _). rewrite !contents_eq by assumption. split; [exact Ln|]. split; [exact Es|]. split; [apply (i_szml _ _ I)|].
    split; [exact P|]. intros -> Ee. rewrite Ec, (i_sz _ _ H), Ee. reflexivity.
  - destruct X as [(-> & -> & _)|([-> | ->] & _)]; auto.
Qed.

(** rehash gives the smallest capacity, among those an array can have (15*2^k-1), that is not below what was asked for and holds the elements *)
Lemma capacity_for_least q k : q < 2 ^ 64 -> 1 <= k -> q <= 15 * 2 ^ k - 1 -> capacity_for q <= 15 * 2 ^ k - 1.
Proof.
  intros H Hk Hq. unfold capacity_for. destruct (groups_for_pow q H) as (j & Hj & Ej & -> & _ & Hl). unfold GN.
  assert (2 ^ j <= 2 ^ k) as L; [|lia]. apply N.pow_le_mono_r; [lia|].
  destruct (N.le_gt_cases 30 q) as [L|L].
  - specialize (Hl L). assert (2 ^ j < 2 ^ (k + 1)) as X by (rewrite N.pow_add_r; change (2 ^ 1) with 2; clear - Hl Hq L; lia).
    apply N.pow_lt_mono_r_iff in X; lia.
  - unfold size_index_for in Ej. assert (q / GN + 1 <= 2) as X by (unfold GN; assert (q / 15 < 2) by (apply N.div_lt_upper_bound; lia); lia).
    unfold size_index in Ej. destruct (N.leb_spec (q / GN + 1) 2); lia.
Qed.
Lemma rehash_least t n m u t' m' : reachable c t -> size_ok c n -> rehash c n t m = Ret u t' m' ->
  let q := N.max n (ceil_div_mlf (sz t)) in
  (q = 0 /\ capacity (arr t') = 0) \/
  (0 < q /\ q <= capacity (arr t') /\ (exists k, 1 <= k /\ capacity (arr t') = 15 * 2 ^ k - 1) /\ forall k, 1 <= k -> q <= 15 * 2 ^ k - 1 -> capacity (arr t') <= 15 * 2 ^ k - 1).
Proof.
  intros R Hn X q. pose proof (rinv t R) as H.
  pose proof (rehash_ok c HC t n m H Hn) as Y. rewrite X in Y. destruct Y as (_ & _ & _ & _ & Ec & _).
  unfold rehash_target in Ec. fold q in Ec. destruct (N.eqb_spec q 0) as [E|E]; [left; split; assumption|right].
  assert (q < 2 ^ 64) as Q1.
  { destruct (small_ceil c HC (sz t) (inv_small c t H)) as [C1 C2]. unfold q. destruct Hn. destruct (N.max_spec n (ceil_div_mlf (sz t))) as [[_ ->] | [_ ->]]; assumption. }
  rewrite Ec. split; [lia|]. split; [|split].
  - unfold capacity_for. destruct (groups_for_pow q Q1) as (j & Hj & Ej & -> & L & Hl). unfold GN. lia.
  - destruct (groups_for_pow q Q1) as (j & Hj & Ej & E2 & L & Hl). exists j. split; [lia|]. unfold capacity_for. rewrite E2. unfold GN. lia.
  - intros k Hk Hq. exact (capacity_for_least q k Q1 Hk Hq).
Qed.

(** ** reserve: containers without erasures since construction or clear *)
Definition no_erasure (o : op1 K V) : bool :=
  match o with
  | Insert _ | InsertRange _ | AssignList _ | InsertOrAssign _ _ | Index _ _ | Find _ | At _ | Count _ | Contains _ | EqualRange _
  | Clear | Rehash _ | Reserve _ | Iterate | Size => true
  | _ => false
  end.
Inductive clean : table -> Prop :=
| clean_new h p al n m t m' : agree c h p -> size_ok c n -> new_table c h p al n tt m = Ret t tt m' -> clean t
| clean_clear t m v t' m' : reachable c t -> exec1 c Clear t m = Ret v t' m' -> clean t'
| clean_rehash t k m v t' m' : reachable c t -> size_ok c k -> exec1 c (Rehash k) t m = Ret v t' m' -> capacity (arr t') <> capacity (arr t) -> clean t'
| clean_op t o m v t' m' : clean t -> no_erasure o = true -> pre1 c o t -> exec1 c o t m = Ret v t' m' -> clean t'.

Lemma ret_outcome {St A} (r : R St A) Q E a s n : outcome r Q E -> r = Ret a s n -> Q a s.
Proof. intros X ->. exact X. Qed.
Lemma inserted_cap (t t' : table) e i : Inv c t -> Inv c t' -> Inserted t t' e i -> capacity (arr t') = capacity (arr t).
Proof.
  intros H I B. unfold capacity. rewrite (in_mask _ _ _ _ B).
  destruct (i_arr _ _ H) as [E0|(k0 & [HS0 _] & _)].
  { pose proof (in_free _ _ _ _ B) as F. rewrite E0 in F. destruct i; discriminate. }
  rewrite (sh_elems _ _ HS0). destruct (i_arr _ _ I) as [E|(k & [HS _] & _)]; [|rewrite (sh_elems _ _ HS); reflexivity].
  pose proof (in_cells _ _ _ _ B) as Ec. rewrite E in Ec. cbn in Ec. exfalso.
  pose proof (f_equal (@length _) Ec) as Ec'. rewrite set_nth_len, (sh_cells _ _ HS0) in Ec'. pose proof (pow_nat_pos k0). cbn in Ec'. lia.
Qed.
Definition full (t : table) : Prop := Inv c t /\ ml t = init_ml (arr t).
Lemma insert_full t e n r t' n' : full t -> m_insert c e t n = Ret r t' n' -> full t'.
Proof.
  intros [H E] X. pose proof (ret_outcome _ _ _ _ _ _ (emplace_impl_ok c KConstruct t e n HC H) X) as [I Id _ F T B A].
  split; [exact I|]. destruct (snd r).
  - destruct (N.lt_ge_cases (sz t) (ml t)) as [L|G]; [|apply A; auto].
    specialize (B eq_refl L). rewrite (in_ml _ _ _ _ B), E. unfold init_ml. rewrite (inserted_cap _ _ _ _ H I B). reflexivity.
  - destruct (F eq_refl) as [-> _]. exact E.
Qed.
Lemma insert_range_full es : forall t n u t' n', full t -> m_insert_range c es t n = Ret u t' n' -> full t'.
Proof.
  induction es as [|e es IH]; intros t n u t' n' F X; cbn [m_insert_range] in X; [injection X as <- <- <-; exact F|].
  unfold bind in X. destruct (m_insert c e t n) as [r t1 n1|k t1 n1|] eqn:E1; try discriminate. eapply IH; [eapply insert_full; eauto|exact X].
Qed.
Lemma clear_full t n u t' n' : Inv c t -> clear t n = Ret u t' n' -> full t'.
Proof. intros H X. pose proof (ret_outcome _ _ _ _ _ _ (clear_ok c t n (inv_w c t H)) X) as (I & _ & _ & E & _). split; assumption. Qed.
Lemma full_op t o m v t' m' : full t -> no_erasure o = true -> pre1 c o t -> exec1 c o t m = Ret v t' m' -> full t'.
Proof.
  intros F Ho P X. pose proof F as [H E].
  assert (read_only o = true -> full t') as RO.
  { intros Hr. pose proof (read_only_ok o t m H Hr) as Y. rewrite X in Y. subst. exact F. }
  destruct o; try discriminate; try (apply RO; reflexivity); cbn [exec1] in X.
  - unfold bind at 1 in X. destruct (m_insert c e t m) as [r t1 n1|k t1 n1|] eqn:E1; try discriminate. apply insert_full in E1; [|exact F].
    rewrite bind_get in X. unfold bind in X. unfold read_at, read_element in X. destruct (get_cell _ _) as [[| |x]|]; try discriminate. cbn in X. injection X as <- <- <-. exact E1.
  - unfold bind in X. destruct (m_insert_range c l t m) as [r t1 n1|k t1 n1|] eqn:E1; try discriminate. apply insert_range_full in E1; [|exact F].
    cbn in X. injection X as <- <- <-. exact E1.
  - unfold m_assign_list in X. rewrite bind_bind in X. unfold bind in X. destruct (clear t m) as [r t1 n1|k t1 n1|] eqn:E1; try discriminate.
    apply clear_full in E1; [|exact H]. destruct (m_insert_range c l t1 n1) as [r' t2 n2|k t2 n2|] eqn:E2; try discriminate. apply insert_range_full in E2; [|exact E1].
    cbn in X. injection X as <- <- <-. exact E2.
  - pose proof (insert_ok c HC t (k, v0) m H) as Y. unfold m_insert_or_assign in X. unfold bind in X.
    destruct (m_insert c (k, v0) t m) as [[[g s] b] t1 n1|kd t1 n1|] eqn:E1; try discriminate. cbn [outcome fst snd] in Y.
    apply insert_full in E1 as F1; [|exact F]. destruct b.
    + cbn in X. injection X as <- <- <-. exact F1.
    + destruct Y as (I & _ & x & Hc & _). unfold get in X. unfold read_element in X.
      destruct (i_arr _ _ I) as [E0|(k0 & [HS _] & _)]; [rewrite E0 in Hc; destruct (slot_index g s); discriminate|].
      rewrite (get_cell_eq k0), Hc in X by exact HS. cbn [ret] in X. unfold tick in X. destruct (throws c KConstruct n1); [discriminate|].
      unfold on_arr, lens in X. rewrite (put_cell_eq k0) in X by (auto; apply nth_error_Some; congruence). cbn in X. injection X as <- <- <-.
      destruct (replace_inv c t1 _ x v0 I Hc) as (I' & _ & _). split; [exact I'|]. destruct F1 as [_ F1]. cbn [set_arr ml arr]. rewrite F1.
      destruct (init_ml_shape _ _ HS) as [-> _], (init_ml_shape _ _ (shape_upd_cell _ _ (slot_index g s) (Live (fst x, v0)) HS)) as [-> _]. reflexivity.
  - unfold m_index in X. unfold bind in X. destruct (m_insert c (k, dv) t m) as [r t1 n1|kd t1 n1|] eqn:E1; try discriminate. apply insert_full in E1; [|exact F].
    unfold get, read_element in X. destruct (get_cell _ _) as [[| |x]|]; try discriminate. cbn in X. injection X as <- <- <-. exact E1.
  - unfold bind in X. destruct (clear t m) as [r t1 n1|k t1 n1|] eqn:E1; try discriminate. apply clear_full in E1; [|exact H]. cbn in X. injection X as <- <- <-. exact E1.
  - unfold bind in X. destruct (rehash c n t m) as [r t1 n1|k t1 n1|] eqn:E1; try discriminate. cbn in X. injection X as <- <- <-.
    pose proof (ret_outcome _ _ _ _ _ _ (rehash_ok c HC t n m H P) E1) as (I & _ & _ & _ & _ & _ & _ & [-> |Em]); [exact F|split; assumption].
  - unfold bind in X. destruct (reserve c n t m) as [r t1 n1|k t1 n1|] eqn:E1; try discriminate. cbn in X. injection X as <- <- <-.
    pose proof (ret_outcome _ _ _ _ _ _ (reserve_ok c HC t n m H P) E1) as (I & _ & _ & _ & _ & [-> |Em] & _); [exact F|split; assumption].
Qed.
Lemma clean_full t : clean t -> full t.
Proof.
  induction 1 as [h p al n m t m' A S X|t m v t' m' R X|t k m v t' m' R S X Nc|t o m v t' m' _ IH Ho P X].
  - pose proof (ret_outcome _ _ _ _ _ _ (new_table_ok c HC h p al n tt m A S) X) as (_ & I & _ & _ & _ & _ & _ & E & _). split; assumption.
  - pose proof (rinv t R) as H. cbn [exec1] in X. unfold bind in X. destruct (clear t m) as [r t1 n1|k t1 n1|] eqn:E1; try discriminate. apply clear_full in E1; [|exact H]. cbn in X. injection X as <- <- <-. exact E1.
  - pose proof (rinv t R) as H. cbn [exec1] in X. unfold bind in X. destruct (rehash c k t m) as [r t1 n1|k' t1 n1|] eqn:E1; try discriminate. cbn in X. injection X as <- <- <-.
    pose proof (ret_outcome _ _ _ _ _ _ (rehash_ok c HC t k m H S) E1) as (I & _ & _ & _ & _ & _ & _ & [-> |Em]); [congruence|split; assumption].
  - eapply full_op; eauto.
Qed.
(** inserting up to the maximum load does not touch the arrays *)
Lemma insert_range_below es : forall (t : table) n, Inv c t -> sz t + N.of_nat (length es) <= ml t ->
  match m_insert_range c es t n with
  | Ret _ t' _ | Exn _ t' _ => capacity (arr t') = capacity (arr t) /\ ml t' = ml t /\ forall i x, stored t i x -> stored t' i x
  | Undef => False
  end.
Proof.
  induction es as [|e es IH]; intros t n H L; cbn [m_insert_range].
  - cbn [ret]. auto.
  - cbn [length] in L. unfold bind. pose proof (emplace_impl_ok c KConstruct t e n HC H) as X. unfold m_insert.
    destruct (emplace_impl c KConstruct e t n) as [[l b] t' n'|kd t' n'|]; cbn [outcome fst snd] in X; [| |destruct X].
    + destruct X as [I Id _ F T B _]. assert (capacity (arr t') = capacity (arr t) /\ ml t' = ml t /\ sz t' <= sz t + 1 /\ forall i x, stored t i x -> stored t' i x) as (Y1 & Y2 & Y3 & Y4).
      { destruct b.
        - specialize (B eq_refl ltac:(lia)). split; [eapply inserted_cap; eauto|]. split; [apply (in_ml _ _ _ _ B)|]. split; [rewrite (in_sz _ _ _ _ B); lia|].
          intros i x Hi. unfold stored in *. rewrite (in_cells _ _ _ _ B), set_nth_err.
          + destruct (Nat.eqb_spec i (slot_index (fst l) (snd l))) as [->|]; [|exact Hi]. rewrite (in_free _ _ _ _ B) in Hi. discriminate.
          + apply nth_error_Some. rewrite (in_free _ _ _ _ B). discriminate.
        - destruct (F eq_refl) as [-> _]. split; [reflexivity|]. split; [reflexivity|]. split; [lia|auto]. }
      specialize (IH t' n' I ltac:(lia)). destruct (m_insert_range c es t' n') as [u t2 n2|kd t2 n2|]; [| |exact IH];
        destruct IH as (Z1 & Z2 & Z3); (split; [congruence|]); (split; [congruence|]); auto.
    + destruct X as (I & Id & [[[Es Ex] _]|(_ & _ & C & _)]); [|lia].
      destruct (i_arr _ _ H) as [E0|(k0 & [HS0 _] & _)].
      { exfalso. pose proof (inv_bounds c t H) as (_ & B2 & _). rewrite E0 in B2. cbn in B2. lia. }
      rewrite Es. cbn [set_arr ml arr]. destruct Ex as (_ & _ & Em & Ec & _). unfold capacity, stored. cbn [set_arr arr]. rewrite Ec. split; [|split; [reflexivity|tauto]].
      rewrite Em. rewrite (sh_elems _ _ HS0). destruct (i_arr _ _ I) as [E|(k & [HS _] & _)]; [|rewrite (sh_elems _ _ HS); reflexivity].
      exfalso. rewrite E in Ec. cbn in Ec. pose proof (sh_cells _ _ HS0) as L0. rewrite <- Ec in L0. pose proof (pow_nat_pos k0). cbn in L0. lia.
Qed.
Lemma reserve_post t n m : clean t -> size_ok c (ceil_div_mlf n) ->
  match reserve c n t m with
  | Ret _ t' _ => n <= ml t' /\ Permutation (contents c t') (contents c t) /\
      forall es m2, sz t' + N.of_nat (length es) <= n ->
        match m_insert_range c es t' m2 with
        | Ret _ t2 _ | Exn _ t2 _ => capacity (arr t2) = capacity (arr t') /\ forall i x, stored t' i x -> stored t2 i x
        | Undef => False
        end
  | Exn k t' _ => k = KAlloc /\ t' = t \/ k = KHash \/ k = KTransfer
  | Undef => False
  end.
Proof.
  intros C Hn. destruct (clean_full t C) as [H E]. pose proof (reserve_ok c HC t n m H Hn) as X.
  destruct (reserve c n t m) as [u t' n'|kd t' n'|]; cbn [outcome] in X; [| |exact X].
  - destruct X as (I & Id & P & Es & Ec & _ & L). destruct (L E) as [Ln _]. rewrite !contents_eq by assumption. split; [exact Ln|]. split; [exact P|].
    intros es m2 Le. pose proof (insert_range_below es t' m2 I ltac:(lia)) as Y. destruct (m_insert_range c es t' m2); [| |exact Y]; destruct Y as (Y1 & _ & Y3); auto.
  - destruct X as [(-> & -> & _)|([-> | ->] & _)]; auto.
Qed.

(** ** copying, moving, swapping *)
Lemma copy_construct_post x al n : reachable c x ->
  match copy_construct c x al tt n with
  | Ret t _ _ => hid t = hid x /\ pid t = pid x /\ aid t = al /\ Permutation (contents c t) (contents c x) /\ sz t = sz x /\ sz t <= ml t
  | Exn k _ _ => k = KAlloc \/ k = KHash \/ k = KTransfer
  | Undef => False
  end.
Proof.
  intros R. pose proof (rinv x R) as H. pose proof (copy_construct_ok c HC x al tt n H) as X.
  destruct (copy_construct c x al tt n) as [t s n'|kd s n'|]; cbn [outcome] in X; [| |exact X].
  - destruct X as (_ & I & E1 & E2 & E3 & P). rewrite !contents_eq by assumption. do 4 (split; [assumption|]). split; [|apply (i_szml _ _ I)].
    rewrite (i_sz _ _ I), (i_sz _ _ H), (Permutation_length P). reflexivity.
  - destruct X as (_ & [[[-> | ->] _]|[-> _]]); auto.
Qed.
Lemma copy_assign_post x t n : reachable c x -> reachable c t ->
  match copy_assign c x t n with
  | Ret _ t' _ => hid t' = hid x /\ pid t' = pid x /\ aid t' = (if pocca c then aid x else aid t) /\ Permutation (contents c t') (contents c x) /\ sz t' = sz x /\ sz t' <= ml t'
  | Exn k t' _ => exists rest, Permutation (contents c x) (contents c t' ++ rest)
  | Undef => False
  end.
Proof.
  intros Rx Rt. pose proof (rinv x Rx) as Hx. pose proof (rinv t Rt) as H. pose proof (copy_assign_ok c HC x t n Hx H) as X.
  destruct (copy_assign c x t n) as [u t' n'|kd t' n'|]; cbn [outcome] in X; [| |exact X].
  - destruct X as (I & E1 & E2 & E3 & P). rewrite !contents_eq by assumption. do 4 (split; [assumption|]). split; [|apply (i_szml _ _ I)].
    rewrite (i_sz _ _ I), (i_sz _ _ Hx), (Permutation_length P). reflexivity.
  - destruct X as (_ & I & _ & _ & _ & rest & P). rewrite !contents_eq by assumption. eauto.
Qed.
Lemma move_construct_post x n : reachable c x ->
  match move_construct c x n with
  | Ret t x' _ => t = x /\ contents c x' = [] /\ sz x' = 0 /\ hid x' = hid x /\ pid x' = pid x
  | _ => False
  end.
Proof.
  intros R. pose proof (rinv x R) as H. pose proof (move_construct_ok c x n H) as X.
  destruct (move_construct c x n) as [t x' n'|kd x' n'|]; cbn [outcome] in X; [|exact X|exact X].
  destruct X as (E & I & [A1 A2 A3] & Ee & Es). rewrite contents_eq by assumption. auto.
Qed.
Lemma move_construct_al_post x al n : reachable c x ->
  match move_construct_al c al x n with
  | Ret t x' _ => hid t = hid x /\ pid t = pid x /\ aid t = al /\ Permutation (contents c t) (contents c x) /\ contents c x' = [] /\
      (al = aid x -> forall i e, stored t i e <-> stored x i e)
  | Exn k x' _ => x' = x \/ contents c x' = []
  | Undef => False
  end.
Proof.
  intros R. pose proof (rinv x R) as H. pose proof (move_construct_al_ok c HC x al n H) as X.
  destruct (move_construct_al c al x n) as [t x' n'|kd x' n'|]; cbn [outcome] in X; [| |exact X].
  - destruct X as (I & E1 & E2 & E3 & P & I' & Id & Ee & Ea). rewrite !contents_eq by assumption. do 5 (split; [assumption|]).
    intros Eal i e. unfold stored. rewrite (Ea Eal). tauto.
  - destruct X as (I & _ & _ & [-> |E]); [auto|]. right. rewrite contents_eq; assumption.
Qed.
Lemma move_assign_post t x n : reachable c x -> reachable c t ->
  match move_assign c (t, x) n with
  | Ret _ s _ => hid (fst s) = hid x /\ pid (fst s) = pid x /\ aid (fst s) = (if pocma c then aid x else aid t) /\
      Permutation (contents c (fst s)) (contents c x) /\ contents c (snd s) = [] /\ sz (snd s) = 0 /\
      (pocma c = true \/ aid t = aid x -> forall i e, stored (fst s) i e <-> stored x i e)
  | Exn k s _ => pocma c = false /\ aid t <> aid x
  | Undef => False
  end.
Proof.
  intros Rx Rt. pose proof (rinv x Rx) as Hx. pose proof (rinv t Rt) as H. pose proof (move_assign_ok c HC t x n Hx H) as X.
  destruct (move_assign c (t, x) n) as [u s n'|kd s n'|]; cbn [outcome] in X; [| |exact X].
  - destruct X as (I & E1 & E2 & E3 & P & I' & _ & _ & _ & Ee & Ea). rewrite !contents_eq by assumption. do 5 (split; [assumption|]).
    split; [rewrite (i_sz _ _ I'), Ee; reflexivity|]. intros Eal i e. unfold stored. rewrite (Ea Eal). tauto.
  - destruct X as (A & B & _). auto.
Qed.
Lemma swap_post t x n : reachable c x -> reachable c t -> pocs c = true \/ aid t = aid x ->
  match swap_tables c (t, x) n with Ret _ s _ => s = (x, t) | _ => False end.
Proof.
  intros Rx Rt Ha. pose proof (swap_ok c t x n (rinv x Rx) (rinv t Rt) Ha) as X. destruct (swap_tables c (t, x) n); exact X.
Qed.

(** ** comparison *)
Lemma uniq_nodup p l : equivalence c p -> Uniq c p l -> NoDup l.
Proof.
  intros (R & _) U. induction U as [|x l F U IH]; constructor; [|exact IH]. intros C. rewrite Forall_forall in F. specialize (F x C). rewrite R in F. discriminate.
Qed.
Lemma f2_length {A B} (Q : A -> B -> Prop) l1 l2 : Forall2 Q l1 l2 -> length l1 = length l2.
Proof. induction 1; cbn; congruence. Qed.
Definition Same_elements (p : N) (eeq : K * V -> K * V -> bool) (lx ly : list (K * V)) : Prop :=
  exists l, Permutation ly l /\ Forall2 (fun e e' => keqf c p (fst e) (fst e') = true /\ eeq e e' = true) lx l.
Lemma same_iff p q eeq lx ly : equivalence c p -> (forall a b, keqf c p a b = keqf c q a b) -> Uniq c p lx ->
  (length lx = length ly /\ (forall e, In e lx -> exists e', In e' ly /\ keqf c q (fst e) (fst e') = true /\ eeq e e' = true)) <->
  Same_elements q eeq lx ly.
Proof.
  intros Eqx HP Ux. assert (equivalence c q) as Eqy by (destruct Eqx as (A1 & A2 & A3); split; [|split]; intros *; rewrite <- ?HP; eauto). split.
  - intros [L M].
    assert (exists l, Forall2 (fun e e' => In e' ly /\ keqf c q (fst e) (fst e') = true /\ eeq e e' = true) lx l) as (l & F).
    { clear L Ux. induction lx as [|e lx IH]; [exists []; constructor|]. destruct (M e ltac:(now left)) as (e' & He).
      destruct IH as [l F]; [intros z Hz; apply M; now right|]. exists (e' :: l). constructor; assumption. }
    exists l. split; [|clear - F; induction F as [|a b l1 l2 Hab _ IH]; constructor; [apply Hab|exact IH]].
    assert (NoDup l) as ND.
    { clear L M. revert l F. induction Ux as [|e lx FF U IH]; intros l F; inversion F as [|a b l1 l2 Hab F']; subst; constructor; [|auto].
      intros C. rewrite Forall_forall in FF. assert (exists e2, In e2 lx /\ keqf c q (fst e2) (fst b) = true) as (e2 & He2 & Hk2).
      { clear - F' C. induction F' as [|a1 b1 l1 l2 H1 _ IH]; [destruct C|]. destruct C as [<-|C]; [exists a1; split; [now left|apply H1]|].
        destruct (IH C) as (e2 & A & B). exists e2. split; [now right|exact B]. }
      specialize (FF e2 He2). rewrite HP in FF. destruct Eqy as (_ & S & T). destruct Hab as (_ & Hk & _).
      rewrite (T (fst e) (fst b) (fst e2) Hk) in FF by (rewrite S; exact Hk2). discriminate. }
    assert (length l = length lx) as Ll by (symmetry; eapply f2_length; exact F).
    symmetry. apply NoDup_Permutation_bis; [exact ND|lia|].
    intros e' He'. clear - F He'. induction F as [|a b l1 l2 H1 _ IH]; [destruct He'|]. destruct He' as [<-|He']; [apply H1|auto].
  - intros (l & P & F). split; [rewrite (Permutation_length P); eapply f2_length; exact F|].
    intros e He. assert (exists e', In e' l /\ keqf c q (fst e) (fst e') = true /\ eeq e e' = true) as (e' & A & B).
    { clear - F He. induction F as [|a b l1 l2 H1 _ IH]; [destruct He|]. destruct He as [<-|He]; [exists b; split; [now left|exact H1]|].
      destruct (IH He) as (e' & A & B). exists e'. split; [now right|exact B]. }
    exists e'. split; [eapply Permutation_in; [symmetry; exact P|exact A]|exact B].
Qed.
Lemma equal_post eeq x y n : reachable c x -> reachable c y -> (forall a b, keqf c (pid x) a b = keqf c (pid y) a b) ->
  match equal_tables c eeq x y tt n with
  | Ret b _ _ => b = true <-> Same_elements (pid y) eeq (contents c x) (contents c y)
  | Exn k _ _ => k = KHash \/ k = KEq
  | Undef => False
  end.
Proof.
  intros Rx Ry HP. pose proof (rinv x Rx) as Hx. pose proof (rinv y Ry) as Hy. pose proof (equal_ok c eeq x y tt n Hx Hy) as X.
  destruct (equal_tables c eeq x y tt n) as [b s n'|kd s n'|]; cbn [outcome] in X; [| |exact X].
  2:{ destruct X as (_ & X & _). exact X. }
  destruct X as [_ X]. rewrite !contents_eq by assumption. rewrite X. unfold Matches. apply (same_iff (pid x)); [apply (inv_equiv c x Hx)|exact HP|apply (i_uniq _ _ Hx)].
Qed.
Lemma forall2_perm {A B} (Q : A -> B -> Prop) l1 l1' : Permutation l1 l1' -> forall l2, Forall2 Q l1 l2 -> exists l2', Permutation l2 l2' /\ Forall2 Q l1' l2'.
Proof.
  intros P. induction P as [|x l l' P IH|x y l|l l' l'' P1 IH1 P2 IH2]; intros l2 F.
  - inversion F; subst. exists []. auto.
  - inversion F as [|a b m1 m2 H1 H2]; subst. destruct (IH m2 H2) as (m' & A1 & A2). exists (b :: m'). auto.
  - inversion F as [|a b m1 m2 H1 H2]; subst. inversion H2 as [|a' b' m1' m2' H3 H4]; subst. exists (b' :: b :: m2'). split; [constructor|]. auto.
  - destruct (IH1 _ F) as (m & A1 & A2). destruct (IH2 _ A2) as (m' & B1 & B2). exists m'. split; [etransitivity; eauto|exact B2].
Qed.
Lemma forall2_flip {A B} (Q : A -> B -> Prop) l1 l2 : Forall2 Q l1 l2 -> Forall2 (fun b a => Q a b) l2 l1.
Proof. induction 1; constructor; auto. Qed.
Lemma same_elements_sym p eeq lx ly : equivalence c p -> (forall e e', eeq e e' = eeq e' e) -> Same_elements p eeq lx ly -> Same_elements p eeq ly lx.
Proof.
  intros (_ & S & _) He (l & P & F). apply forall2_flip in F. destruct (forall2_perm _ _ _ (Permutation_sym P) _ F) as (l' & P' & F').
  exists l'. split; [exact P'|]. clear - F' S He. induction F' as [|a b l1 l2 [H1 H2] _ IH]; constructor; [|exact IH]. rewrite S, He. auto.
Qed.
Lemma equal_symmetric eeq x y n m b b' n' m' : reachable c x -> reachable c y -> (forall a b, keqf c (pid x) a b = keqf c (pid y) a b) ->
  (forall e e', eeq e e' = eeq e' e) ->
  equal_tables c eeq x y tt n = Ret b tt n' -> equal_tables c eeq y x tt m = Ret b' tt m' -> b = b'.
Proof.
  intros Rx Ry HP He E1 E2. pose proof (equal_post eeq x y n Rx Ry HP) as X. rewrite E1 in X.
  pose proof (equal_post eeq y x m Ry Rx (fun a b => eq_sym (HP a b))) as Y. rewrite E2 in Y.
  pose proof (inv_equiv c x (rinv x Rx)) as Eqx. pose proof (inv_equiv c y (rinv y Ry)) as Eqy.
  assert (forall l l', Same_elements (pid x) eeq l l' <-> Same_elements (pid y) eeq l l') as SE.
  { intros l l'. unfold Same_elements. split; intros (m0 & P & F); exists m0; (split; [exact P|]); clear - F HP; induction F as [|a b l1 l2 [H1 H2] _ IH]; constructor; auto.
    - rewrite <- HP. auto. - rewrite HP. auto. }
  destruct b, b'; auto.
  - symmetry. apply Y. apply SE. apply same_elements_sym; [exact Eqy|exact He|]. apply X. reflexivity.
  - apply X. apply SE. apply same_elements_sym; [exact Eqx|exact He|]. apply Y. reflexivity.
Qed.

(** ** merge *)
Lemma merge_post t x n : reachable c t -> reachable c x ->
  match merge c (t, x) n with
  | Ret _ s _ => exists moved left, Permutation (contents c x) (moved ++ left) /\ contents c (snd s) = left /\
      Permutation (contents c (fst s)) (moved ++ contents c t) /\
      (forall e, In e moved -> lookup (pid t) (fst e) (contents c t) = None) /\
      (forall e, In e left -> lookup (pid t) (fst e) (contents c (fst s)) <> None)
  | Exn k s _ => exists lost, Permutation (contents c t ++ contents c x) (contents c (fst s) ++ contents c (snd s) ++ lost) /\
      (moves c = false -> length lost = 1%nat)
  | Undef => False
  end.
Proof.
  intros Rt Rx. pose proof (rinv t Rt) as H. pose proof (rinv x Rx) as Hx. pose proof (merge_ok c HC t x n H Hx) as X.
  destruct (merge c (t, x) n) as [u s n'|kd s n'|]; cbn [outcome] in X; [| |exact X].
  - destruct X as (moved & left & [I1 I2 _ _ S T X' Mv Kp]). exists moved, left. rewrite !contents_eq by assumption. do 3 (split; [assumption|]). split.
    + intros e He. apply lookup_none. apply Mv. exact He.
    + intros e He C. destruct (Kp e He) as (e' & A & B). rewrite (proj1 (lookup_none c _ _ _) C e' A) in B. discriminate.
  - destruct X as (_ & I1 & I2 & _ & _ & X). rewrite !contents_eq by assumption. exact X.
Qed.

(** ** exceptions *)
Lemma same_same (t t' : table) : Inv c t -> Inv c t' -> Same t t' ->
  contents c t' = contents c t /\ sz t' = sz t /\ ml t' = ml t /\ capacity (arr t') = capacity (arr t) /\ forall i x, stored t' i x <-> stored t i x.
Proof.
  intros H I [Es Ex]. rewrite !contents_eq by assumption. rewrite Es. cbn [set_arr arr sz ml]. rewrite (ext_elems _ _ Ex).
  split; [reflexivity|]. split; [reflexivity|]. split; [reflexivity|]. destruct Ex as (_ & _ & Em & Ec & _). unfold capacity, stored. cbn [set_arr arr]. rewrite Ec. split; [|tauto]. rewrite Em.
  destruct (i_arr _ _ H) as [E0|(k0 & [HS0 _] & _)], (i_arr _ _ I) as [E1|(k1 & [HS1 _] & _)].
  + rewrite E0, E1. reflexivity.
  + exfalso. rewrite E0 in Ec. pose proof (sh_cells _ _ HS1) as L. rewrite Ec in L. pose proof (pow_nat_pos k1). cbn in L. lia.
  + exfalso. rewrite E1 in Ec. pose proof (sh_cells _ _ HS0) as L. rewrite <- Ec in L. pose proof (pow_nat_pos k0). cbn in L. lia.
  + rewrite (sh_elems _ _ HS0), (sh_elems _ _ HS1). reflexivity.
Qed.
Lemma insert_exn t e n k t' n' : reachable c t -> m_insert c e t n = Exn k t' n' ->
  k = KAlloc \/ k = KConstruct \/ k = KEq \/ sz t < ml t \/ moves c = false ->
  contents c t' = contents c t /\ sz t' = sz t /\ ml t' = ml t /\ capacity (arr t') = capacity (arr t) /\ forall i x, stored t' i x <-> stored t i x.
Proof.
  intros R X Hk. pose proof (rinv t R) as H. pose proof (emplace_impl_ok c KConstruct t e n HC H) as Y. unfold m_insert in X. rewrite X in Y. cbn [outcome] in Y.
  destruct Y as (I & Id & [[S _]|(Hkd & _ & C & F)]); [apply same_same; assumption|].
  assert (t' = t) as ->; [|auto 6 using iff_refl].
  destruct Hk as [-> |[-> |[-> |[C'|Em]]]]; try (destruct Hkd; discriminate); [lia|]. unfold RehashFailed in F. rewrite Em in F. exact F.
Qed.
Lemma at_slots_skip (a : arrays) h k D D' : GoodA c h k a -> D ++ D' = occ a -> at_slots a D' = skipn (length D) (elems a).
Proof.
  intros HG E. rewrite (elems_occ c h k a HG), <- E, at_slots_app.
  assert (length (at_slots a D) = length D) as <- by (apply at_slots_live; intros z Hz; apply (good_occ c h k a z HG); rewrite <- E; apply in_or_app; now left).
  rewrite skipn_app, Nat.sub_diag, skipn_all. reflexivity.
Qed.
Lemma filter_none_mem D D' : NoDup (D ++ D') -> filter (fun i => negb (mem D i)) (D ++ D') = D'.
Proof.
  intros ND. rewrite filter_app. assert (filter (fun i => negb (mem D i)) D = []) as ->.
  { assert (forall l, (forall i, In i l -> In i D) -> filter (fun i => negb (mem D i)) l = []) as X.
    { induction l as [|x l IH]; intros Hl; [reflexivity|]. cbn [filter]. rewrite (proj2 (mem_spec D x)) by (apply Hl; now left). cbn [negb]. apply IH. intros i Hi. apply Hl. now right. }
    apply X. auto. }
  cbn [app]. apply filter_all. intros x Hx. apply negb_true_iff. apply not_true_is_false. intros C. apply mem_spec in C.
  revert ND C Hx. clear. induction D as [|y D IH]; cbn [app]; intros ND C Hx; [destruct C|]. inversion ND as [|? ? H1 H2]; subst.
  destruct C as [-> |C]; [apply H1, in_or_app; now right|auto].
Qed.
Lemma failed_skip t t' : Inv c t -> RehashFailed c t t' ->
  Inv c t' /\ capacity (arr t') = capacity (arr t) /\ exists d, elems (arr t') = skipn d (elems (arr t)) /\ (moves c = false -> d = 0%nat /\ t' = t).
Proof.
  intros H F. destruct (failed_inv c t t' H F) as (I & _ & Ec & _). split; [exact I|]. split; [exact Ec|].
  unfold RehashFailed in F. destruct (moves c); [|subst; exists O; auto].
  destruct F as (D & D' & Ho & [[-> ->] | ET]); [exists O; split; [reflexivity|discriminate]|].
  exists (length D). split; [|discriminate]. destruct ET as [_ _ _ (k & W & HS)].
  destruct (i_arr _ _ H) as [E|(k0 & HG & _)].
  - pose proof (sh_cells _ _ HS) as L. rewrite E in L. pose proof (pow_nat_pos k). cbn in L. lia.
  - assert (k0 = k) as ->.
    { destruct HG as [HS0 _]. pose proof (sh_mask _ _ HS) as M1. rewrite (sh_mask _ _ HS0) in M1. assert (2 ^ k0 = 2 ^ k) as Ek by (pose proof (pow2_pos k); pose proof (pow2_pos k0); lia). apply N.pow_inj_r in Ek; lia. }
    rewrite (erased_order c _ k D _ _ HG W). rewrite <- (at_slots_skip (arr t) _ k D D' HG Ho). rewrite <- Ho. rewrite filter_none_mem; [reflexivity|]. rewrite Ho. apply occ_nodup.
Qed.
Lemma rehash_exn t n m k t' m' : reachable c t -> size_ok c n -> rehash c n t m = Exn k t' m' ->
  capacity (arr t') = capacity (arr t) /\ sz t' = N.of_nat (length (contents c t')) /\ sz t' <= ml t' /\
  (exists d, contents c t' = skipn d (contents c t)) /\ (moves c = false \/ k = KAlloc -> t' = t).
Proof.
  intros R Hn X. pose proof (rinv t R) as H. pose proof (rehash_ok c HC t n m H Hn) as Y. rewrite X in Y. cbn [outcome] in Y.
  destruct Y as [(-> & -> & _)|(Hk & _ & F)].
  - rewrite !contents_eq by assumption. split; [reflexivity|]. split; [apply (i_sz _ _ H)|]. split; [apply (i_szml _ _ H)|]. split; [exists O; reflexivity|auto].
  - destruct (failed_skip t t' H F) as (I & Ec & d & Ed & Em). rewrite !contents_eq by assumption. split; [exact Ec|]. split; [apply (i_sz _ _ I)|]. split; [apply (i_szml _ _ I)|].
    split; [eauto|]. intros [M| ->]; [apply Em; exact M|]. destruct Hk; discriminate.
Qed.
Lemma insert_rehash_exn t e n k t' n' : reachable c t -> m_insert c e t n = Exn k t' n' ->
  capacity (arr t') = capacity (arr t) /\ sz t' = N.of_nat (length (contents c t')) /\ sz t' <= ml t' /\
  (exists d, contents c t' = skipn d (contents c t)) .
Proof.
  intros R X. pose proof (rinv t R) as H. pose proof (emplace_impl_ok c KConstruct t e n HC H) as Y. unfold m_insert in X. rewrite X in Y. cbn [outcome] in Y.
  destruct Y as (I & Id & [[S Y]|(Hkd & _ & C & F)]).
  - destruct (same_same t t' H I S) as (A1 & A2 & _ & A3 & _).
    split; [exact A3|]. rewrite A1, A2. rewrite contents_eq by assumption. split; [apply (i_sz _ _ H)|]. split; [rewrite <- A2; apply (i_szml _ _ I)|exists O; reflexivity].
  - destruct (failed_skip t t' H F) as (_ & Ec & d & Ed & _). rewrite !contents_eq by assumption. split; [exact Ec|]. split; [apply (i_sz _ _ I)|]. split; [apply (i_szml _ _ I)|eauto].
Qed.
End Props.
