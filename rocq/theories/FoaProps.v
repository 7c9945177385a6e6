(** Consequences of the refinement, as needed for the statements of Properties_Foa.v. *)
From Coq Require Import NArith ZArith Bool List Arith Lia ZifyBool ZifyNat ZifyN Permutation.
From Verif Require Import FloatModel SizeModel SizeProofs GroupModel GroupSpec FoaModel FoaGroup FoaBase FoaFind FoaArr FoaInv FoaRehash FoaOps FoaCopy FoaAssign FoaMerge FoaIterModel FoaIter FoaSpec FoaWorld FoaApi FoaRun.
Import ListNotations.
Local Open Scope N_scope.

Section Pre.
Context {K V : Type} (c : Cfg K V).
Lemma uniq_pos p (l : list (K * V)) a b e : equivalence c p -> Uniq c p l -> nth_error l a = Some e -> nth_error l b = Some e -> a = b.
Proof.
  intros (R & _) U. revert a b. induction U as [|x l F U IH]; intros a b Ha Hb; [destruct a; discriminate|]. rewrite Forall_forall in F.
  destruct a as [|a], b as [|b]; cbn in *; auto.
  - injection Ha as ->. apply nth_error_In in Hb. specialize (F _ Hb). rewrite R in F. discriminate.
  - injection Hb as ->. apply nth_error_In in Ha. specialize (F _ Ha). rewrite R in F. discriminate.
Qed.
End Pre.
Section Props.
Context {K V : Type} (c : Cfg K V).
Hypothesis HC : good_cfg c.
Notation arrays := (arrays K V).
Notation table := (table K V).
Notation lookup := (lookup (V:=V) (keqf c)).
Notation add_all := (add_all (V:=V) (keqf c)).

(** element x is stored in slot i of the element array *)
Definition stored (t : table) (i : nat) (x : K * V) : Prop := nth_error (cells (arr t)) i = Some (Live x).

Lemma exec_total rs w o n : runs c rs w -> pre c o w ->
  match exec c o w n with
  | Ret _ _ _ => True
  | Exn k _ _ => k = KAlloc \/ exists j, throws c k j = true
  | Undef => False
  end.
Proof.
  intros R P. pose proof (exec_ok c HC o w n (runs_ok c HC rs w R) P) as X. unfold OK in X.
  destruct (exec c o w n); cbn [outcome] in X; [exact I|apply X|exact X].
Qed.

Lemma size_exact t : reachable c t -> sz t = N.of_nat (length (contents c t)) /\
  ForallOrdPairs (fun x y => keqf c (pid t) (fst x) (fst y) = false) (contents c t).
Proof. intros R. pose proof (reachable_inv c HC t R) as H. rewrite (contents_eq c t H). split; [apply (i_sz _ _ H)|apply (i_uniq _ _ H)]. Qed.

Lemma iter_nth (t : table) m it : Inv c t -> IterAt t m it -> exists it2, nth_it c t m = Some it2 /\ it_eqb it it2 = true.
Proof.
  intros H A. pose proof A as [L _]. destruct (nth_it_ok c t m H L) as (it2 & E & A2). exists it2. split; [exact E|].
  rewrite (iter_eqb c t m m it it2 H A A2). apply Nat.eqb_refl.
Qed.
Lemma iter_nth_lt (t : table) m it it2 : Inv c t -> (m < length (elems (arr t)))%nat -> IterAt t m it -> nth_it c t m = Some it2 -> it2 = it.
Proof.
  intros H L [_ A] E. destruct (nth_it_ok c t m H ltac:(lia)) as (it3 & E3 & _ & A3). rewrite E in E3. injection E3 as <-.
  pose proof (nth_occ c t m H L) as Lc. rewrite (is_at_lt _ _ _ Lc A), (is_at_lt _ _ _ Lc A3). reflexivity.
Qed.

(** traversal *)
Lemma traversal t : reachable c t ->
  let l := flat_map live (cells (arr t)) in
  (forall (St : Type) (s : St) n, m_iterate c t s n = Ret l s n) /\
  (forall m, (m <= length l)%nat -> exists it, nth_it c t m = Some it /\ it_eqb it it_end = Nat.eqb m (length l) /\
      forall x, nth_error l m = Some x -> forall (St : Type) (s : St) n, it_deref (arr t) it s n = Ret x s n).
Proof.
  intros R l. pose proof (reachable_inv c HC t R) as H. split.
  - intros St s n. apply (iterate_ok c t s n H).
  - intros m L. destruct (nth_it_ok c t m H L) as (it & E & A). exists it. split; [exact E|]. split.
    + rewrite (iter_eqb c t m _ it it_end H A (iter_end c t H)). reflexivity.
    + intros x Hx St s n. apply (iter_deref c t m it x s n H A Hx).
Qed.

(** erase(iterator) *)
Lemma erased_stored (t t' : table) i : cells (arr t') = set_nth (cells (arr t)) i Raw -> (i < length (cells (arr t)))%nat ->
  forall j x, stored t' j x <-> (stored t j x /\ j <> i).
Proof.
  intros E L j x. unfold stored. rewrite E, set_nth_err by exact L. destruct (Nat.eqb_spec j i) as [->|N]; [split; [discriminate|intros [_ C]; congruence]|tauto].
Qed.
Lemma erase_iter t m n : reachable c t -> (m < length (contents c t))%nat ->
  exists it, nth_it c t m = Some it /\
  match m_erase_at c it t n with
  | Ret it' t' _ =>
      contents c t' = firstn m (contents c t) ++ skipn (S m) (contents c t) /\
      capacity (arr t') = capacity (arr t) /\
      (exists it2, nth_it c t' m = Some it2 /\ it_eqb it' it2 = true) /\
      (forall j x, (j < length (contents c t))%nat -> j <> m -> nth_it c t j = Some x -> nth_it c t' (if (j <? m)%nat then j else (j - 1)%nat) = Some x) /\
      (exists i x, nth_error (contents c t) m = Some x /\ stored t i x /\ forall j y, stored t' j y <-> (stored t j y /\ j <> i))
  | _ => False
  end.
Proof.
  intros R Lm. pose proof (reachable_inv c HC t R) as H. rewrite (contents_eq c t H) in *.
  destruct (nth_it_ok c t m H ltac:(lia)) as (it & E & A). exists it. split; [exact E|].
  destruct (nth_error (elems (arr t)) m) as [e|] eqn:He; [|apply nth_error_None in He; lia].
  pose proof (erase_at_iter_ok c t m it e n H A He) as X.
  assert (exists i, stored t i e /\ match m_erase_at c it t n with Ret _ t' _ => cells (arr t') = set_nth (cells (arr t)) i Raw | _ => True end) as (i & Hi & Hcells).
  { pose proof A as [_ Ai]. destruct (occ_split c t m e H He) as (k & d & i & r & HG & Eo & Ld & Hc). subst m. rewrite Eo, nth_mid in Ai.
    assert (i < length (cells (arr t)))%nat as Li by (apply nth_error_Some; congruence).
    exists i. split; [exact Hc|]. rewrite (is_at_lt _ _ _ Li Ai). unfold m_erase_at, erase_it, it_at. cbn [it_p it_pc]. rewrite pc_div, pc_mod.
    pose proof (erase_ok c t i e n H Hc) as Y. unfold erase_at in Y. rewrite slot_of in Y. unfold bind at 1.
    match type of Y with outcome ?r _ _ => destruct r as [u t1 n1|kd t1 n1|]; cbn [outcome] in Y; [|destruct Y|destruct Y] end.
    destruct Y as (_ & _ & _ & Ec & _). rewrite bind_get. destruct (it_next c (arr t1) _); cbn; auto. }
  destruct (m_erase_at c it t n) as [it' t' n'|kd t' n'|]; cbn [outcome] in X; [|destruct X|destruct X]. destruct X as [EA A'].
  pose proof (ea_inv _ _ _ _ _ EA) as I'. rewrite (contents_eq c t' I'). split; [apply (ea_elems _ _ _ _ _ EA)|].
  split; [apply (ea_cap _ _ _ _ _ EA)|]. split; [apply iter_nth; assumption|]. split.
  - intros j x Lj Hj Ex. destruct (nth_it_ok c t j H ltac:(lia)) as (x' & Ex' & Ax). rewrite Ex in Ex'. injection Ex' as <-.
    pose proof (ea_other _ _ _ _ _ EA j x Ax Hj) as A2.
    assert (pred j = j - 1)%nat as Ep by lia. rewrite Ep in A2.
    pose proof A2 as [L2 _]. destruct (nth_it_ok c t' _ I' L2) as (x2 & E2 & A3). rewrite E2. f_equal.
    refine (iter_nth_lt t' (if (j <? m)%nat then j else (j - 1)%nat) x x2 I' _ A2 E2).
    pose proof (ea_elems _ _ _ _ _ EA) as Ee. apply (f_equal (@length _)) in Ee. unfold drop_nth in Ee. rewrite app_length, firstn_length, skipn_length in Ee.
    assert (length (elems (arr t')) = length (elems (arr t)) - 1)%nat as EL by lia. clear Ee.
    destruct (j <? m)%nat eqn:Ejm; [apply Nat.ltb_lt in Ejm|apply Nat.ltb_ge in Ejm]; clear - EL Ejm Lj Hj Lm; lia.
  - exists i, e. split; [reflexivity|]. split; [exact Hi|]. apply erased_stored; [exact Hcells|]. apply nth_error_Some. unfold stored in Hi. congruence.
Qed.
Lemma erase_range t m m2 n : reachable c t -> (m <= m2 <= length (contents c t))%nat ->
  exists it it2, nth_it c t m = Some it /\ nth_it c t m2 = Some it2 /\
  match m_erase_range c (S (N.to_nat (capacity (arr t)))) it it2 t n with
  | Ret r t' _ => contents c t' = firstn m (contents c t) ++ skipn m2 (contents c t) /\ capacity (arr t') = capacity (arr t) /\ r = it2 /\
      exists it3, nth_it c t' m = Some it3 /\ it_eqb r it3 = true
  | _ => False
  end.
Proof.
  intros R [L1 L2]. pose proof (reachable_inv c HC t R) as H. rewrite (contents_eq c t H) in *.
  destruct (nth_it_ok c t m H ltac:(lia)) as (it & E & A). destruct (nth_it_ok c t m2 H ltac:(lia)) as (it2 & E2 & A2).
  exists it, it2. split; [exact E|]. split; [exact E2|]. pose proof (cap_elems c t H) as CE.
  pose proof (erase_range_ok c (S (N.to_nat (capacity (arr t)))) t m m2 it it2 n H A A2 L1 ltac:(lia)) as X.
  destruct (m_erase_range c _ it it2 t n) as [r t' n'|kd t' n'|]; cbn [outcome] in X; [|destruct X|destruct X].
  destruct X as (I & Id & Ec & -> & Ee & A3). rewrite (contents_eq c t' I). do 3 (split; [assumption||reflexivity|]). apply iter_nth; assumption.
Qed.
Lemma erase_while_iterating t pr n : reachable c t ->
  exists it, nth_it c t 0 = Some it /\
  match erase_loop c (S (N.to_nat (capacity (arr t)))) pr it t n with
  | Ret seen t' _ => seen = contents c t /\ contents c t' = filter (fun e => negb (pr e)) (contents c t) /\ capacity (arr t') = capacity (arr t)
  | _ => False
  end.
Proof.
  intros R. pose proof (reachable_inv c HC t R) as H. rewrite (contents_eq c t H) in *.
  destruct (nth_it_ok c t 0 H ltac:(lia)) as (it & E & A). exists it. split; [exact E|]. pose proof (cap_elems c t H) as CE.
  pose proof (erase_loop_ok c pr (S (N.to_nat (capacity (arr t)))) t 0 it n H A ltac:(lia)) as X.
  destruct (erase_loop c _ pr it t n) as [r t' n'|kd t' n'|]; cbn [outcome] in X; [|destruct X|destruct X].
  destruct X as (I & Id & Ec & -> & Ee). rewrite (contents_eq c t' I). cbn [firstn skipn app] in *. auto.
Qed.
Lemma erase_if_stateful t pr n : reachable c t ->
  match erase_if c pr (t, []) n with
  | Ret r s _ => snd s = contents c t /\ contents c (fst s) = kept pr [] (contents c t) /\
      r = N.of_nat (length (contents c t) - length (contents c (fst s))) /\ capacity (arr (fst s)) = capacity (arr t)
  | Exn _ s _ => exists l1 e l2, contents c t = l1 ++ e :: l2 /\ snd s = l1 ++ [e] /\ contents c (fst s) = kept pr [] l1 ++ e :: l2
  | Undef => False
  end.
Proof.
  intros R. pose proof (reachable_inv c HC t R) as H. rewrite (contents_eq c t H) in *.
  pose proof (erase_if_ok c pr t [] n H) as X. destruct (erase_if c pr (t, []) n) as [r s n'|kd s n'|]; cbn [outcome] in X; [| |destruct X].
  - destruct X as (I & Id & El & Ee & Er & Ec). rewrite (contents_eq c _ I). auto.
  - destruct X as (_ & _ & I & _ & X). rewrite (contents_eq c _ I). exact X.
Qed.

(** sizes *)
Lemma load_bounds t : reachable c t -> sz t <= ml t /\ ml t <= capacity (arr t) /\ capacity (arr t) < 2 ^ 64 /\
  capacity (arr t) = N.of_nat (length (cells (arr t))).
Proof.
  intros R. pose proof (reachable_inv c HC t R) as H. destruct (inv_bounds c t H) as (B1 & B2 & B3).
  assert (capacity (arr t) = N.of_nat (length (cells (arr t)))) as E.
  { destruct (i_arr _ _ H) as [E|(k & [HS _] & _)]; [rewrite E; reflexivity|apply (cap_shape k _ HS)]. }
  rewrite E. auto.
Qed.

(** insertion below the maximum load *)
Lemma insert_below t e n : reachable c t -> sz t < ml t ->
  match m_insert c e t n with
  | Ret _ t' _ => capacity (arr t') = capacity (arr t) /\ ml t' = ml t /\ forall i x, stored t i x -> stored t' i x
  | Exn _ t' _ => capacity (arr t') = capacity (arr t) /\ ml t' = ml t /\ forall i x, stored t i x <-> stored t' i x
  | Undef => False
  end.
Proof.
  intros R Hlt. pose proof (reachable_inv c HC t R) as H. pose proof (emplace_impl_ok c KConstruct t e n HC H) as X. unfold m_insert.
  destruct (i_arr _ _ H) as [E0|(k0 & [HS0 _] & _)].
  { exfalso. destruct (load_bounds t R) as (B1 & B2 & _). rewrite E0 in B2. cbn in B2. lia. }
  destruct (emplace_impl c KConstruct e t n) as [[l b] t' n'|kd t' n'|]; cbn [outcome fst snd] in X; [| |destruct X].
  - destruct X as [I Id _ F T B _]. destruct b.
    + specialize (B eq_refl Hlt). split; [|split; [apply (in_ml _ _ _ _ B)|]].
      * unfold capacity. rewrite (in_mask _ _ _ _ B). rewrite (sh_elems _ _ HS0).
        destruct (i_arr _ _ I) as [E|(k & [HS _] & _)]; [|rewrite (sh_elems _ _ HS); reflexivity].
        pose proof (in_cells _ _ _ _ B) as Ec. rewrite E in Ec. cbn in Ec. exfalso.
        pose proof (f_equal (@length _) Ec) as Ec'. rewrite set_nth_len, (sh_cells _ _ HS0) in Ec'. pose proof (pow_nat_pos k0). cbn in Ec'. lia.
      * intros i x Hi. unfold stored in *. rewrite (in_cells _ _ _ _ B), set_nth_err.
        -- destruct (Nat.eqb_spec i (slot_index (fst l) (snd l))) as [->|]; [|exact Hi]. rewrite (in_free _ _ _ _ B) in Hi. discriminate.
        -- apply nth_error_Some. rewrite (in_free _ _ _ _ B). discriminate.
    + destruct (F eq_refl) as [-> _]. auto.
  - destruct X as (I & Id & [[[Es Ex] _]|(_ & _ & C & _)]); [|lia]. rewrite Es. cbn [set_arr ml arr].
    destruct Ex as (_ & _ & Em & Ec & _). unfold capacity, stored. cbn [set_arr arr]. rewrite Ec. split; [|split; [reflexivity|tauto]].
    rewrite Em. rewrite (sh_elems _ _ HS0). destruct (i_arr _ _ I) as [E|(k & [HS _] & _)]; [|rewrite (sh_elems _ _ HS); reflexivity].
    exfalso. rewrite E in Ec. cbn in Ec. pose proof (sh_cells _ _ HS0) as L0. rewrite <- Ec in L0. pose proof (pow_nat_pos k0). cbn in L0. lia.
Qed.
Lemma erase_key_stable t k n : reachable c t ->
  match m_erase c k t n with
  | Ret _ t' _ | Exn _ t' _ => capacity (arr t') = capacity (arr t) /\
      forall i x, stored t' i x <-> (stored t i x /\ (t' = t \/ keqf c (pid t) k (fst x) = false))
  | Undef => False
  end.
Proof.
  intros R. pose proof (reachable_inv c HC t R) as H. unfold m_erase. rewrite bind_get. unfold bind at 1.
  pose proof (find_ok c t k t n H) as X. destruct (find c t k t n) as [loc t1 n1|kd t1 n1|]; cbn [outcome] in X; [| |destruct X].
  - destruct X as [-> F]. destruct loc as [[g m]|]; cbn [found] in F.
    + destruct F as (L15 & e & He & Hk). pose proof (erase_ok c t (slot_index g m) e n1 H He) as Y.
      rewrite slot_div, slot_mod in Y by exact L15. unfold bind. destruct (erase_at g m t n1) as [u t' n2|kd t' n2|]; cbn [outcome] in Y; [|destruct Y|destruct Y].
      destruct Y as (_ & _ & _ & Ec & Ecap). cbn [ret]. split; [exact Ecap|]. intros i x.
      assert (slot_index g m < length (cells (arr t)))%nat as Ls by (apply nth_error_Some; congruence).
      rewrite (erased_stored t t' (slot_index g m) Ec Ls i x). split.
      * intros [S N]. split; [exact S|]. right. destruct (keqf c (pid t) k (fst x)) eqn:Ek; [|reflexivity]. exfalso. apply N.
        assert (x = e) as ->.
        { pose proof (inv_equiv c t H) as Eq. apply (uniq_in c (pid t) (elems (arr t)) x e Eq (i_uniq _ _ H)); [apply in_elems; eauto|apply in_elems; eauto|].
          destruct Eq as (_ & Sy & T). apply (T _ k); [rewrite Sy|]; assumption. }
        unfold stored in S.
        destruct (Nat.eq_dec i (slot_index g m)) as [|Hn]; [assumption|exfalso].
        destruct (i_arr _ _ H) as [E|(k0 & HG & _)]; [rewrite E in He; destruct (slot_index g m); discriminate|].
        (* the same element in two slots contradicts uniqueness *)
        assert (In i (occ (arr t))) as O1 by (apply (good_occ c _ _ _ _ HG); eauto).
        assert (In (slot_index g m) (occ (arr t))) as O2 by (apply (good_occ c _ _ _ _ HG); eauto).
        destruct (In_nth_error _ _ O1) as [a Ha], (In_nth_error _ _ O2) as [b Hb].
        assert (forall q j, nth_error (occ (arr t)) q = Some j -> forall y, nth_error (cells (arr t)) j = Some (Live y) -> nth_error (elems (arr t)) q = Some y) as NE.
        { intros q j Hq y Hy. rewrite (elems_occ c _ _ _ HG). destruct (nth_error_split _ _ Hq) as (d & r & Eo & <-). rewrite Eo, at_slots_app.
          assert (length (at_slots (arr t) d) = length d) as Lx.
          { apply at_slots_live. intros z Hz. apply (good_occ c _ _ _ _ HG). rewrite Eo. apply in_or_app. now left. }
          rewrite nth_error_app2, Lx, Nat.sub_diag by lia. unfold at_slots. cbn [flat_map]. rewrite Hy. reflexivity. }
        pose proof (NE a i Ha e S) as A1. pose proof (NE b _ Hb e He) as B1.
        assert (a = b) as -> by (eapply (uniq_pos c); eauto using inv_equiv; apply H). congruence.
      * intros [S [->|Ek]]; [|split; [exact S|]; intros ->; unfold stored in S; congruence].
        exfalso. rewrite Ec in He at 1. rewrite set_nth_err, Nat.eqb_refl in He by exact Ls. discriminate.
    + cbn [ret]. split; [reflexivity|]. intros i x. split; [auto|tauto].
  - destruct X as (-> & _). split; [reflexivity|]. intros i x. split; [auto|tauto].
Qed.
End Props.
