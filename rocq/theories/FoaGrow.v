(** Growth of the open-addressing containers: how size(), max_load() and bucket_count() change. *)
From Coq Require Import NArith ZArith Bool List Arith Lia ZifyBool ZifyNat ZifyN Permutation.
From Verif Require Import FloatModel FloatProofs SizeModel SizeProofs GroupModel GroupSpec FoaModel FoaGroup FoaBase FoaFind FoaArr FoaInv FoaRehash FoaOps FoaCopy FoaAssign FoaMerge FoaIterModel FoaIter FoaSpec FoaWorld FoaApi FoaRun FoaProps FoaProps2 FoaProps3 FoaMemKeep GrowSpec.
Import ListNotations.
Local Open Scope m_scope.
Local Open Scope N_scope.

(** ** a relation between the states before and after *)
Definition rk {St A} (R : St -> St -> Prop) (m : M St A) : Prop :=
  forall s n, match m s n with Ret _ s' _ => R s s' | Exn _ s' _ => R s s' | Undef => True end.
Section Gen.
Context {St : Type} (R : St -> St -> Prop).
Hypothesis Rr : forall s, R s s.
Hypothesis Rt : forall a b c, R a b -> R b c -> R a c.
Lemma rk_ret {A} (a : A) : rk R (ret a). Proof. intros s n. apply Rr. Qed.
Lemma rk_undef {A} : rk R (undef (A:=A)). Proof. intros s n. exact I. Qed.
Lemma rk_get : rk R get. Proof. intros s n. apply Rr. Qed.
Lemma rk_bind {A B} (m : M St A) (f : A -> M St B) : rk R m -> (forall a, rk R (f a)) -> rk R (bind m f).
Proof.
  intros Hm Hf s n. unfold bind. specialize (Hm s n). destruct (m s n) as [a s' n'|k s' n'|]; [|exact Hm|exact I].
  specialize (Hf a s' n'). destruct (f a s' n'); eauto.
Qed.
Lemma rk_option {A} (o : option A) : rk R (of_option o).
Proof. destruct o; [apply rk_ret|apply rk_undef]. Qed.
Lemma rk_fa {K V} (sel : St -> arrays K V) f : (forall g n, rk R (f g n)) -> rk R (for_all_while sel f).
Proof.
  intros Hf. assert (forall g ns, rk R (fa_mask f g ns)) as H1.
  { intros g ns. induction ns; cbn [fa_mask]; [apply rk_ret|]. apply rk_bind; [apply Hf|]. intros []; [exact IHns|apply rk_ret]. }
  assert (forall last rem g, rk R (fa_groups sel f last rem g)) as H2.
  { intros last rem. induction rem as [|r IH]; intros g; cbn [fa_groups]; [apply rk_ret|].
    apply rk_bind; [apply rk_get|]. intros a. destruct (get_group _ _); [|apply rk_undef].
    apply rk_bind; [apply H1|]. intros []; [apply IH|apply rk_ret]. }
  unfold for_all_while. apply rk_bind; [apply rk_get|]. intros a. destruct (a_elems _); [apply H2|apply rk_ret].
Qed.
Lemma rk_for_all {K V} (sel : St -> arrays K V) f : (forall g n, rk R (f g n)) -> rk R (for_all sel f).
Proof. intros Hf. unfold for_all. apply rk_bind; [apply rk_fa; intros; apply rk_bind; [apply Hf|intros; apply rk_ret]|intros; apply rk_ret]. Qed.
Lemma rk_tick {K V} (c : Cfg K V) k : rk R (tick c k).
Proof. intros s n. unfold tick. destruct (throws c k n); apply Rr. Qed.
Lemma rk_read {K V} (a : arrays K V) i : rk R (read_element a i).
Proof. unfold read_element. destruct (get_cell a i) as [[]|]; first [apply rk_ret|apply rk_undef]. Qed.
End Gen.

(** ** erasing *)
Section Erasing.
Context {K V : Type} (c : Cfg K V).
Notation table := (table K V).
Definition takenb (x : cell K V) : bool := match x with Raw => false | _ => true end.
Definition taken (t : table) : nat := length (filter takenb (cells (arr t))).
Definition Lost (t t' : table) : Prop := exists i j, (i <= j)%nat /\ taken t = (taken t' + j)%nat /\ (ml t' + N.of_nat i) mod 2 ^ 64 = ml t mod 2 ^ 64.
Lemma lost_refl t : Lost t t. Proof. exists 0%nat, 0%nat. rewrite N.add_0_r. auto. Qed.
Lemma lost_trans a b d : Lost a b -> Lost b d -> Lost a d.
Proof.
  intros (i & j & A & B & C) (i' & j' & A' & B' & C'). exists (i + i')%nat, (j + j')%nat. split; [lia|]. split; [lia|].
  rewrite <- C. rewrite <- (N.add_mod_idemp_l (ml b)) by discriminate. rewrite <- C'. rewrite N.add_mod_idemp_l by discriminate. f_equal. lia.
Qed.
Lemma usub_back a b : b <= 1 -> (usub a b + b) mod 2 ^ 64 = a mod 2 ^ 64.
Proof.
  intros Hb. unfold usub. rewrite N.add_mod_idemp_l by discriminate. replace (a + (2 ^ 64 - b) + b) with (a + 1 * 2 ^ 64).
  - apply N.mod_add. discriminate.
  - assert (b <= 2 ^ 64) by (change (2 ^ 64) with 18446744073709551616; lia). lia.
Qed.
Lemma filter_set (cs : list (cell K V)) : forall i x, nth_error cs i = Some x -> takenb x = true -> length (filter takenb cs) = S (length (filter takenb (set_nth cs i Raw))).
Proof.
  induction cs as [|a cs IH]; intros [|i] x Hx Ht; try discriminate; cbn [nth_error] in Hx.
  - injection Hx as ->. unfold set_nth. cbn [firstn skipn app filter]. rewrite Ht. reflexivity.
  - specialize (IH i x Hx Ht). unfold set_nth in *. cbn [firstn skipn app filter]. destruct (takenb a); cbn [length]; rewrite IH; reflexivity.
Qed.
Lemma rk_erase_slot p g n : rk Lost (on_arr (destroy_element (K:=K) (V:=V) p) ;;; recover_slot g n).
Proof.
  intros t m. unfold bind, on_arr, lens. destruct (destroy_element p (arr t) m) as [u a m1|k a m1|] eqn:E; [| |exact I].
  2: { exfalso. unfold destroy_element, bind, get in E. destruct (get_cell (arr t) p) as [[]|]; try discriminate; unfold put_cell in E; destruct (a_elems _); try discriminate; destruct (nth_error l p); discriminate. }
  assert (taken t = S (length (filter takenb (cells a)))) as L.
  { unfold destroy_element, bind, get, put_cell, get_cell in E. unfold taken, cells. destruct (a_elems (arr t)) as [cs|] eqn:Ea; [|discriminate].
    destruct (nth_error cs p) as [x|] eqn:Ex; [|discriminate]. assert (takenb x = true /\ a_elems a = Some (set_nth cs p Raw)) as [Hx Ha].
    { destruct x as [| |x]; [discriminate| |]; cbv beta iota in E; rewrite ?Ea, ?Ex in E; injection E as E; subst; auto. }
    rewrite Ha. eapply filter_set; eauto. }
  unfold recover_slot, bind, get, modify, on_arr, lens. cbn [arr set_arr].
  destruct (get_group a g) as [b|]; [|exact I].
  set (d := if b_maybe_caused_overflow b n then 1 else 0).
  destruct (put_group g (fun b => b_reset b n) (arr (set_ml (set_arr t a) (usub (ml (set_arr t a)) d))) m1) as [u1 a1 m2|k a1 m2|] eqn:E2; [| |exact I].
  - exists (N.to_nat d), 1%nat. split; [unfold d; destruct (b_maybe_caused_overflow b n); cbn; lia|].
    cbn [set_ml set_arr arr] in E2. unfold put_group in E2. destruct (a_elems a) as [cs|] eqn:Ea; [|discriminate]. destruct (nth_error (a_groups a) g); [|discriminate].
    injection E2 as <- <- <-. unfold taken at 2. cbn [arr set_sz set_arr set_ml ml]. unfold cells. cbn [a_elems]. unfold cells in L. rewrite Ea in L. split; [lia|].
    rewrite N2Nat.id. apply usub_back. unfold d. destruct (b_maybe_caused_overflow b n); lia.
  - exfalso. unfold put_group in E2. destruct (a_elems _); [|discriminate]. destruct (nth_error _ g); discriminate.
Qed.
Let rr := lost_refl. Let rt := lost_trans.
Lemma rk_erase_it it : rk Lost (erase_it (K:=K) (V:=V) it).
Proof. unfold erase_it. destruct (it_p it); [apply rk_erase_slot|apply rk_undef]. Qed.
Lemma rk_erase_at g n : rk Lost (erase_at (K:=K) (V:=V) g n).
Proof. apply rk_erase_slot. Qed.
Lemma rk_m_erase_at it : rk Lost (m_erase_at c it).
Proof. unfold m_erase_at. apply rk_bind; [exact rt|apply rk_erase_it|intros _]. apply rk_bind; [exact rt|apply rk_get; exact rr|intros]. apply rk_option. exact rr. Qed.
Lemma rk_erase_range fuel : forall first last, rk Lost (m_erase_range c fuel first last).
Proof.
  induction fuel as [|f IH]; intros a b; cbn [m_erase_range]; [apply rk_undef|]. destruct (it_eqb a b); [apply rk_ret; exact rr|].
  apply rk_bind; [exact rt|apply rk_get; exact rr|intros]. apply rk_bind; [exact rt|apply rk_option; exact rr|intros].
  apply rk_bind; [exact rt|apply rk_erase_it|intros; apply IH].
Qed.
Lemma rk_erase_loop pr fuel : forall it, rk Lost (erase_loop c fuel pr it).
Proof.
  induction fuel as [|f IH]; intros it; cbn [erase_loop]; [apply rk_undef|]. destruct (it_eqb it it_end); [apply rk_ret; exact rr|].
  apply rk_bind; [exact rt|apply rk_get; exact rr|intros]. apply rk_bind; [exact rt| |intros e].
  { unfold it_deref. destruct (it_p it); [apply rk_read; exact rr|apply rk_undef]. }
  apply rk_bind; [exact rt| |intros it'].
  { destruct (pr e); [apply rk_m_erase_at|apply rk_option; exact rr]. }
  apply rk_bind; [exact rt|apply IH|intros; apply rk_ret; exact rr].
Qed.
Definition Lost1 (s s' : table * list (K * V)) := Lost (fst s) (fst s').
Lemma rk_erase_if pr : rk Lost1 (erase_if c pr).
Proof.
  assert (forall s, Lost1 s s) as r1 by (intros s; apply lost_refl).
  assert (forall a b d, Lost1 a b -> Lost1 b d -> Lost1 a d) as t1 by (intros a b d; apply lost_trans).
  unfold erase_if. apply rk_bind; [exact t1|apply rk_get; exact r1|intros s0].
  apply rk_bind; [exact t1| |intros; apply rk_bind; [exact t1|apply rk_get; exact r1|intros; apply rk_ret; exact r1]].
  apply rk_for_all; [exact r1|exact t1|intros g n]. apply rk_bind; [exact t1|apply rk_get; exact r1|intros s].
  apply rk_bind; [exact t1|apply rk_read; exact r1|intros e]. apply rk_bind; [exact t1|intros s1 n1; apply (lost_refl (fst s1))|intros _].
  apply rk_bind; [exact t1|apply rk_tick; exact r1|intros _]. destruct (pr (snd s) e); [|apply rk_ret; exact r1].
  intros s1 n1. unfold on_fst, lens. pose proof (rk_erase_at g n (fst s1) n1) as X. destruct (erase_at g n (fst s1) n1); exact X.
Qed.
Lemma rk_m_erase k : rk Lost (m_erase c k).
Proof.
  unfold m_erase. apply rk_bind; [exact rt|apply rk_get; exact rr|intros t]. apply rk_bind; [exact rt| |intros [[g n]|]].
  - intros s n. pose proof (keeps_find c (fun s : table => s) t k s n) as X. destruct (FoaModel.find c t k s n); [rewrite X; apply rr|rewrite X; apply rr|exact I].
  - apply rk_bind; [exact rt|apply rk_erase_at|intros; apply rk_ret; exact rr].
  - apply rk_ret. exact rr.
Qed.
End Erasing.

(** ** what single operations do to size(), max_load() and bucket_count() *)
Section Step.
Context {K V : Type} (c : Cfg K V).
Hypothesis HC : good_cfg c.
Notation table := (table K V).
Definition cap (t : table) := capacity (arr t).
Inductive change (t t' : table) : Prop :=
| ch_same : sz t' = sz t -> ml t' = ml t -> cap t' = cap t -> change t t'
| ch_less : sz t' <= sz t -> ml t <= ml t' + (sz t - sz t') -> cap t' = cap t -> change t t'
| ch_put : sz t' = sz t + 1 -> sz t < ml t -> ml t' = ml t -> cap t' = cap t -> change t t'
| ch_grow : sz t' = sz t + 1 -> sz t = ml t -> ml t' = init_ml (arr t') -> cap t' = capacity_for (growth_request (sz t)) -> sz t + sz t / 61 + 1 <= ml t' -> change t t'.
Lemma inv_taken (t : table) : Inv c t -> sz t = N.of_nat (taken t).
Proof.
  intros H. rewrite (i_sz _ _ H). f_equal. unfold taken, elems.
  assert (forall x, In x (cells (arr t)) -> x <> Moved) as NM.
  { intros x Hx. apply In_nth_error in Hx as [j Hj]. exact (proj1 (inv_objects c t H) j x Hj). }
  revert NM. generalize (cells (arr t)). induction l as [|x l IH]; intros NM; [reflexivity|]. cbn [flat_map concat map filter].
  specialize (IH (fun y Hy => NM y (or_intror Hy))). specialize (NM x (or_introl eq_refl)).
  destruct x; cbn [live app length takenb]; [exact IH|congruence|]. rewrite <- IH. reflexivity.
Qed.
Lemma bound63 (t : table) : Inv c t -> sz t <= ml t /\ ml t < 2 ^ 63.
Proof.
  intros H. pose proof (inv_bounds c t H) as (B1 & B2 & B3). split; [exact B1|].
  destruct (i_arr _ _ H) as [E | (k & [HS _] & Hk)]; [rewrite E in B2; cbn in B2; change (2 ^ 63) with 9223372036854775808; lia|].
  pose proof (k_bound c k HC Hk). rewrite (sh_cells _ _ HS) in B2. assert (2 ^ k <= 2 ^ 57) by (apply N.pow_le_mono_r; lia).
  change (2 ^ 57) with 144115188075855872 in *. change (2 ^ 63) with 9223372036854775808. lia.
Qed.
Lemma lost_change (t t' : table) : Inv c t -> Inv c t' -> Lost t t' -> cap t' = cap t -> change t t'.
Proof.
  intros H H' (i & j & Hi & Ht & Hm) Hc. destruct (bound63 t H) as [B1 B2], (bound63 t' H') as [B3 B4].
  rewrite (N.mod_small (ml t)) in Hm by (change (2 ^ 64) with (2 * 2 ^ 63); lia).
  pose proof (inv_taken t H) as E1. pose proof (inv_taken t' H') as E2.
  assert (N.of_nat i <= sz t) by lia.
  rewrite N.mod_small in Hm by (change (2 ^ 64) with (2 ^ 63 + 2 ^ 63); lia).
  apply ch_less; [lia|lia|exact Hc].
Qed.
Lemma growth_room (t : table) : Inv c t -> groups_for (growth_request (sz t)) <= gmax c ->
  sz t + sz t / 61 + 1 <= initial_max_load (capacity_for (growth_request (sz t))).
Proof.
  intros H Hg. destruct (growth_ok c t HC H) as (_ & C1 & _ & _). unfold growth_request in *. pose proof (gmax_bound c HC) as GB.
  unfold capacity_for. apply groups_for_max_load; [exact C1|reflexivity|].
  assert (2 ^ 57 <= 2 ^ 60) by (apply N.pow_le_mono_r; lia). lia.
Qed.
Lemma grow_change (t t' : table) : Inv c t -> Inv c t' -> sz t' = sz t + 1 -> ml t <= sz t -> ml t' = init_ml (arr t') -> cap t' = capacity_for (growth_request (sz t)) -> change t t'.
Proof.
  intros H I Es Hm Em Ec. pose proof (inv_bounds c t H) as (B1 & _ & _). apply ch_grow; [exact Es|lia|exact Em|exact Ec|].
  rewrite Em. unfold init_ml. unfold cap in Ec. rewrite Ec. apply growth_room; [exact H|].
  destruct (i_arr _ _ I) as [E|(k & [HS _] & Hk)].
  - pose proof (inv_bounds c t' I) as (B4 & B5 & _). exfalso. rewrite E in B5. cbn in B5. lia.
  - destruct (cap_shape _ _ HS) as [E _]. rewrite Ec in E. unfold capacity_for, GN in E. pose proof (pow2_pos k).
    assert (groups_for (growth_request (sz t)) = 2 ^ k) as -> by lia. exact Hk.
Qed.
Lemma same_change (t t' : table) : Inv c t -> Inv c t' -> Same t t' -> change t t'.
Proof.
  intros H I S. pose proof (i_sz _ _ H) as S1. pose proof (i_sz _ _ I) as S2. destruct S as [Es Ex]. destruct Ex as (_ & _ & Em & Ec & _).
  apply ch_same.
  - rewrite Es. reflexivity.
  - rewrite Es. reflexivity.
  - unfold cap. destruct (i_arr _ _ H) as [E|(k & [HS _] & _)], (i_arr _ _ I) as [E'|(k' & [HS' _] & _)].
    + rewrite E, E'. reflexivity.
    + destruct (cap_shape _ _ HS') as [_ ->]. rewrite E. cbn. rewrite Es. cbn [set_arr arr]. rewrite Ec, E. reflexivity.
    + destruct (cap_shape _ _ HS) as [_ ->]. rewrite E'. cbn. rewrite Es in E'. cbn [set_arr arr] in E'. rewrite <- Ec, E'. reflexivity.
    + destruct (cap_shape _ _ HS) as [_ ->], (cap_shape _ _ HS') as [_ ->]. rewrite Es. cbn [set_arr arr]. rewrite Ec. reflexivity.
Qed.
Lemma failed_change (t t' : table) : Inv c t -> RehashFailed c t t' -> change t t'.
Proof.
  intros H F. pose proof F as F0. unfold RehashFailed in F. destruct (moves c) eqn:Em; [|subst; apply ch_same; reflexivity].
  destruct F as (D & D' & Ho & [[-> ->]|ET]); [apply ch_same; reflexivity|].
  pose proof (failed_inv c t t' H F0) as (I & _ & Ec & _). destruct ET as [_ E1 E2 _].
  pose proof (inv_bounds c t H) as (B1 & _ & _). pose proof (inv_bounds c t' I) as (B2 & _ & _).
  apply ch_less; [lia| |exact Ec].
  assert (N.of_nat (length D) <= sz t) as L; [|lia].
  rewrite (i_sz _ _ H). pose proof (occ_len c t H) as OL. rewrite <- OL, <- Ho, app_length. lia.
Qed.
Lemma emplace_change kd t e n : Inv c t -> match emplace_impl c kd e t n with Ret _ t' _ | Exn _ t' _ => Inv c t' /\ (sz t' < sz t -> sz t = ml t) /\ change t t' | Undef => True end.
Proof.
  intros H. pose proof (emplace_impl_ok c kd t e n HC H) as X. destruct (emplace_impl c kd e t n) as [[l b] t' n'|kd' t' n'|]; cbn [outcome fst snd] in X; [| |exact Logic.I].
  - destruct X as [I _ _ F T B A]. split; [exact I|]. split; [destruct b; [destruct (T eq_refl) as (_ & _ & Es & _); lia|destruct (F eq_refl) as [-> _]; lia]|]. destruct b.
    + destruct (T eq_refl) as (_ & _ & Es & _). destruct (N.lt_ge_cases (sz t) (ml t)) as [L|G].
      * specialize (B eq_refl L). apply ch_put; [exact Es|exact L|apply (in_ml _ _ _ _ B)|]. unfold cap. apply (inserted_cap c _ _ _ _ H I B).
      * destruct (A eq_refl G) as [Em Ec]. apply grow_change; auto.
    + destruct (F eq_refl) as [-> _]. apply ch_same; reflexivity.
  - destruct X as (I & _ & [[S _]|(_ & _ & Ef & F)]); (split; [exact I|]); [split; [|apply same_change; auto]|split; [auto|apply failed_change; auto]].
    destruct S as [Es _]. rewrite Es. cbn [set_arr sz]. lia.
Qed.
(** operations on single elements, and clear *)
Definition erases (o : op1 K V) : bool := match o with Erase _ | EraseIf _ | EraseLoop _ | EraseNth _ | EraseRange _ _ => true | _ => false end.
Lemma exec1_inv t o n : Inv c t -> pre1 c o t -> match exec1 c o t n with Ret _ t' _ | Exn _ t' _ => Inv c t' | Undef => False end.
Proof.
  intros H P. assert (WInv c [Some t]) as W by (intros [|[|i]] x E; cbn in E; try discriminate; injection E as <-; exact H).
  pose proof (exec_ok c HC (On 0 o) [Some t] n W (ex_intro _ t (conj eq_refl P))) as X. unfold OK in X. cbn [exec] in X. unfold run1 in X. cbn in X.
  destruct (exec1 c o t n) as [v t' n'|k t' n'|]; cbn [outcome] in X; [| |exact X].
  - destruct X as [W' _]. apply (W' 0%nat). reflexivity.
  - destruct X as (_ & W' & _). apply (W' 0%nat). reflexivity.
Qed.
Lemma put_value_same (t : table) i x n : match on_arr (put_cell i x) t n with Ret _ t' _ | Exn _ t' _ => sz t' = sz t /\ ml t' = ml t /\ cap t' = cap t | Undef => True end.
Proof.
  unfold on_arr, lens, put_cell. destruct (a_elems (arr t)) as [cs|] eqn:E; [|exact I]. destruct (nth_error cs i); [|exact I].
  split; [reflexivity|]. split; [reflexivity|]. unfold cap, capacity. cbn [set_arr arr a_elems a_mask]. rewrite E. reflexivity.
Qed.
Lemma change_same_r t t1 t' : sz t' = sz t1 /\ ml t' = ml t1 /\ cap t' = cap t1 -> change t t1 -> change t t'.
Proof.
  intros (E1 & E2 & E3) [A B C|A B C|A B C D|A B C D E];
  [apply ch_same|apply ch_less|apply ch_put|apply ch_grow]; rewrite ?E1, ?E2, ?E3; auto.
  rewrite C. unfold init_ml. unfold cap in E3. rewrite E3. reflexivity.
Qed.
Lemma insert_op_change t o n : Inv c t -> inserts o = true -> match exec1 c o t n with Ret _ t' _ | Exn _ t' _ => (sz t' < sz t -> sz t = ml t) /\ change t t' | Undef => True end.
Proof.
  intros H Ho. destruct o; try discriminate; cbn [exec1].
  - pose proof (emplace_change KConstruct t e n H) as X. unfold m_insert. unfold bind at 1. destruct (emplace_impl c KConstruct e t n) as [r t' n'|k t' n'|]; [|apply X|exact I].
    destruct X as [_ X]. rewrite bind_get. unfold bind, read_at, read_element. destruct (get_cell _ _) as [[| |x]|]; try exact I. exact X.
  - pose proof (emplace_change KConstruct t (k, v) n H) as X. unfold m_insert_or_assign, m_insert. rewrite bind_bind. unfold bind at 1.
    destruct (emplace_impl c KConstruct (k, v) t n) as [[[g s] b] t1 n1|kd t1 n1|]; [|apply X|exact I]. destruct X as [I1 X]. destruct b; [exact X|].
    rewrite bind_bind, bind_get. rewrite bind_bind. unfold bind at 1, read_element. destruct (get_cell _ _) as [[| |x]|]; try exact I. cbn [ret].
    rewrite bind_bind. unfold bind at 1. unfold tick. destruct (throws c KConstruct n1); [exact X|].
    rewrite bind_bind. unfold bind at 1. pose proof (put_value_same t1 (slot_index g s) (Live (fst x, v)) (S n1)) as Y.
    destruct (on_arr (put_cell (slot_index g s) (Live (fst x, v))) t1 (S n1)) as [u t2 n2|kd t2 n2|]; try exact I; (split; [destruct Y as (-> & _); apply X|exact (change_same_r _ _ _ Y (proj2 X))]).
  - pose proof (emplace_change KConstruct t (k, dv) n H) as X. unfold m_index, m_insert. rewrite bind_bind. unfold bind at 1.
    destruct (emplace_impl c KConstruct (k, dv) t n) as [r t' n'|kd t' n'|]; [|apply X|exact I].
    destruct X as [_ X]. rewrite bind_bind, bind_get. rewrite bind_bind. unfold bind at 1, read_element. destruct (get_cell _ _) as [[| |x]|]; try exact I. exact X.
Qed.
(** erasing operations keep the array *)
Lemma rk_erasing t o n : erases o = true -> match exec1 c o t n with Ret _ t' _ | Exn _ t' _ => Lost t t' | Undef => True end.
Proof.
  pose proof (@lost_refl K V) as rr. pose proof (@lost_trans K V) as rt. intros Ho. destruct o; try discriminate; cbn [exec1].
  - apply (rk_bind Lost rt (m_erase c k)); [apply rk_m_erase|intros; apply rk_ret; exact rr].
  - pose proof (rk_erase_if c (fun _ => pr) (t, []) n) as X. destruct (erase_if c (fun _ => pr) (t, []) n); exact X.
  - refine (rk_bind Lost rt get _ _ _ t n); [apply rk_get; exact rr|intros t1]. apply rk_bind; [exact rt|apply rk_option; exact rr|intros it].
    apply rk_bind; [exact rt|apply rk_erase_loop|intros; apply rk_ret; exact rr].
  - refine (rk_bind Lost rt get _ _ _ t n); [apply rk_get; exact rr|intros t1]. apply rk_bind; [exact rt|apply rk_option; exact rr|intros it].
    apply rk_bind; [exact rt| |intros e]. { unfold it_deref. destruct (it_p it); [apply rk_read; exact rr|apply rk_undef]. }
    apply rk_bind; [exact rt|apply rk_m_erase_at|intros; apply rk_ret; exact rr].
  - refine (rk_bind Lost rt get _ _ _ t n); [apply rk_get; exact rr|intros t1]. apply rk_bind; [exact rt|apply rk_option; exact rr|intros it].
    apply rk_bind; [exact rt|apply rk_option; exact rr|intros it2]. apply rk_bind; [exact rt|apply rk_erase_range|intros; apply rk_ret; exact rr].
Qed.
Lemma single_split (o : op1 K V) : single o = inserts o || erases o || read_only o || match o with Clear => true | _ => false end.
Proof. destruct o; reflexivity. Qed.
Lemma single_change t o n : Inv c t -> pre1 c o t -> single o = true ->
  match exec1 c o t n with Ret _ t' _ | Exn _ t' _ => Inv c t' /\ (inserts o = true -> sz t' < sz t -> sz t = ml t) /\ change t t' | Undef => False end.
Proof.
  intros H P S. pose proof (exec1_inv t o n H P) as I. rewrite single_split in S. destruct (inserts o) eqn:Hi.
  { pose proof (insert_op_change t o n H Hi) as X. destruct (exec1 c o t n); [split; [exact I|]; split; [intros _; apply X|apply X]|split; [exact I|]; split; [intros _; apply X|apply X]|exact I]. }
  destruct (erases o) eqn:He.
  { pose proof (rk_erasing t o n He) as X. pose proof (keeps_exec1 c o) as Y.
    assert (keeps tshape (exec1 c o)) as Y' by (destruct o; try discriminate He; exact Y). specialize (Y' t n).
    destruct (exec1 c o t n) as [v t' n'|k t' n'|]; [| |exact I]; (split; [exact I|]); (split; [discriminate|]);
      apply lost_change; auto; unfold cap, capacity; unfold tshape, shape in Y'; injection Y' as Y1 Y2 Y3; rewrite Y3; destruct (a_elems (arr t)), (a_elems (arr t')); try discriminate; reflexivity. }
  destruct (read_only o) eqn:Hr.
  { pose proof (read_only_ok c o t n H Hr) as X. destruct (exec1 c o t n) as [v t' n'|k t' n'|]; [| |exact I]; subst; (split; [exact H|]; split; [discriminate|apply ch_same; reflexivity]). }
  destruct o; try discriminate. cbn [exec1] in *. pose proof (clear_ok c t n (inv_w c t H)) as X. unfold bind in *.
  destruct (clear t n) as [u t' n'|k t' n'|]; cbn [outcome ret] in *; [|destruct X|exact I]. destruct X as (I' & _ & _ & Em & Es & Ec). split; [exact I'|]. split; [discriminate|].
  apply ch_less; [lia| |exact Ec]. rewrite Em. unfold init_ml. rewrite Ec. pose proof (i_ml _ _ H) as B. unfold init_ml in B. lia.
Qed.
Lemma moved_change o t t' T I E : sz t <= ml t -> sz t' <= ml t' -> change t t' -> (inserts o = true -> sz t' < sz t -> sz t = ml t) ->
  T <= 62 * I + E -> T + sz t <= 62 * I + 61 * (ml t - sz t) + E ->
  T + moved o t t' <= 62 * (I + (sz t' - sz t)) + E /\ T + moved o t t' + sz t' <= 62 * (I + (sz t' - sz t)) + 61 * (ml t' - sz t') + E.
Proof.
  intros B1 B2 X HF H1 H2. unfold moved, size, max_load.
  destruct X as [A B C|A B C|A B C D|A B C D F].
  - rewrite A, B, N.ltb_irrefl, N.sub_diag. destruct (inserts o); lia.
  - assert (sz t <? sz t' = false) as -> by (apply N.ltb_ge; exact A). destruct (inserts o).
    + specialize (HF eq_refl). clear - B1 B2 A B HF H1 H2. destruct (N.eq_dec (sz t') (sz t)) as [E0|E0]; [rewrite E0; lia|]. specialize (HF ltac:(lia)). lia.
    + clear - B1 B2 A B H1 H2. lia.
  - assert (sz t <? sz t' = true) as -> by (apply N.ltb_lt; lia). assert (sz t =? ml t = false) as -> by (apply N.eqb_neq; lia). destruct (inserts o); lia.
  - assert (sz t <? sz t' = true) as -> by (apply N.ltb_lt; lia). assert (sz t =? ml t = true) as -> by (apply N.eqb_eq; lia).
    assert (sz t < 61 * (sz t / 61) + 61) as Q by (pose proof (N.div_mod' (sz t) 61); pose proof (N.mod_lt (sz t) 61 ltac:(lia)); lia).
    destruct (inserts o); clear - A B F Q H1 H2 B1; lia.
Qed.

Lemma uses_inv (P : table -> Prop) t0 i m t : Inv c t0 -> uses c P t0 i m t -> Inv c t.
Proof.
  intros H U. induction U as [|i m t o t' _ IH S Pr (n & A)]; [exact H|]. pose proof (single_change t o n IH Pr S) as X.
  destruct (exec1 c o t n) as [v x n'|k x n'|]; [| |destruct A]; subst; apply X.
Qed.
Lemma uses_cost (P : table -> Prop) t0 i m t : Inv c t0 -> uses c P t0 i m t -> m <= 62 * i + sz t0 /\ m + sz t <= 62 * i + 61 * (ml t - sz t) + sz t0.
Proof.
  intros H U. induction U as [|i m t o t' U IH S Pr (n & A)]; [lia|]. pose proof (uses_inv P t0 i m t H U) as Ht. destruct (IH) as [I1 I2].
  pose proof (single_change t o n Ht Pr S) as X. pose proof (inv_bounds c t Ht) as (B1 & _ & _).
  destruct (exec1 c o t n) as [v x n'|k x n'|]; [| |destruct A]; subst; destruct X as (Ht' & HF & X); pose proof (inv_bounds c t' Ht') as (B2 & _ & _); apply moved_change; auto.
Qed.
End Step.
