(** Table-level invariant; erasure, rehash and insertion. *)
From Coq Require Import NArith ZArith Bool List Arith Lia ZifyBool ZifyNat ZifyN Permutation.
From Verif Require Import FloatModel SizeModel SizeProofs GroupModel GroupSpec FoaModel FoaGroup FoaBase FoaFind FoaArr.
Import ListNotations.
Local Open Scope N_scope.

Lemma usub_ok a b : b <= a -> a < 2 ^ 64 -> usub a b = a - b.
Proof.
  intros H1 H2. unfold usub. replace (a + (2 ^ 64 - b)) with ((a - b) + 1 * 2 ^ 64) by lia.
  rewrite N.mod_add by lia. apply N.mod_small. lia.
Qed.
Lemma uadd_ok a b : a + b < 2 ^ 64 -> uadd a b = a + b.
Proof. intros H. unfold uadd. apply N.mod_small. exact H. Qed.

Section TInv.
Context {K V : Type} (c : Cfg K V).
Notation arrays := (arrays K V).
Notation table := (table K V).
Notation cell := (cell K V).

(** ** pairwise non-equivalent keys *)
Definition Uniq (p : N) (l : list (K * V)) : Prop :=
  ForallOrdPairs (fun x y => keqf c p (fst x) (fst y) = false) l.

Lemma uniq_perm p l l' : equivalence c p -> Permutation l l' -> Uniq p l -> Uniq p l'.
Proof.
  intros (_ & S & _) P. unfold Uniq. induction P; intros U; auto.
  - inversion U; subst. constructor; auto. rewrite Forall_forall in *. intros z Hz.
    apply H1. eapply Permutation_in; [symmetry; exact P|exact Hz].
  - inversion U as [|? ? F1 U1]; subst. inversion U1 as [|? ? F2 U2]; subst. inversion F1 as [|? ? E F1']; subst.
    constructor; [constructor; [rewrite S; exact E|exact F2]|constructor; assumption].
Qed.
Lemma uniq_cons p e l : Uniq p l -> (forall x, In x l -> keqf c p (fst e) (fst x) = false) -> Uniq p (e :: l).
Proof. intros U H. constructor; [apply Forall_forall; exact H|exact U]. Qed.
Lemma uniq_app_r p l l' : Uniq p (l ++ l') -> Uniq p l'.
Proof. induction l as [|x l IH]; cbn; intros U; [exact U|]. inversion U; subst. auto. Qed.
Lemma uniq_in p l x y : equivalence c p -> Uniq p l -> In x l -> In y l -> keqf c p (fst x) (fst y) = true -> x = y.
Proof.
  intros (_ & S & _) U. induction U as [|z l F U IH]; intros Hx Hy E; [destruct Hx|].
  rewrite Forall_forall in F. destruct Hx as [<-|Hx], Hy as [<-|Hy]; auto.
  - rewrite F in E by exact Hy. discriminate.
  - rewrite S, F in E by exact Hx. discriminate.
Qed.

(** ** invariant *)
Definition ArrOK (h : N) (a : arrays) : Prop :=
  a = dummy_arrays (a_owner a) \/ exists k, GoodA c h k a /\ 2 ^ k <= gmax c.
Record Inv (t : table) : Prop := {
  i_compat : compat c (hid t) (pid t);
  i_owner : a_owner (arr t) = aid t;
  i_arr : ArrOK (hid t) (arr t);
  i_uniq : Uniq (pid t) (elems (arr t));
  i_sz : sz t = N.of_nat (length (elems (arr t)));
  i_szml : sz t <= ml t;
  i_ml : ml t <= init_ml (arr t)
}.

Lemma cap_shape k (a : arrays) : Shape k a -> capacity a = 15 * 2 ^ k - 1 /\ capacity a = N.of_nat (length (cells a)).
Proof.
  intros H. unfold capacity. rewrite (sh_elems _ _ H), (sh_mask _ _ H), (sh_cells _ _ H). unfold GN.
  pose proof (pow2_pos k). split; lia.
Qed.
Lemma init_ml_shape k (a : arrays) : Shape k a -> init_ml a = initial_max_load (15 * 2 ^ k - 1) /\ 0 < init_ml a <= capacity a.
Proof.
  intros H. unfold init_ml. destruct (cap_shape k a H) as [-> _].
  split; [reflexivity|]. apply (ml_table k). apply (sh_k _ _ H).
Qed.
Lemma init_ml_le (a : arrays) h : ArrOK h a -> init_ml a <= N.of_nat (length (cells a)) /\ N.of_nat (length (cells a)) < 2 ^ 64.
Proof.
  intros [-> | (k & [HS _] & _)].
  - cbn. unfold init_ml, capacity. cbn. split; vm_compute; congruence.
  - destruct (init_ml_shape k a HS) as [_ B]. destruct (cap_shape k a HS) as [E1 E2]. rewrite <- E2.
    split; [lia|]. rewrite E1. pose proof (sh_k _ _ HS).
    assert (2 ^ k <= 2 ^ 60) by (apply N.pow_le_mono_r; lia). change (2 ^ 60) with 1152921504606846976 in *.
    change (2 ^ 64) with 18446744073709551616. lia.
Qed.
Lemma inv_bounds t : Inv t -> sz t <= ml t /\ ml t <= N.of_nat (length (cells (arr t))) /\ N.of_nat (length (cells (arr t))) < 2 ^ 64.
Proof. intros H. destruct (init_ml_le (arr t) (hid t) (i_arr _ H)). pose proof (i_ml _ H). pose proof (i_szml _ H). lia. Qed.
Lemma dummy_elems al : elems (@dummy_arrays K V al) = []. Proof. reflexivity. Qed.

(** ** lookup *)
Lemma find_at_ok {St} t key (s : St) n : Inv t ->
  let hash := hash_of c (hid t) key in
  outcome (find_at c t key (position hash (a_gsi (arr t))) hash s n)
    (fun r s' => s' = s /\ found c (pid t) (arr t) key r) (fun kd s' => kd = KEq /\ s' = s /\ raised c KEq).
Proof.
  intros H hash. unfold find_at. pose proof (hash_lt c (hid t) key) as Hh. fold hash in Hh.
  destruct (i_arr _ H) as [E | (k & HG & _)].
  - rewrite E. cbn [a_gsi dummy_arrays].
    rewrite dummy_find; [|apply (position_lt hash 1); [exact Hh|lia]|lia].
    cbn. split; [reflexivity|]. intros e [].
  - pose proof HG as [HS _]. rewrite (sh_gsi _ _ HS), (sh_groups _ _ HS). pose proof (sh_k _ _ HS) as Hk.
    pose proof (find_loop_ok (St:=St) c (hid t) (pid t) k (arr t) key (i_compat _ H) HG (S (N.to_nat (2 ^ k))) 0 s n) as L.
    unfold pb_init. unfold pstate in L. rewrite probe_pos_0 in L by (apply position_lt; [exact Hh|lia]).
    apply L.
    + pose proof (pow2_pos k). lia.
    + lia.
    + intros j' i e C. lia.
Qed.
Lemma find_ok {St} t key (s : St) n : Inv t ->
  outcome (find c t key s n)
    (fun r s' => s' = s /\ found c (pid t) (arr t) key r) (fun kd s' => s' = s /\ (kd = KHash \/ kd = KEq) /\ raised c kd).
Proof.
  intros H. unfold find, hash_for. rewrite bind_bind. apply tick_bind; [|intros R; auto].
  intros n'. rewrite bind_ret. eapply outcome_weaken; [apply find_at_ok; exact H|auto|].
  intros kd s' (-> & -> & R). auto.
Qed.

(** ** an array extended by overflow marks only *)
Definition Same (t t' : table) : Prop := t' = set_arr t (arr t') /\ Ext (arr t) (arr t').
Lemma Same_refl t : Same t t. Proof. split; [destruct t; reflexivity|apply Ext_refl]. Qed.
Lemma ext_elems a a' : Ext a a' -> elems (K:=K) (V:=V) a' = elems a.
Proof. intros (_ & _ & _ & E & _). unfold elems. rewrite E. reflexivity. Qed.
Lemma same_inv t t' k : Inv t -> Same t t' -> GoodA c (hid t) k (arr t') -> 2 ^ k <= gmax c -> Shape k (arr t) -> Inv t'.
Proof.
  intros H [E X] HG Hk HS. destruct H, t' as [h' p' a' r' m' s'], t as [h1 p1 a1 r1 m1 s1]. cbn [arr set_arr hid pid aid ml sz] in *. injection E as -> -> -> -> ->.
  pose proof (ext_elems _ _ X) as EE. destruct X as (X1 & X2 & X3 & X4 & X5 & X6).
  constructor; cbn [arr hid pid aid ml sz]; try congruence; auto.
  - right. exists k. auto.
  - destruct HG as [HS' _]. destruct (init_ml_shape _ _ HS) as [E1 _], (init_ml_shape _ _ HS') as [E2 _]. congruence.
Qed.

Record Ids (t t' : table) : Prop := { id_h : hid t' = hid t; id_p : pid t' = pid t; id_a : aid t' = aid t }.
Lemma Ids_refl t : Ids t t. Proof. constructor; reflexivity. Qed.
Lemma same_ids t t' : Same t t' -> Ids t t'.
Proof. intros [-> _]. constructor; reflexivity. Qed.

(** ** insertion below max load *)
Lemma elems_lt_cells t : Inv t -> sz t < ml t -> exists k, GoodA c (hid t) k (arr t) /\ 2 ^ k <= gmax c /\
  (length (elems (arr t)) < length (cells (arr t)))%nat.
Proof.
  intros H Hlt. pose proof (inv_bounds t H) as (B1 & B2 & B3).
  destruct (i_arr _ H) as [E | (k & HG & Hk)].
  - exfalso. rewrite E in B2. cbn in B2. lia.
  - exists k. split; [exact HG|]. split; [exact Hk|]. pose proof (i_sz _ H). lia.
Qed.

Record Inserted (t t' : table) (e : K * V) (i : nat) : Prop := {
  in_ids : Ids t t'; in_ml : ml t' = ml t; in_sz : sz t' = sz t + 1;
  in_cells : cells (arr t') = set_nth (cells (arr t)) i (Live e);
  in_free : nth_error (cells (arr t)) i = Some Raw;
  in_mask : a_mask (arr t') = a_mask (arr t)
}.
Lemma inserted_cell t t' e i : Inserted t t' e i -> nth_error (cells (arr t')) i = Some (Live e).
Proof.
  intros []. rewrite in_cells0. rewrite set_nth_err, Nat.eqb_refl; [reflexivity|].
  apply nth_error_Some. congruence.
Qed.

Lemma unchecked_emplace_at_ok kd t e n : Inv t -> sz t < ml t ->
  (forall x, In x (elems (arr t)) -> keqf c (pid t) (fst e) (fst x) = false) ->
  let hash := hash_of c (hid t) (fst e) in
  outcome (unchecked_emplace_at c kd (position hash (a_gsi (arr t))) hash e t n)
    (fun l t' => Inv t' /\ (snd l < 15)%nat /\ Inserted t t' e (slot_index (fst l) (snd l)) /\
                 Permutation (elems (arr t')) (e :: elems (arr t)))
    (fun kd' t' => kd' = kd /\ raised c kd /\ Inv t' /\ Same t t').
Proof.
  intros H Hlt Hu hash. destruct (elems_lt_cells t H Hlt) as (k & HG & Hk & Hfree).
  pose proof HG as [HS _]. pose proof (inv_bounds t H) as (B1 & B2 & B3).
  unfold unchecked_emplace_at. rewrite (sh_gsi _ _ HS).
  eapply outcome_bind with (Q' := fun l t' => exists a', t' = set_arr t a' /\ (snd l < 15)%nat /\
       Placed k hash e (arr t) a' (slot_index (fst l) (snd l)) /\ GoodA c (hid t) k a' /\ Permutation (elems a') (e :: elems (arr t))).
  - apply outcome_lens. eapply outcome_weaken; [apply (emplace_good c kd (hid t) k (arr t) e n HG Hfree)| |].
    + intros l a' (P1 & P2 & P3 & P4). exists a'. auto.
    + intros kd' a' (-> & R & G & X). split; [reflexivity|]. split; [exact R|].
      assert (Same t (set_arr t a')) as SM by (split; [reflexivity|exact X]).
      split; [|exact SM]. apply (same_inv t _ k H SM G Hk HS).
  - intros l t' n' (a' & -> & P1 & P2 & P3 & P4). rewrite bind_modify. cbn [ret outcome].
    destruct P2. cbn [set_arr sz]. rewrite uadd_ok by lia.
    split; [|split; [exact P1|split]].
    + destruct H. constructor; cbn [set_sz set_arr arr hid pid aid ml sz]; auto.
      * congruence.
      * right. exists k. auto.
      * apply (uniq_perm _ (e :: elems (arr t))); [apply i_compat0|symmetry; exact P4|].
        apply uniq_cons; assumption.
      * rewrite (Permutation_length P4). cbn [length]. lia.
      * lia.
      * destruct (init_ml_shape _ _ HS) as [E1 _], (init_ml_shape _ _ pl_shape) as [E2 _]. congruence.
    + constructor; cbn [set_sz set_arr arr hid pid aid ml sz]; auto.
      * constructor; reflexivity.
      * rewrite (sh_mask _ _ HS), (sh_mask _ _ pl_shape). reflexivity.
    + exact P4.
Qed.

(** ** erasure *)
Lemma recover_slot_eq k (t : table) i n : Shape k (arr t) -> (i < length (cells (arr t)))%nat ->
  exists d, d <= 1 /\
  recover_slot (i / 15) (i mod 15) t n =
    Ret tt (Tab (hid t) (pid t) (aid t) (reset1 (arr t) i) (usub (ml t) d) (usub (sz t) 1)) n.
Proof.
  intros HS Hi. pose proof (shape_div _ _ _ HS Hi) as D. unfold recover_slot.
  exists (if b_maybe_caused_overflow (grp (arr t) (i / 15)) (i mod 15) then 1 else 0).
  split; [destruct b_maybe_caused_overflow; lia|].
  rewrite bind_get, (shape_get_group k) by assumption. rewrite bind_modify.
  unfold bind at 1, on_arr, lens. cbn [set_ml arr].
  rewrite (put_group_eq k) by assumption. reflexivity.
Qed.

Record ErasedT (t t' : table) (D : list nat) : Prop := {
  et_ids : Ids t t';
  et_sz : sz t' = sz t - N.of_nat (length D);
  et_ml : ml t - N.of_nat (length D) <= ml t' <= ml t;
  et_arr : exists k, erased k D (arr t) (arr t') /\ Shape k (arr t)
}.

Lemma erased_t_inv t t' D : Inv t -> ErasedT t t' D -> NoDup D -> (forall i, In i D -> In i (occ (arr t))) ->
  Inv t' /\ Permutation (elems (arr t)) (at_slots (arr t) D ++ elems (arr t')) /\ capacity (arr t') = capacity (arr t).
Proof.
  intros H [[I1 I2 I3] E2 E3 (k & W & HSx)] ND HD.
  destruct (i_arr _ H) as [E | (k1 & HG & Hk)].
  { exfalso. pose proof (sh_elems _ _ HSx) as C. rewrite E in C. discriminate. }
  assert (k1 = k) as ->.
  { pose proof HG as [HS1 _]. assert (2 ^ k1 = 2 ^ k) as Ek.
    { pose proof (sh_mask _ _ HS1) as M1. rewrite (sh_mask _ _ HSx) in M1.
      pose proof (pow2_pos k). pose proof (pow2_pos k1). lia. }
    apply N.pow_inj_r in Ek; lia. }
  assert (forall i, In i D -> (i < length (cells (arr t)))%nat) as HDl.
  { intros i Hi. apply (occ_in k (arr t) i HSx). auto. }
  pose proof (erased_elems k D (arr t) (arr t') HSx W ND HDl) as P.
  assert (length (at_slots (arr t) D) = length D) as LD.
  { apply at_slots_live. intros i Hi. eapply good_occ; eauto. }
  pose proof (Permutation_length P) as PL. rewrite app_length, LD in PL.
  destruct (init_ml_shape _ _ HSx) as [M1 _], (init_ml_shape _ _ (er_shape _ _ _ _ W)) as [M2 _].
  split; [|split; [exact P|]].
  - destruct H. constructor; rewrite ?I1, ?I2, ?I3; auto.
    + rewrite (er_owner _ _ _ _ W). assumption.
    + right. exists k. split; [eapply good_erased; eauto|exact Hk].
    + eapply uniq_app_r. eapply uniq_perm; [apply i_compat0|exact P|assumption].
    + lia.
    + lia.
    + rewrite M2, <- M1. lia.
  - destruct (cap_shape _ _ HSx) as [-> _], (cap_shape _ _ (er_shape _ _ _ _ W)) as [-> _]. reflexivity.
Qed.

Lemma erase_at_ok (t : table) i x n k : Shape k (arr t) -> nth_error (cells (arr t)) i = Some x -> x <> Raw ->
  1 <= sz t -> sz t <= ml t -> ml t < 2 ^ 64 ->
  outcome (erase_at (i / 15) (i mod 15) t n)
    (fun _ t' => ErasedT t t' [i] /\ arr t' = reset1 (upd_cell (arr t) i Raw) i) (fun _ _ => False).
Proof.
  intros HS Hx Hr H1 H2 H3. assert (i < length (cells (arr t)))%nat as L by (apply nth_error_Some; congruence).
  unfold erase_at. rewrite slot_of. unfold bind at 1, on_arr, lens. rewrite (destroy_eq k _ _ _ x) by assumption.
  set (t1 := set_arr t (upd_cell (arr t) i Raw)).
  assert (Shape k (arr t1)) as HS1 by (apply shape_upd_cell; exact HS).
  destruct (recover_slot_eq k t1 i n HS1) as (d & Hd & E).
  { unfold t1. cbn [set_arr arr]. rewrite cells_upd_cell, set_nth_len. exact L. }
  fold t1. rewrite E. cbn [outcome arr]. unfold t1 at 6. cbn [set_arr arr]. split; [|reflexivity].
  unfold t1. cbn [set_arr arr hid pid aid ml sz].
  rewrite !usub_ok by lia.
  constructor; cbn [arr hid pid aid ml sz length].
  - constructor; reflexivity.
  - lia.
  - lia.
  - exists k. split; [|exact HS]. apply (erased_step k [] (arr t) (arr t) i); [apply erased_nil; exact HS|exact L].
Qed.

(** with the invariant *)
Lemma erase_ok t i e n : Inv t -> nth_error (cells (arr t)) i = Some (Live e) ->
  outcome (erase_at (i / 15) (i mod 15) t n)
    (fun _ t' => ErasedT t t' [i] /\ Inv t' /\ Permutation (elems (arr t)) (e :: elems (arr t')) /\
                 cells (arr t') = set_nth (cells (arr t)) i Raw /\ capacity (arr t') = capacity (arr t))
    (fun _ _ => False).
Proof.
  intros H Hx. pose proof (inv_bounds t H) as (B1 & B2 & B3).
  destruct (i_arr _ H) as [E | (k & HG & Hk)].
  { exfalso. rewrite E in Hx. destruct i; discriminate. }
  assert (1 <= sz t) as Hsz.
  { rewrite (i_sz _ H). assert (In e (elems (arr t))) as I by (apply in_elems; eauto).
    destruct (elems (arr t)); [destruct I|cbn [length]; lia]. }
  pose proof HG as [HS _].
  eapply outcome_weaken; [apply (erase_at_ok t i (Live e) n k); auto; [discriminate|lia]| |auto].
  intros _ t' [ET Ea]. split; [exact ET|].
  destruct (erased_t_inv t t' [i] H ET) as (I & P & C).
  - constructor; [intros []|constructor].
  - intros j [<-|[]]. eapply good_occ; eauto.
  - split; [exact I|]. rewrite (at_slots_one _ _ e Hx) in P. split; [exact P|]. split; [|exact C].
    rewrite Ea. reflexivity.
Qed.

(** ** rehash *)
Definition keeps (a a' : arrays) : Prop :=
  forall i e, nth_error (cells a) i = Some (Live e) -> nth_error (cells a') i = Some (Live e).
Lemma keeps_ext a a' : Ext a a' -> keeps a a'.
Proof. intros (_ & _ & _ & E & _) i e. rewrite E. auto. Qed.
Lemma keeps_placed k hash e a a' i : Placed k hash e a a' i -> keeps a a'.
Proof.
  intros [] j x Hj. rewrite pl_cells, set_nth_err by exact pl_lt.
  destruct (Nat.eqb_spec j i) as [->|]; [congruence|exact Hj].
Qed.

Definition OldSide (t : table) (D : list nat) (t' : table) (d : nat) : Prop :=
  if moves c then exists a', t' = set_arr t a' /\ wiped D (arr t) a' /\ d = length D
  else t' = t /\ d = O.

Record Moving (t : table) (k2 : N) (na0 : arrays) (D : list nat) (s : RS) : Prop := {
  mo_old : OldSide t D (rs_tab s) (snd s);
  mo_good : GoodA c (hid t) k2 (rs_new s);
  mo_perm : Permutation (elems (rs_new s)) (at_slots (arr t) D ++ elems na0);
  mo_keep : keeps na0 (rs_new s);
  mo_len : length (cells (rs_new s)) = length (cells na0);
  mo_owner : a_owner (rs_new s) = a_owner na0
}.
Record MovingE (t : table) (k2 : N) (na0 : arrays) (s : RS) : Prop := {
  me_old : exists D D', D ++ D' = occ (arr t) /\ OldSide t D (rs_tab s) (snd s);
  me_src : exists k1, GoodA c (hid t) k1 (arr t);
  me_good : GoodA c (hid t) k2 (rs_new s);
  me_owner : a_owner (rs_new s) = a_owner na0
}.

Lemma for_all_none {St} (sel : St -> arrays) f (s : St) n : a_elems (sel s) = None -> for_all sel f s n = Ret tt s n.
Proof. intros H. unfold for_all, for_all_while, bind, get, ret. rewrite H. reflexivity. Qed.
Lemma for_all_while_none {St} (sel : St -> arrays) f (s : St) n : a_elems (sel s) = None -> for_all_while sel f s n = Ret true s n.
Proof. intros H. unfold for_all_while, bind, get, ret. rewrite H. reflexivity. Qed.

Lemma set_arr_id (t : table) : set_arr t (arr t) = t. Proof. destruct t; reflexivity. Qed.
Lemma set_arr_arr (t : table) a : arr (set_arr t a) = a. Proof. reflexivity. Qed.
Lemma set_arr_set (t : table) a b : set_arr (set_arr t a) b = set_arr t b. Proof. reflexivity. Qed.

Lemma transfer_ok t k1 k2 na0 D i todo s n :
  GoodA c (hid t) k1 (arr t) -> D ++ i :: todo = occ (arr t) ->
  (length (elems na0) + length (elems (arr t)) <= length (cells na0))%nat ->
  Moving t k2 na0 D s ->
  outcome (transfer_element c (i / 15) (i mod 15) s n)
    (fun _ s' => Moving t k2 na0 (D ++ [i]) s')
    (fun kd s' => (kd = KHash \/ kd = KTransfer) /\ raised c kd /\ MovingE t k2 na0 s').
Proof.
  intros HG Ho Hroom M. pose proof HG as [HS _]. destruct M as [Mo Mg Mp Mk Ml Mw].
  assert (In i (occ (arr t))) as Hio by (rewrite <- Ho; apply in_or_app; right; now left).
  pose proof (occ_nodup (arr t)) as ND. rewrite <- Ho in ND. apply NoDup_remove_2 in ND.
  assert (~ In i D) as HniD by (intros C; apply ND, in_or_app; now left).
  apply (good_occ c (hid t) k1) in Hio as [e He]; [|exact HG].
  assert (hid (rs_tab s) = hid t /\ nth_error (cells (arr (rs_tab s))) i = Some (Live e) /\ Shape k1 (arr (rs_tab s))) as (Eh & Ec & HS1).
  { unfold OldSide in Mo. destruct (moves c).
    - destruct Mo as (a' & -> & W & _). split; [reflexivity|]. cbn [set_arr arr].
      rewrite (wi_out _ _ _ W) by exact HniD. split; [exact He|]. eapply wiped_shape; eauto.
    - destruct Mo as [-> _]. auto. }
  unfold transfer_element. rewrite bind_get, slot_of.
  unfold read_element. rewrite (get_cell_eq k1), Ec by exact HS1. rewrite bind_ret.
  unfold hash_for. rewrite bind_bind. rewrite Eh.
  assert (length (elems (rs_new s)) < length (cells (rs_new s)))%nat as Hlt.
  { rewrite (Permutation_length Mp), app_length, Ml.
    assert (length (at_slots (arr t) D) + 1 <= length (elems (arr t)))%nat; [|lia].
    rewrite (elems_occ c (hid t) k1 _ HG), <- Ho, at_slots_app, app_length.
    change (i :: todo) with ([i] ++ todo). rewrite at_slots_app, app_length, (at_slots_one _ _ _ He). cbn [length]. lia. }
  assert (a_gsi (rs_new s) = 64 - k2) as Eg by (destruct Mg as [X _]; apply (sh_gsi _ _ X)).
  apply tick_bind.
  2:{ intros R. split; [now left|]. split; [exact R|]. constructor; auto; [exists D, (i :: todo); auto|exists k1; exact HG]. }
  intros n'. rewrite bind_ret, Eg.
  pose proof (emplace_good c KTransfer (hid t) k2 (rs_new s) e) as EM.
  destruct (moves c) eqn:Emv; unfold OldSide in Mo; rewrite Emv in Mo.
  - destruct Mo as (a' & Et & W & Ed). rewrite bind_modify.
    unfold finally. unfold bind at 1, on_new at 1, lens at 1. cbn [fst snd].
    change (rs_new (fst s, S (snd s))) with (rs_new s).
    change (rs_tab (fst s, S (snd s))) with (rs_tab s).
    specialize (EM n' Mg Hlt).
    destruct (nosize_unchecked_emplace_at c KTransfer (position (hash_of c (hid t) (fst e)) (64 - k2))
       (hash_of c (hid t) (fst e)) e (rs_new s) n') as [l na n1|kd na n1|]; cbn [outcome] in EM; [| |destruct EM].
    + destruct EM as (_ & P1 & P2 & P3).
      unfold on_tab, on_arr, lens. cbn [rs_tab rs_new fst snd].
      rewrite (put_cell_eq k1) by (auto; apply nth_error_Some; congruence). cbn [set_arr arr].
      cbn [rs_tab rs_new fst snd]. change (fst (fst s)) with (rs_tab s). cbn [set_arr arr].
      set (a1 := upd_cell (arr (rs_tab s)) i Moved).
      assert (Shape k1 a1) as HSa1 by (apply shape_upd_cell; exact HS1).
      rewrite (destroy_eq k1 _ _ _ Moved).
      2:{ exact HSa1. }
      2:{ unfold a1. rewrite cells_upd_cell, set_nth_err, Nat.eqb_refl; [reflexivity|]. apply nth_error_Some. congruence. }
      2:{ discriminate. }
      cbn [outcome]. constructor; cbn [rs_tab rs_new fst snd].
      * unfold OldSide. rewrite Emv. exists (upd_cell a' i Raw). split; [|split].
        -- unfold a1. rewrite Et. unfold set_arr. cbn [arr hid pid aid ml sz]. f_equal.
           cbn [set_arr arr].
           unfold upd_cell. cbn [a_gsi a_mask a_groups a_owner]. f_equal. f_equal. unfold cells at 1. cbn [a_elems].
           apply list_ext. intros j. assert (i < length (cells a'))%nat as La.
           { rewrite (wi_len _ _ _ W). apply nth_error_Some. congruence. }
           rewrite !set_nth_err by (rewrite ?set_nth_len; exact La). destruct (Nat.eqb j i); reflexivity.
        -- eapply wiped_step; eauto. apply nth_error_Some. congruence.
        -- rewrite app_length. cbn [length]. lia.
      * exact P2.
      * rewrite P3, Mp, at_slots_app, (at_slots_one _ _ _ He), <- app_assoc. cbn [app]. apply Permutation_middle.
      * intros j x Hj. eapply keeps_placed; [exact P1|]. apply Mk. exact Hj.
      * destruct P1. rewrite pl_cells, set_nth_len. exact Ml.
      * destruct P1. congruence.
    + destruct EM as (-> & R & P2 & P3).
      unfold on_tab, on_arr, lens. cbn [rs_tab rs_new fst snd]. change (fst (fst s)) with (rs_tab s).
      rewrite (destroy_eq k1 _ _ _ (Live e)); [|exact HS1|exact Ec|discriminate].
      cbn [outcome]. split; [now right|]. split; [exact R|]. constructor; cbn [rs_tab rs_new fst snd].
      * exists (D ++ [i]), todo. rewrite <- app_assoc. split; [exact Ho|]. unfold OldSide. rewrite Emv.
        exists (upd_cell a' i Raw). split; [|split].
        -- rewrite Et. reflexivity.
        -- eapply wiped_step; eauto. apply nth_error_Some. congruence.
        -- rewrite app_length. cbn [length]. lia.
      * exists k1. exact HG.
      * exact P2.
      * destruct P3 as (P3 & _). congruence.
  - destruct Mo as (Et & Ed).
    eapply outcome_bind with (Q' := fun _ s' => Moving t k2 na0 (D ++ [i]) s'); [|intros a s' n'' Hq; exact Hq].
    apply outcome_lens. eapply outcome_weaken; [apply EM; auto| |].
    + intros l na (_ & P1 & P2 & P3). constructor; cbn [rs_tab rs_new fst snd].
      * unfold OldSide. rewrite Emv. auto.
      * exact P2.
      * rewrite P3, Mp, at_slots_app, (at_slots_one _ _ _ He), <- app_assoc. cbn [app]. apply Permutation_middle.
      * intros j x Hj. eapply keeps_placed; [exact P1|]. apply Mk. exact Hj.
      * destruct P1. rewrite pl_cells, set_nth_len. exact Ml.
      * destruct P1. congruence.
    + intros kd na (-> & R & P2 & P3). split; [now right|]. split; [exact R|]. constructor; cbn [rs_tab rs_new fst snd].
      * exists D, (i :: todo). split; [exact Ho|]. unfold OldSide. rewrite Emv. auto.
      * exists k1. exact HG.
      * exact P2.
      * destruct P3 as (P3 & _). congruence.
Qed.

Lemma transfer_all t k2 na0 n : ArrOK (hid t) (arr t) -> GoodA c (hid t) k2 na0 ->
  (length (elems na0) + length (elems (arr t)) <= length (cells na0))%nat ->
  outcome (for_all (fun s => arr (rs_tab s)) (transfer_element c) (t, na0, O) n)
    (fun _ s' => if moves c then Moving t k2 na0 (occ (arr t)) s' \/ (occ (arr t) = [] /\ s' = (t, na0, O)) else Moving t k2 na0 (occ (arr t)) s')
    (fun kd s' => (kd = KHash \/ kd = KTransfer) /\ raised c kd /\ MovingE t k2 na0 s').
Proof.
  intros HA HG2 Hroom. destruct HA as [E | (k1 & HG & _)].
  - rewrite for_all_none by (cbn [rs_tab fst]; rewrite E; reflexivity). cbn [outcome].
    assert (occ (arr t) = []) as Eo by (rewrite E; reflexivity).
    destruct (moves c) eqn:Em; [right; auto|]. rewrite Eo. constructor; cbn [rs_tab rs_new fst snd]; auto.
    + unfold OldSide. rewrite Em. auto.
    + intros j x Hx. exact Hx.
  - pose proof HG as [HS _].
    eapply outcome_weaken.
    + apply (for_all_ok _ _ k1 (arr t) (fun done todo s => Moving t k2 na0 done s)
        (fun kd s' => (kd = KHash \/ kd = KTransfer) /\ raised c kd /\ MovingE t k2 na0 s')).
      * exact HS.
      * intros done i todo s' n' Ho M. eapply transfer_ok; eauto.
      * intros done todo s' g Ho M Hg _. destruct M. unfold OldSide in mo_old0. destruct (moves c).
        -- destruct mo_old0 as (a' & -> & W & _). cbn [set_arr arr].
           rewrite (shape_get_group k1) by (eauto using wiped_shape). rewrite (wiped_grp _ _ _ _ W). reflexivity.
        -- destruct mo_old0 as (-> & _). apply (shape_get_group k1); auto.
      * apply (sh_elems _ _ HS).
      * apply (sh_mask _ _ HS).
      * constructor; cbn [rs_tab rs_new fst snd]; auto.
        -- unfold OldSide. destruct (moves c); [|auto]. exists (arr t). rewrite set_arr_id. split; [reflexivity|]. split; [eapply wiped_nil; eauto|reflexivity].
        -- intros j x Hx. exact Hx.
    + cbn beta. intros _ s' M. destruct (moves c); auto.
    + auto.
Qed.
End TInv.
