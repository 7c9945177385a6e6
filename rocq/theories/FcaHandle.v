(** Insertion of node handles in the closed-addressing containers. *)
From Coq Require Import NArith ZArith Bool List Arith Lia Permutation.
From Verif Require Import FloatModel HashArithModel HashArithProofs FoaModel FoaGroup FoaBase FcaLinks FcaLinksProofs FcaModel FcaInv FcaIter FcaTab FcaRehash FcaOps FcaIns FcaIns2.
Import ListNotations.
Local Open Scope m_scope.
Local Open Scope nat_scope.

Section Hand.
Context {K V : Type} (c : FCfg K V).
Notation node := (node K V).
Notation barray := (barray K V).
Notation table := (FcaModel.table K V).
Notation cb := (base c).
Notation St := (table * heap)%type.
Notation CInv := (CInv c). Notation TInv := (TInv c). Notation raised := (raised c). Notation keq := (keq c). Notation lookup := (lookup c).
Notation SI := (SI c). Notation OpExn := (OpExn c). Notation InsPost := (InsPost c). Notation HintOk := (HintOk c). Notation HIt := (@HIt K V).
Notation WExn := (WExn c). Notation HintUsed := (HintUsed c). Notation room := (@room K V).
Implicit Types (b nb : barray) (t : table) (x y : node) (s : St) (e : K * V).

Lemma TInv_fun t l l' : TInv t l -> TInv t l' -> l = l'.
Proof.
  intros H1 H2. pose proof (elements_ok _ _ (ci_b _ _ _ (ti_c _ _ _ H1)) (ci_ids _ _ _ (ti_c _ _ _ H1)) (ti_size _ _ _ H1)) as E1.
  pose proof (elements_ok _ _ (ci_b _ _ _ (ti_c _ _ _ H2)) (ci_ids _ _ _ (ti_c _ _ _ H2)) (ti_size _ _ _ H2)) as E2. congruence.
Qed.
Lemma InsPost_perm r s s1 l l1 hint x it s' : SI (S r) s l -> SI (S r) s1 l1 -> Permutation l l1 -> Fr s s1 -> ((f_size (fst s) + 1 <= f_ml (fst s))%N -> s1 = s) -> InsPost r s1 l1 hint x it s' -> InsPost r s l hint x it s'.
Proof.
  intros I I1 P F Eq (l0 & l' & P' & IA & I' & F' & N & X). exists l0, l'. split; [rewrite P; exact P'|]. split; [exact IA|]. split; [exact I'|]. split; [apply (Fr_trans s s1); assumption|]. split; [exact N|].
  intros L. specialize (Eq L). subst s1. assert (l1 = l) as -> by (apply (SI_fun c (S r) s); assumption). apply X. exact L.
Qed.
Lemma on_b_put_ok r t h l x itb hint n E : SI (S r) (t, h) l -> InHand (t, h) l x -> 0 < b_size (f_b t) -> at_hash (f_b t) (hash_of cb (f_hid t) (nkey x)) = Some itb -> HintOk t l (nkey x) hint -> room l 1 ->
  outcome ((on_b (fun b => insert_node_hint b itb x hint) ;;; mod_t inc_size ;;; ret (EI (Some (nd_id x)) itb, @None node)) (t, h) n) (fun p s' => snd p = None /\ InsPost r (t, h) l hint x (fst p) s') E.
Proof.
  intros I Hx Z A Hh Rm. apply (on_b_insert_ok c r t h l x itb hint); try assumption. intros t' l' I' IA NI S ML BC. unfold mod_t. rewrite bind_modify. cbn [outcome ret fst snd]. split; [reflexivity|].
  exists l, l'. split; [reflexivity|]. split; [exact IA|]. split; [exact I'|]. split; [|split; [exact NI|auto]]. split; [exact S|]. split; [left; auto|cbn; lia].
Qed.
Lemma InHand_perm s s1 l l1 x : Permutation l l1 -> Fr s s1 -> InHand s l x -> InHand s1 l1 x.
Proof.
  intros P ((_ & _ & Fa & _) & _ & Fn) (A & N & Lt). split; [congruence|]. split; [|lia]. intros X. apply N. apply (Permutation_in _ (Permutation_map nd_id (Permutation_sym P))). exact X.
Qed.
Lemma room_perm (l l1 : list node) n : Permutation l l1 -> room l n -> room l1 n.
Proof. intros P. unfold FcaIns2.room. rewrite (Permutation_length P). auto. Qed.
Lemma size_1 t l : TInv t l -> uadd (f_size t) 1 = (f_size t + 1)%N.
Proof. intros H. pose proof max_elems_lt. pose proof (ti_room _ _ _ H). unfold uadd. apply N.mod_small. rewrite (ti_size _ _ _ H). lia. Qed.
(** what an insertion of a node handle does: (position, the node if it stays in the handle) *)
Definition HUPost (r : nat) (s : St) (l : list node) (x : node) (p : eit * option node) (s' : St) : Prop :=
  match lookup (f_pid (fst s)) (nkey x) l with
  | Some y => snd p = Some x /\ s' = s /\ NIt (f_b (fst s)) y (fst p)
  | None => snd p = None /\ InsPost r s l None x (fst p) s'
  end.
Lemma insert_handle_unique_ok r s l x n : SI (S r) s l -> InHand s l x -> room l 1 ->
  outcome (insert_handle_unique c x s n) (HUPost r s l x) (OpExn (S r) s l).
Proof.
  intros I Hx Rm. destruct s as [t h]. pose proof (si_t _ _ _ _ I) as T. pose proof (ti_c _ _ _ T) as H. cbn [fst] in *. unfold insert_handle_unique, get_t. rewrite bind_bind, bind_get, bind_ret. cbn [fst].
  apply outcome_hash; [intros R; apply OpExn_kept; [exact R|apply Kept_refl|exact I]|]. intros n1. destruct (at_hash_ok c t l (nkey x) H) as (itb & A). rewrite A. cbn [of_option]. rewrite bind_ret.
  eapply outcome_bind; [eapply outcome_weaken; [apply (find_node_impl_ok c t l (nkey x) itb (t, h) n1 H A)|intros a s' X; exact X|intros kd' s' X; apply RO_OpExn; assumption]|].
  cbn beta. intros ri s' n2 [-> ->]. unfold HUPost. cbn [fst]. destruct (lookup (f_pid t) (nkey x) l) as [y|] eqn:L; cbn [option_map].
  - cbn [outcome ret fst snd]. split; [reflexivity|]. split; [reflexivity|]. destruct (lookup_it c t l (nkey x) y H L) as (itb' & A' & Ni). rewrite A in A'. injection A' as <-. exact Ni.
  - rewrite (size_1 t l T). eapply outcome_bind; [eapply outcome_weaken; [apply (reserve_for_insert_ok c t h l (f_size t + 1)%N n2 T)|intros a s' X; exact X|]|].
    + pose proof (si_live _ _ _ _ I) as SL. cbn [snd] in SL. lia.
    + lia.
    + unfold FcaIns2.room in Rm. rewrite (ti_size _ _ _ T). lia.
    + intros kd s' (X & Lt). apply (RehashExn_OpExn c (S r) t h l kd s' I Lt X).
    + cbn beta. intros [] s1 n3 (Rh & Z & Eq & _). destruct (Rehashed_SI c (S r) t h l s1 I Rh) as (l1 & I1 & P & F). rewrite bind_bind, bind_get, bind_ret.
      pose proof F as ((F1 & F2 & F3 & F4) & _). cbn [fst] in F1, F2. destruct (at_hash_ok c (fst s1) l1 (nkey x) (ti_c _ _ _ (si_t _ _ _ _ I1))) as (itb' & A'). rewrite F1 in A'. rewrite A'. cbn [of_option]. rewrite bind_ret.
      destruct s1 as [t1 h1]. cbn [fst] in *. eapply outcome_weaken; [apply (on_b_put_ok r t1 h1 l1 x itb' None n3 (OpExn (S r) (t, h) l) I1)| |auto].
      * apply (InHand_perm (t, h) (t1, h1) l l1 x P F Hx).
      * exact Z.
      * rewrite F1. exact A'.
      * unfold FcaOps.HintOk. rewrite F2. apply (lookup_none_perm c _ _ l l1 P L).
      * apply (room_perm l l1 1 P Rm).
      * cbn beta. intros p s' (E & Q). split; [exact E|]. apply (InsPost_perm r (t, h) (t1, h1) l l1); auto.
Qed.
Lemma insert_handle_hint_unique_ok r s l hint x n : SI (S r) s l -> InHand s l x -> multi c = false -> HIt (fst s) l hint -> room l 1 ->
  outcome (insert_handle_hint_unique c hint x s n) (HUPost r s l x) (OpExn (S r) s l).
Proof.
  intros I Hx M Hh Rm. destruct s as [t h]. pose proof (si_t _ _ _ _ I) as T. pose proof (ti_c _ _ _ T) as H. cbn [fst] in *. unfold insert_handle_hint_unique.
  eapply outcome_bind; [eapply outcome_weaken; [apply (hint_matches_ok c (t, h) t l hint (nkey x) n eq_refl T Hh)|intros a s' X; exact X|intros kd' s' X; apply RO_OpExn; assumption]|].
  cbn beta. intros bb s' n1 (-> & Hb & _). unfold HUPost. cbn [fst]. destruct bb.
  - cbn [outcome ret fst snd]. destruct (Hb eq_refl) as (y & Iy & Ny & Ey). rewrite (lookup_of c t l y (nkey x) T M Iy Ey). auto.
  - unfold get_t. rewrite bind_bind, bind_get, bind_ret. cbn [fst].
    apply outcome_hash; [intros R; apply OpExn_kept; [exact R|apply Kept_refl|exact I]|]. intros n2. destruct (at_hash_ok c t l (nkey x) H) as (itb & A). rewrite A. cbn [of_option]. rewrite bind_ret.
    eapply outcome_bind; [eapply outcome_weaken; [apply (find_node_impl_ok c t l (nkey x) itb (t, h) n2 H A)|intros a s' X; exact X|intros kd' s' X; apply RO_OpExn; assumption]|].
    cbn beta. intros ri s' n3 [-> ->]. destruct (lookup (f_pid t) (nkey x) l) as [y|] eqn:L; cbn [option_map].
    + cbn [outcome ret fst snd]. split; [reflexivity|]. split; [reflexivity|]. destruct (lookup_it c t l (nkey x) y H L) as (itb' & A' & Ni). rewrite A in A'. injection A' as <-. exact Ni.
    + eapply outcome_bind; [apply (grow_insert_ok c r (t, h) l x itb n3 I Hx A L); unfold FcaIns2.room in Rm; lia|]. intros it s' n4 [P _]. cbn [outcome ret fst snd]. auto.
Qed.
Lemma insert_handle_equiv_ok r s l x n : SI (S r) s l -> InHand s l x -> multi c = true -> room l 1 ->
  outcome (insert_handle_equiv c x s n) (fun p s' => snd p = None /\ exists ho, HintOk (fst s) l (nkey x) ho /\ InsPost r s l ho x (fst p) s') (WExn (S r) s l).
Proof.
  intros I Hx M Rm. destruct s as [t h]. pose proof (si_t _ _ _ _ I) as T. pose proof (ti_c _ _ _ T) as H. cbn [fst] in *. unfold insert_handle_equiv, get_t. rewrite bind_bind, bind_get, bind_ret. cbn [fst].
  rewrite (size_1 t l T). eapply outcome_bind; [eapply outcome_weaken; [apply (reserve_for_insert_ok c t h l (f_size t + 1)%N n T)|intros a s' X; exact X|]|].
  + pose proof (si_live _ _ _ _ I) as SL. cbn [snd] in SL. lia.
  + lia.
  + unfold FcaIns2.room in Rm. rewrite (ti_size _ _ _ T). lia.
  + intros kd s' (X & Lt). apply (RehashExn_W c (S r) t h l kd s' I X).
  + cbn beta. intros [] s1 n3 (Rh & Z & Eq & _). destruct (Rehashed_SI c (S r) t h l s1 I Rh) as (l1 & I1 & P & F). rewrite bind_bind, bind_get, bind_ret.
    pose proof F as ((F1 & F2 & F3 & F4) & _). cbn [fst] in F1, F2. destruct s1 as [t1 h1]. cbn [fst] in *.
    apply outcome_hash; [intros R; apply (WExn_perm c (S r) (t, h) (t1, h1) l l1 _ _ P F); apply OpExn_W; apply OpExn_kept; [exact R|apply Kept_refl|exact I1]|]. intros n4.
    pose proof (ti_c _ _ _ (si_t _ _ _ _ I1)) as H1. cbn [fst] in H1.
    destruct (at_hash_ok c t1 l1 (nkey x) H1) as (itb' & A'). rewrite A'. cbn [of_option]. rewrite bind_ret.
    eapply outcome_bind; [eapply outcome_weaken; [apply (find_node_impl_ok c t1 l1 (nkey x) itb' (t1, h1) n4 H1 A')|intros a s' X; exact X|intros kd' s' X; apply (WExn_perm c (S r) (t, h) (t1, h1) l l1 _ _ P F); apply OpExn_W; apply RO_OpExn; assumption]|].
    cbn beta. intros ri s' n5 [-> ->]. pose proof (lookup_hint c t1 l1 (nkey x) M) as HO.
    eapply outcome_weaken; [apply (on_b_put_ok r t1 h1 l1 x itb' _ n5 (WExn (S r) (t, h) l) I1 (InHand_perm (t, h) (t1, h1) l l1 x P F Hx) Z A' HO (room_perm l l1 1 P Rm))| |auto].
    cbn beta. intros p s' (E & Q). split; [exact E|]. exists (option_map nd_id (lookup (f_pid t1) (nkey x) l1)). split; [|apply (InsPost_perm r (t, h) (t1, h1) l l1); auto].
    apply (HintOk_perm c t1 t l1 l); [repeat split; congruence|apply Permutation_sym; exact P|exact HO].
Qed.
Lemma lookup_id_total t l y : CInv t l -> In y l -> lookup_id (nd_id y) (concat (b_chains (f_b t))) = Some y.
Proof.
  intros H I. pose proof (nodes_total c t l H) as P. pose proof (Permutation_NoDup (Permutation_map nd_id (Permutation_sym P)) (ci_ids _ _ _ H)) as ND.
  apply (Permutation_in _ (Permutation_sym P)) in I. apply in_split in I as (l1 & l2 & E). destruct (remove_id_split (nd_id y) _ ND l1 y l2 E eq_refl) as (_ & A & _). exact A.
Qed.
Lemma insert_handle_hint_equiv_ok r s l hint x n : SI (S r) s l -> InHand s l x -> multi c = true -> HIt (fst s) l hint -> room l 1 ->
  outcome (insert_handle_hint_equiv c hint x s n) (fun p s' => snd p = None /\ exists ho, HintUsed s l hint x ho /\ InsPost r s l ho x (fst p) s') (WExn (S r) s l).
Proof.
  intros I Hx M Hh Rm. destruct s as [t h]. pose proof (si_t _ _ _ _ I) as T. pose proof (ti_c _ _ _ T) as H. cbn [fst] in *. unfold insert_handle_hint_equiv.
  unfold get_t at 1. rewrite bind_bind, bind_get, bind_ret. cbn [fst].
  apply outcome_hash; [intros R; apply OpExn_W; apply OpExn_kept; [exact R|apply Kept_refl|exact I]|]. intros n1.
  eapply (outcome_bind _ _ _ _ (fun itb s1 => exists l1, SI (S r) s1 l1 /\ Permutation l l1 /\ Fr (t, h) s1 /\ 0 < b_size (f_b (fst s1)) /\ ((f_size t + 1 <= f_ml t)%N -> s1 = (t, h)) /\
     (at_hash (f_b (fst s1)) (hash_of cb (f_hid t) (nkey x)) = Some itb \/ (s1 = (t, h) /\ itb = e_b hint)))).
  - rewrite (size_1 t l T). destruct (N.ltb_spec (f_ml t) (f_size t + 1)) as [L|L].
    + eapply outcome_bind; [eapply outcome_weaken; [apply (reserve_ok c t h l (f_size t + 1)%N n1 T); pose proof (si_live _ _ _ _ I) as SL; cbn [snd] in SL; lia|intros a s' X; exact X|intros kd s' X; apply (RehashExn_W c (S r) t h l kd s' I X)]|].
      cbn beta. intros [] s1 n2 (Rh & _ & Z). destruct (Rehashed_SI c (S r) t h l s1 I Rh) as (l1 & I1 & P & F). unfold get_t. rewrite bind_bind, bind_get, bind_ret.
      pose proof F as ((F1 & F2 & F3 & F4) & _). cbn [fst] in F1. destruct (at_hash_ok c (fst s1) l1 (nkey x) (ti_c _ _ _ (si_t _ _ _ _ I1))) as (itb' & A'). rewrite F1 in A'. rewrite A'. cbn [of_option outcome ret].
      exists l1. split; [exact I1|]. split; [exact P|]. split; [exact F|]. split; [apply Z; lia|]. split; [lia|auto].
    + cbn [outcome ret]. exists l. split; [exact I|]. split; [reflexivity|]. split; [apply Fr_refl|]. split; [|auto]. cbn [fst]. destruct (Nat.eq_dec (b_size (f_b t)) 0) as [Z|Z]; [|lia]. rewrite (ci_null _ _ _ H Z) in L. lia.
  - cbn beta. intros itb s1 n2 (l1 & I1 & P & F & Z & Eq & Hit). destruct s1 as [t1 h1]. cbn [fst] in *. pose proof F as ((F1 & F2 & F3 & F4) & _). cbn [fst] in F1, F2.
    pose proof (si_t _ _ _ _ I1) as T1. pose proof (ti_c _ _ _ T1) as H1. cbn [fst] in *.
    assert (forall kd s', raised kd -> s' = (t1, h1) -> WExn (S r) (t, h) l kd s') as EX.
    { intros kd s' R ->. apply (WExn_perm c (S r) (t, h) (t1, h1) l l1 _ _ P F). apply OpExn_W. apply OpExn_kept; [exact R|apply Kept_refl|exact I1]. }
    assert (forall itb' ho n', at_hash (f_b t1) (hash_of cb (f_hid t) (nkey x)) = Some itb' -> HintUsed (t, h) l hint x ho ->
      outcome ((on_b (fun b => insert_node_hint b itb' x ho) ;;; mod_t inc_size ;;; ret (EI (Some (nd_id x)) itb', @None node)) (t1, h1) n') (fun p s' => snd p = None /\ exists ho, HintUsed (t, h) l hint x ho /\ InsPost r (t, h) l ho x (fst p) s') (WExn (S r) (t, h) l)) as Tail.
    { intros itb' ho n' A' HU. eapply outcome_weaken; [apply (on_b_put_ok r t1 h1 l1 x itb' ho n' (WExn (S r) (t, h) l) I1 (InHand_perm (t, h) (t1, h1) l l1 x P F Hx) Z)| |auto].
      - rewrite F1. exact A'.
      - apply (HintOk_perm c t t1 l l1); [repeat split; congruence|exact P|apply HU].
      - apply (room_perm l l1 1 P Rm).
      - cbn beta. intros p s' (E & Q). split; [exact E|]. exists ho. split; [exact HU|]. apply (InsPost_perm r (t, h) (t1, h1) l l1); auto. }
    eapply (outcome_bind _ _ _ _ (fun us s' => s' = (t1, h1) /\ (us = true -> exists y, In y l /\ NIt (f_b t) y hint /\ keqf cb (f_pid t) (nkey x) (nkey y) = true) /\ forall y, In y l -> NIt (f_b t) y hint -> us = keqf cb (f_pid t) (nkey x) (nkey y))).
    + destruct (e_p hint) as [i|] eqn:Ep; [|cbn; split; [reflexivity|split; [discriminate|]]; intros y _ (p & _ & ->); discriminate].
      destruct Hh as [X|(y & Iy & Ny)]; [congruence|]. assert (i = nd_id y) as -> by (destruct Ny as (p & _ & Ey); rewrite Ey in Ep; cbn in Ep; congruence).
      unfold get_t. rewrite bind_bind, bind_get, bind_ret. cbn [fst]. rewrite (lookup_id_total t1 l1 y H1 (Permutation_in _ P Iy)). cbn [of_option]. rewrite bind_ret.
      apply outcome_tick; [intros R; apply EX; auto|]. intros n3. cbn [outcome ret]. split; [reflexivity|]. rewrite F2. split; [intros E; eauto|]. intros y' Iy' Ny'. f_equal. f_equal.
      destruct Ny as (p & _ & E1), Ny' as (p' & _ & E2). assert (nd_id y = nd_id y') as E by congruence.
      pose proof (lookup_id_total t l y H Iy) as L1. pose proof (lookup_id_total t l y' H Iy') as L2. rewrite <- E, L1 in L2. congruence.
    + cbn beta. intros us s' n3 (-> & Hu & Hu2). destruct us.
      * rewrite bind_ret. cbn [fst snd]. destruct (Hu eq_refl) as (y & Iy & Ny & Ey). destruct (hint_bucket c t l y (nkey x) hint T Iy Ny Ey) as (A & Ep).
        assert (HintUsed (t, h) l hint x (e_p hint)) as HU.
        { rewrite Ep. split; [split; [exact M|]; exists y; auto|]. cbn [fst]. intros y' Iy' Ny' _. f_equal. destruct Ny as (p & _ & E1), Ny' as (p' & _ & E2). congruence. }
        apply Tail; [|exact HU]. destruct Hit as [Hit|[Hs ->]]; [exact Hit|]. assert (t1 = t) as -> by congruence. exact A.
      * unfold get_t. rewrite !bind_bind, bind_get, bind_ret. cbn [fst]. destruct (at_hash_ok c t1 l1 (nkey x) H1) as (itb' & A'). pose proof A' as A2. rewrite F1 in A2. rewrite A2. cbn [of_option]. rewrite bind_bind, bind_ret, bind_bind.
        eapply outcome_bind; [eapply outcome_weaken; [apply (find_node_impl_ok c t1 l1 (nkey x) itb' (t1, h1) n3 H1 A')|intros a s' X; exact X|intros kd' s' (-> & _ & R); apply EX; auto]|].
        cbn beta. intros ri s' n4 [-> ->]. rewrite bind_ret. cbn [fst snd]. apply Tail; [exact A2|]. split; cbn [fst].
        -- apply (HintOk_perm c t1 t l1 l); [repeat split; congruence|apply Permutation_sym; exact P|apply lookup_hint; exact M].
        -- intros y Iy Ny Ey. rewrite <- (Hu2 y Iy Ny) in Ey. discriminate.
Qed.
End Hand.
