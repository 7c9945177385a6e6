(** Counting, equal ranges, comparison and the bucket interface of the closed-addressing containers. *)
From Coq Require Import NArith ZArith Bool List Arith Lia Permutation.
From Verif Require Import FloatModel HashArithModel HashArithProofs FoaModel FoaGroup FoaBase FcaLinks FcaLinksProofs FcaModel FcaInv FcaIter FcaTab FcaRehash FcaOps FcaIns FcaIns2 FcaHandle FcaErase FcaErase2 FcaCopy.
Import ListNotations.
Local Open Scope m_scope.
Local Open Scope nat_scope.

Section Query.
Context {K V : Type} (c : FCfg K V).
Notation node := (node K V).
Notation barray := (barray K V).
Notation table := (FcaModel.table K V).
Notation cb := (base c).
Notation CInv := (CInv c). Notation TInv := (TInv c). Notation raised := (raised c). Notation keq := (keq c). Notation lookup := (lookup c).
Implicit Types (nb : barray) (t : table) (x y z : node) (e : K * V).

(** the elements with a key *)
Definition eqs (p : N) (k : K) (l : list node) : list node := filter (fun x => keqf cb p k (nkey x)) l.
Definition NoneEq (p : N) (k : K) (l : list node) : Prop := forall x, In x l -> keqf cb p k (nkey x) = false.
Definition AllEq (p : N) (k : K) (l : list node) : Prop := forall x, In x l -> keqf cb p k (nkey x) = true.
Lemma eqs_none p k l : NoneEq p k l -> eqs p k l = [].
Proof. unfold NoneEq, eqs. induction l as [|a l IH]; intros H; [reflexivity|]. cbn [filter]. rewrite (H a (or_introl eq_refl)). apply IH. intros x I. apply H. right. exact I. Qed.
Lemma eqs_all p k l : AllEq p k l -> eqs p k l = l.
Proof. unfold AllEq, eqs. induction l as [|a l IH]; intros H; [reflexivity|]. cbn [filter]. rewrite (H a (or_introl eq_refl)), IH; [reflexivity|]. intros x I. apply H. right. exact I. Qed.
Lemma eqs_app p k (l1 l2 : list node) : eqs p k (l1 ++ l2) = eqs p k l1 ++ eqs p k l2. Proof. apply filter_app. Qed.
Lemma uniq_grouped p l : Uniq c p l -> Grouped c p l.
Proof.
  intros U l1 x l2 y l3 -> E. exfalso. apply uniq_app in U as (_ & U & _). inversion U as [|? ? F _]. subst. rewrite Forall_forall in F. rewrite (F y) in E by apply in_elt. discriminate.
Qed.
Lemma keysok_grouped p l : KeysOk c p l -> Grouped c p l. Proof. unfold KeysOk. destruct (multi c); [auto|apply uniq_grouped]. Qed.
(** the run of equivalent elements *)
Lemma run_from p k : forall r : list node, Eqv c p -> (forall x y, keqf cb p k (nkey x) = true -> keq p x y = keqf cb p k (nkey y)) -> forall x, keqf cb p k (nkey x) = true -> Grouped c p (x :: r) -> exists G C, r = G ++ C /\ AllEq p k G /\ NoneEq p k C.
Proof.
  intros r EV Tr. induction r as [|z r IH]; intros x Ex G.
  - exists [], []. split; [reflexivity|]. split; intros y [].
  - destruct (keqf cb p k (nkey z)) eqn:Ez.
    + destruct (IH z Ez) as (G1 & C & -> & A1 & A2); [intros l1 a l2 b l3 E Ek; apply (G (x :: l1) a l2 b l3); [cbn [app]; rewrite E; reflexivity|exact Ek]|].
      exists (z :: G1), C. split; [reflexivity|]. split; [intros y [<-|I]; [exact Ez|apply A1; exact I]|exact A2].
    + exists [], (z :: r). split; [reflexivity|]. split; [intros y []|]. intros y I. destruct (keqf cb p k (nkey y)) eqn:Ey; [|reflexivity]. exfalso.
      destruct I as [<-|I]; [congruence|]. apply in_split in I as (u & v & ->). specialize (G [] x (z :: u) y v eq_refl). rewrite (Tr x y Ex) in G. specialize (G Ey). inversion G as [|? ? B _]. subst. rewrite (Tr x z Ex), Ez in B. discriminate.
Qed.
Lemma key_tr t l k : CInv t l -> forall x y, keqf cb (f_pid t) k (nkey x) = true -> keq (f_pid t) x y = keqf cb (f_pid t) k (nkey y).
Proof.
  intros H x y E. destruct (ci_agree _ _ _ H) as [(Rf & Sy & Tr) _]. unfold FcaTab.keq. destruct (keqf cb (f_pid t) k (nkey y)) eqn:Ey.
  - apply (Tr _ k); [rewrite Sy; exact E|exact Ey].
  - destruct (keqf cb (f_pid t) (nkey x) (nkey y)) eqn:Exy; [|reflexivity]. rewrite (Tr k (nkey x) (nkey y) E Exy) in Ey. discriminate.
Qed.
Lemma lookup_first p k l x : lookup p k l = Some x -> exists A r, l = A ++ x :: r /\ NoneEq p k A.
Proof.
  unfold FcaTab.lookup. induction l as [|a l IH]; intros E; [discriminate|]. cbn [List.find] in E. destruct (keqf cb p k (nkey a)) eqn:Ea.
  - exists [], l. assert (a = x) as -> by congruence. split; [reflexivity|]. intros y [].
  - destruct (IH E) as (A & r & -> & Na). exists (a :: A), r. split; [reflexivity|]. intros y [<-|I]; [exact Ea|apply Na; exact I].
Qed.
Lemma run_split t l0 k l : CInv t l0 -> Grouped c (f_pid t) l -> exists A C, l = A ++ eqs (f_pid t) k l ++ C /\ NoneEq (f_pid t) k A /\ NoneEq (f_pid t) k C /\ (eqs (f_pid t) k l = [] -> C = []) /\
  forall x, lookup (f_pid t) k l = Some x -> exists G, eqs (f_pid t) k l = x :: G.
Proof.
  intros H G. destruct (lookup (f_pid t) k l) as [x|] eqn:L.
  - pose proof (lookup_some c _ _ _ _ L) as [_ Ek]. destruct (lookup_first _ _ _ _ L) as (A & r & -> & Na).
    destruct (run_from (f_pid t) k r (Eqv_of c t l0 H) (key_tr t l0 k H) x Ek) as (G1 & C & -> & A1 & A2); [intros l1 a l2 b l3 E Ej; apply (G (A ++ l1) a l2 b l3); [rewrite <- app_assoc, <- E; reflexivity|exact Ej]|].
    assert (eqs (f_pid t) k (A ++ x :: G1 ++ C) = x :: G1) as ->.
    { rewrite eqs_app, (eqs_none _ _ A Na). cbn [app]. change (x :: G1 ++ C) with ((x :: G1) ++ C). rewrite eqs_app, (eqs_none _ _ C A2), app_nil_r. apply eqs_all. intros y [<-|I]; [exact Ek|apply A1; exact I]. }
    exists A, C. split; [reflexivity|]. split; [exact Na|]. split; [exact A2|]. split; [discriminate|]. intros x' E. assert (x' = x) as -> by congruence. eauto.
  - pose proof (proj1 (lookup_none c _ _ _) L) as Na. exists l, []. rewrite (eqs_none _ _ _ Na), app_nil_r. split; [reflexivity|]. split; [exact Na|]. split; [intros y []|]. split; [auto|discriminate].
Qed.
Lemma next_group_ok {X} p k : forall (G C : list node) (s : X) n, AllEq p k G -> NoneEq p k C -> outcome (next_group c p k (G ++ C) s n) (fun g s' => s' = s /\ g = (G, C)) (RO c s).
Proof.
  induction G as [|a G IH]; intros C s n A1 A2; cbn [app].
  - destruct C as [|b C]; cbn [next_group]; [split; reflexivity|]. apply outcome_tick; [intros R; split; [reflexivity|auto]|]. intros n1. rewrite (A2 b (or_introl eq_refl)). split; reflexivity.
  - cbn [next_group]. apply outcome_tick; [intros R; split; [reflexivity|auto]|]. intros n1. rewrite (A1 a (or_introl eq_refl)). eapply outcome_bind; [apply (IH C s n1)|].
    + intros y I. apply A1. right. exact I.
    + exact A2.
    + cbn beta. intros g s' n2 [-> ->]. split; reflexivity.
Qed.
Lemma count_chain_ok {X} p k : forall (l A G C : list node) (f : bool) (s : X) n, l = A ++ G ++ C -> NoneEq p k A -> AllEq p k G -> NoneEq p k C -> (f = true -> A = []) -> (G = [] -> C = [] \/ f = true) ->
  outcome (count_chain c p k f l s n) (fun m s' => s' = s /\ m = N.of_nat (length G)) (RO c s).
Proof.
  induction l as [|a l IH]; intros A G C f s n E NA AG NC Hf Hc; cbn [count_chain].
  - symmetry in E. apply app_eq_nil in E as [_ E]. apply app_eq_nil in E as [-> _]. split; reflexivity.
  - apply outcome_tick; [intros R; split; [reflexivity|auto]|]. intros n1. destruct A as [|a' A].
    + cbn [app] in E. destruct G as [|g G]; cbn [app] in E.
      * destruct (Hc eq_refl) as [->| ->]; [discriminate|]. subst C. rewrite (NC a (or_introl eq_refl)). split; reflexivity.
      * assert (a = g) as -> by congruence. assert (l = G ++ C) as El by congruence. rewrite (AG g (or_introl eq_refl)). eapply outcome_bind; [apply (IH [] G C true s n1)|].
        -- exact El.
        -- intros y [].
        -- intros y I. apply AG. right. exact I.
        -- exact NC.
        -- auto.
        -- auto.
        -- cbn beta. intros m s' n2 [-> ->]. cbn [outcome ret length]. split; [reflexivity|lia].
    + cbn [app] in E. assert (a = a') as <- by congruence. rewrite (NA a (or_introl eq_refl)). destruct f; [discriminate (Hf eq_refl)|]. apply (IH A G C false s n1); [congruence|intros y I; apply NA; right; exact I|exact AG|exact NC|discriminate|exact Hc].
Qed.
Lemma eqs_chain t l k p : CInv t l -> Wf (f_b t) l -> p < b_size (f_b t) -> fca_position (hash_of cb (f_hid t) k) (b_idx (f_b t)) = Some (N.of_nat p) -> eqs (f_pid t) k l = eqs (f_pid t) k (chainat (f_b t) p).
Proof.
  intros H W L E. destruct (seq_chain _ _ p W L) as (A & C & El & D). rewrite El. rewrite !eqs_app.
  assert (forall y, In y A \/ In y C -> keqf cb (f_pid t) k (nkey y) = false) as F. { intros y I. destruct (D y I) as (q & Nq & J). apply (not_here c t l k p y q H E J Nq). }
  rewrite (eqs_none _ _ A), (eqs_none _ _ C), app_nil_r; [reflexivity| |]; intros y I; apply F; auto.
Qed.
Lemma group_count_ok {X} t l k (s : X) n : TInv t l -> outcome (group_count c t k s n) (fun m s' => s' = s /\ m = N.of_nat (length (eqs (f_pid t) k l))) (RO c s).
Proof.
  intros T. pose proof T as [H Sz Rm]. unfold group_count. destruct (N.eqb_spec (f_size t) 0) as [E|E].
  - assert (l = []) as -> by (destruct l; [reflexivity|cbn in Sz; lia]). split; reflexivity.
  - assert (l <> []) as Nl by (intros ->; cbn in Sz; lia). pose proof (BOk_cons _ _ (ci_b _ _ _ H) Nl) as W.
    apply outcome_hash; [intros R; split; [reflexivity|auto]|]. intros n1. destruct (at_hash_wf _ _ _ W (hash_lt c (f_hid t) k)) as (p & Lp & P & A). rewrite A. cbn [of_option]. rewrite bind_ret.
    assert (chain (f_b t) (BI p (Some (p / 64))) = Some (chainat (f_b t) p)) as -> by (destruct W as (o & W & _); apply (chain_at _ (ne (f_b t)) o); [exact W|lia]).
    cbn [of_option]. rewrite bind_ret, (eqs_chain t l k p H W Lp P).
    destruct (run_split t l k (chainat (f_b t) p) H (keysok_grouped _ _ (ci_keys _ _ _ H p))) as (A0 & C & El & NA & NC & Hc & _).
    apply (count_chain_ok _ k _ A0 (eqs (f_pid t) k (chainat (f_b t) p)) C false); [exact El|exact NA| |exact NC|discriminate|auto].
    intros y I. apply filter_In in I. apply I.
Qed.
Lemma equal_range_ok {X} t l k (s : X) n : TInv t l -> outcome (equal_range c t k s n) (fun g s' => s' = s /\ g = eqs (f_pid t) k l) (RO c s).
Proof.
  intros T. pose proof T as [H Sz Rm]. unfold equal_range. eapply outcome_bind; [apply (find_ok c t l k s n T)|]. cbn beta. intros it s' n1 [-> Ho].
  destruct (run_split t l k l H (keysok_grouped _ _ (keysok_all c t l T))) as (A & C & El & NA & NC & Hc & Hx). unfold opt_it in Ho. destruct (lookup (f_pid t) k l) as [x|] eqn:L.
  - destruct (Hx x eq_refl) as (G & EG). clear Hx. rewrite EG in *. cbn [app] in El. assert (e_eqb it e_end = false) as -> by (destruct Ho as (p & J & ->); reflexivity).
    pose proof (ci_b _ _ _ H) as B. pose proof (ci_ids _ _ _ H) as ND. assert (Pos (f_b t) l (length A) it) as PO by (apply (pos_nth _ _ A x (G ++ C)); [exact El|exact Ho]).
    assert (length l = length A + S (length G) + length C) as Ll by (rewrite El, app_length; cbn [length]; rewrite app_length; lia).
    destruct (multi c) eqn:M.
    + rewrite (rest_ok t l (length A) it B ND Sz ltac:(lia) PO). cbn [of_option]. rewrite bind_ret, El, skipn_app_len. change (x :: G ++ C) with ((x :: G) ++ C).
      eapply outcome_bind; [apply (next_group_ok _ k (x :: G) C s n1)|].
      * intros y I. rewrite <- EG in I. apply filter_In in I. apply I.
      * exact NC.
      * cbn beta. intros g s' n2 [-> ->]. split; reflexivity.
    + assert (G = []) as ->.
      { destruct G as [|g G]; [reflexivity|]. exfalso. pose proof (keysok_all c t l T) as U. unfold KeysOk in U. assert (In g (eqs (f_pid t) k l)) as Ig by (rewrite EG; right; left; reflexivity). apply filter_In in Ig as [_ Ig]. pose proof (lookup_some c _ _ _ _ L) as [_ Ek].
        pose proof (key_tr t l k H x g Ek) as KT. rewrite M, El in U. apply uniq_app in U as (_ & U & _). inversion U as [|? ? F ?]. cbn [app] in F. inversion F as [|? ? F1 ?]. congruence. }
      cbn [app length] in *. assert (Wf (f_b t) l) as W by (apply BOk_cons; [exact B|intros ->; destruct A; discriminate]).
      destruct (e_next_ok (f_b t) l (length A) it W ND ltac:(lia) PO) as (nx & En & Pn). rewrite En. cbn [of_option]. rewrite bind_ret.
      rewrite (walk_ok (f_b t) l B ND (fuel_of t) (length A) it (S (length A)) nx) by (try assumption; try lia; unfold fuel_of; rewrite Sz, Nnat.Nat2N.id; lia).
      replace (S (length A) - length A) with 1 by lia. rewrite El, skipn_app_len. split; reflexivity.
  - assert (e_eqb it e_end = true) as -> by (unfold e_eqb; rewrite Ho; reflexivity). cbn [outcome ret]. split; [reflexivity|]. symmetry. apply eqs_none. exact (proj1 (lookup_none c _ _ _) L).
Qed.

(** *** the bucket interface *)
Lemma bucket_of_ok {X} t l k (s : X) n : TInv t l -> 0 < b_size (f_b t) ->
  outcome (bucket_of c t k s n) (fun m s' => s' = s /\ (m < bucket_count (f_b t))%N /\ fca_position (hash_of cb (f_hid t) k) (b_idx (f_b t)) = Some m) (fun kd s' => kd = KHash /\ raised kd /\ s' = s).
Proof.
  intros T Z. pose proof (BOk_pos _ _ (ci_b _ _ _ (ti_c _ _ _ T)) Z) as W. unfold bucket_of. apply outcome_hash; [auto|]. intros n1. destruct (at_hash_wf _ _ _ W (hash_lt c (f_hid t) k)) as (p & Lp & P & _). rewrite P. cbn [of_option outcome ret].
  split; [reflexivity|]. split; [unfold bucket_count; lia|reflexivity].
Qed.
Lemma local_ok t l m : TInv t l -> m < b_size (f_b t) -> local_elements t m = Some (chainat (f_b t) m).
Proof.
  intros T Lm. pose proof (BOk_pos _ _ (ci_b _ _ _ (ti_c _ _ _ T)) ltac:(lia)) as (o & W & _). unfold local_elements. destruct (Nat.eqb_spec (b_size (f_b t)) 0) as [E|_]; [lia|]. unfold chainat. apply nth_error_nth'. rewrite (wb_len _ _ _ W). lia.
Qed.
Lemma bucket_size_ok t l m : TInv t l -> m < b_size (f_b t) -> bucket_size t m = Some (N.of_nat (length (chainat (f_b t) m))).
Proof.
  intros T Lm. pose proof (BOk_pos _ _ (ci_b _ _ _ (ti_c _ _ _ T)) ltac:(lia)) as W. unfold bucket_size. destruct (N.ltb_spec 0 (f_size t)) as [L|L].
  - unfold b_at. destruct (Nat.ltb_spec 0 (b_size (f_b t))) as [_|X]; [|lia]. destruct W as (o & W & _). rewrite (chain_at _ (ne (f_b t)) o) by (try exact W; lia). reflexivity.
  - assert (l = []) as -> by (destruct l; [reflexivity|rewrite (ti_size _ _ _ T) in L; cbn in L; lia]). destruct (chainat (f_b t) m) as [|y r] eqn:E; [reflexivity|]. exfalso. apply (in_CInv c t [] y m (ti_c _ _ _ T)). rewrite E. left. reflexivity.
Qed.
Lemma buckets_total t l : TInv t l -> Permutation (flat_map (chainat (f_b t)) (seq 0 (b_size (f_b t)))) l.
Proof.
  intros T. pose proof (ti_c _ _ _ T) as H. destruct (Nat.eq_dec (b_size (f_b t)) 0) as [Z|Z].
  - rewrite Z. cbn. destruct l as [|y l]; [constructor|]. exfalso. pose proof (TInv_wf c t _ y T (or_introl eq_refl)) as (o & W & _). pose proof (wb_pos _ _ _ W). lia.
  - pose proof (BOk_pos _ _ (ci_b _ _ _ H) ltac:(lia)) as (o & W & E). apply NoDup_Permutation.
    + rewrite <- (flat_map_concat_map) || idtac.
      assert (forall i, In i (seq 0 (b_size (f_b t))) -> i < b_size (f_b t)) as Ls by (intros i I; apply in_seq in I; lia). revert Ls. pose proof (seq_NoDup (b_size (f_b t)) 0) as ND. induction (seq 0 (b_size (f_b t))) as [|i r IH]; intros Ls; [constructor|]. cbn [flat_map]. inversion ND as [|? ? N1 N2]. subst.
      assert (NoDup (chainat (f_b t) i)) as Nc by (apply (NoDup_map_inv nd_id); apply (chain_nodup _ _ o i W); apply (ci_ids _ _ _ H)).
      assert (forall y, In y (chainat (f_b t) i) -> ~ In y (flat_map (chainat (f_b t)) r)) as D.
      { intros y Iy J. apply in_flat_map in J as (j & Ij & Jy). destruct (chain_unique _ _ o i j y y W (ci_ids _ _ _ H) Iy Jy eq_refl) as [-> _]. contradiction. }
      specialize (IH N2 (fun j J => Ls j (or_intror J))). clear - Nc D IH. induction (chainat (f_b t) i) as [|y l IHl]; [exact IH|]. cbn [app]. inversion Nc. subst. constructor; [|apply IHl; [assumption|intros z Iz; apply D; right; exact Iz]]. intros I. apply in_app_or in I as [I|I]; [contradiction|]. apply (D y (or_introl eq_refl) I).
    + apply (NoDup_map_inv nd_id). apply (ci_ids _ _ _ H).
    + intros y. rewrite in_flat_map. split.
      * intros (i & _ & I). apply (in_CInv c t l y i H I).
      * intros I. destruct (CInv_in c t l y H I) as (q & J). exists q. split; [|exact J]. apply in_seq. pose proof (chain_lt _ _ _ _ _ W J). lia.
Qed.
End Query.
