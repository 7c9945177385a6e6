(** Erasure of ranges and of whole containers. *)
From Coq Require Import NArith ZArith Bool List Arith Lia Permutation.
From Verif Require Import FloatModel HashArithModel HashArithProofs FoaModel FoaGroup FoaBase FcaLinks FcaLinksProofs FcaModel FcaInv FcaIter FcaTab FcaRehash FcaOps FcaIns FcaIns2 FcaHandle FcaErase.
Import ListNotations.
Local Open Scope m_scope.
Local Open Scope nat_scope.

Section Erase.
Context {K V : Type} (c : FCfg K V).
Notation node := (node K V).
Notation barray := (barray K V).
Notation table := (FcaModel.table K V).
Notation cb := (base c).
Notation St := (table * heap)%type.
Notation CInv := (CInv c). Notation TInv := (TInv c). Notation raised := (raised c). Notation keq := (keq c). Notation lookup := (lookup c).
Notation SI := (SI c). Notation OpExn := (OpExn c).
Notation WExn := (WExn c).
Implicit Types (b nb : barray) (t : table) (x y : node) (s : St) (e : K * V).

Definition Erased (r : nat) (s : St) (l' : list node) (s' : St) : Prop := SI r s' l' /\ SameB s s' /\ Valid s s' l'.
Lemma Erased_refl r s l : SI r s l -> Erased r s l s. Proof. intros I. split; [exact I|]. split; [apply SameB_refl|apply Valid_refl]. Qed.
Lemma Erased_trans r s l1 s1 l2 s2 : Erased r s l1 s1 -> Erased r s1 l2 s2 -> incl l2 l1 -> Erased r s l2 s2.
Proof. intros (A & B & C) (A' & B' & C') I. split; [exact A'|]. split; [apply (SameB_trans _ s1); assumption|]. intros y it Iy Ny. apply C'; [exact Iy|]. apply C; [apply I; exact Iy|exact Ny]. Qed.
Lemma skipn_app_len {A} (l1 l2 : list A) : skipn (length l1) (l1 ++ l2) = l2.
Proof. induction l1; [reflexivity|exact IHl1]. Qed.
Lemma mid_pos b (l1 D : list node) it : Pos b (l1 ++ D) (length l1) it -> e_p it = first_id D /\ forall x r0, D = x :: r0 -> NIt b x it.
Proof.
  unfold Pos. rewrite nth_error_app2, Nat.sub_diag by lia. destruct D as [|x r0]; cbn [nth_error first_id]; [intros [_ X]; split; [exact X|discriminate]|]. intros N. split; [destruct N as (p & _ & ->); reflexivity|]. intros x0 r1 E. injection E as <- _. exact N.
Qed.
Lemma skipn_skipn {A} i : forall j (l : list A), skipn i (skipn j l) = skipn (i + j) l.
Proof. intros j. induction j as [|j IH]; intros l; [rewrite Nat.add_0_r; reflexivity|]. rewrite Nat.add_succ_r. destruct l as [|a l]; [destruct i; reflexivity|]. cbn [skipn]. apply IH. Qed.
Lemma filter_length_le' {A} (f : A -> bool) l : length (filter f l) <= length l.
Proof. induction l as [|a l IH]; [reflexivity|]. cbn [filter]. destruct (f a); cbn [length]; lia. Qed.
Lemma erase_from_ok r E : forall D fuel itb pre rest t h L1 L2 n, SI r (t, h) (L1 ++ D ++ L2) -> length D < fuel -> chain (f_b t) itb = Some (pre ++ rest) -> Pos (f_b t) (L1 ++ D ++ L2) (length L1) (EI (first_id rest) itb) ->
  outcome (erase_from fuel itb pre (first_id L2) (t, h) n) (fun _ s' => Erased r (t, h) (L1 ++ L2) s') E.
Proof.
  induction D as [|x D IH]; intros fuel itb pre rest t h L1 L2 n I Lf Ec PO; (destruct fuel as [|fuel]; [lia|]); cbn [erase_from]; rewrite get_t_eq, Ec; cbn [of_option]; rewrite bind_ret; cbv zeta; rewrite skipn_app_len; apply mid_pos in PO as [PO PN]; cbn [e_p] in PO; rewrite PO.
  - cbn [app]. assert ((match first_id L2 with Some i => match first_id L2 with Some j => i =? j | None => false end | None => match first_id L2 with Some _ => false | None => true end end) = true) as -> by (destruct (first_id L2); [apply Nat.eqb_refl|reflexivity]).
    cbn [outcome ret]. apply Erased_refl. exact I.
  - cbn [app first_id]. pose proof (si_t _ _ _ _ I) as T. cbn [fst] in T. pose proof (ci_ids _ _ _ (ti_c _ _ _ T)) as ND.
    assert ((match first_id L2 with Some j => nd_id x =? j | None => false end) = false) as ->.
    { destruct L2 as [|y L2]; [reflexivity|]. cbn [first_id]. apply Nat.eqb_neq. intros X. rewrite map_app in ND. cbn [app map] in ND. apply NoDup_remove_2 in ND. apply ND. apply in_or_app. right. rewrite map_app. apply in_or_app. right. left. symmetry. exact X. }
    specialize (PN x (D ++ L2) eq_refl). pose proof PN as (p & Jx & Ei). assert (itb = BI p (Some (p / 64))) as -> by congruence. clear Ei.
    pose proof (TInv_wfc c t _ x p T Jx) as W. pose proof W as (o & Wo & Eo). pose proof (chain_lt _ _ _ _ _ Wo Jx) as Lp.
    assert (chainat (f_b t) p = pre ++ rest) as Ec' by (rewrite (chain_at _ _ o) in Ec by (try exact Wo; lia); congruence).
    destruct rest as [|z r0]; [discriminate|]. cbn [first_id] in PO. assert (z = x) as ->.
    { rewrite Eo in ND. apply (chain_unique _ _ o p p z x Wo ND); [rewrite Ec'; apply in_elt|exact Jx|cbn [app first_id] in PO; congruence]. }
    destruct (e_next_ok (f_b t) _ (length L1) _ W ND ltac:(rewrite app_length; cbn [app length]; lia) (pos_nth (f_b t) _ L1 x (D ++ L2) _ eq_refl PN)) as (nx & En & Pn).
    cbn [first_id] in En. unfold e_next in En. cbn [e_p e_b bindo] in En. rewrite Ec in En. cbn [bindo] in En.
    assert (after (nd_id x) (pre ++ x :: r0) = Some r0) as Af. { rewrite <- Ec'. apply (remove_id_split (nd_id x) _ (chain_nodup _ _ o p Wo ltac:(rewrite <- Eo; exact ND)) pre x r0 Ec' eq_refl). }
    rewrite Af in En. cbn [bindo] in En.
    destruct (extract_set (f_b t) _ p pre x r0 W ND Ec') as (b1 & Es & Ch1 & Gr & Ex). destruct (take_tab c t _ p x T Jx) as (b' & l1 & l2 & Eb & El & T' & BC & X1 & X2 & c1 & c2 & Ec1 & Ec2). rewrite Ex in Eb.
    assert (l1 = L1 /\ l2 = D ++ L2) as [-> ->] by (apply (split_nodup x l1 l2 L1 (D ++ L2)); [apply (NoDup_map_inv nd_id); exact ND|exact El]). clear El.
    assert (c1 = pre /\ c2 = r0) as [-> ->]. { apply (split_nodup x c1 c2 pre r0); [|congruence]. rewrite <- Ec'. apply (NoDup_map_inv nd_id). apply (chain_nodup _ (ne (f_b t)) o p Wo). rewrite <- Eo. exact ND. }
    assert (forall s', s' = (dec_size (set_b b' t), Hp (Nat.pred (live h)) (next h)) -> Erased r (t, h) (L1 ++ D ++ L2) s') as R1.
    { intros s' ->. split; [apply (SI_del c r t h L1 x (D ++ L2) b' I T')|]. split; [repeat split; exact BC|]. intros y jt Jy. cbn [fst dec_size set_size set_b f_b]. apply X1. apply (nodup_ids_mid c t L1 x (D ++ L2) y T Jy). }
    pose proof (pos_shift c t b' L1 x (D ++ L2) (length L1) nx T X1 (le_n _) Pn) as Pn'. cbn [length] in Lf.
    assert (In x (L1 ++ (x :: D) ++ L2)) as Ix by (apply in_elt).
    rewrite (on_b_eq _ b1) by exact Es. rewrite delete_eq by (try apply (live_pos c r t h _ x I Ix); cbn [set_b f_al]; apply (al_in c t _ x T Ix)). rewrite mod_t_eq.
    assert (forall itb' pre' rest' n', chain b' itb' = Some (pre' ++ rest') -> nx = EI (first_id rest') itb' -> outcome (erase_from fuel itb' pre' (first_id L2) (dec_size (set_b b' t), Hp (Nat.pred (live h)) (next h)) n') (fun _ s' => Erased r (t, h) (L1 ++ L2) s') E) as Rec.
    { intros itb' pre' rest' n' Ch En'. specialize (R1 _ eq_refl). eapply outcome_weaken; [apply (IH fuel itb' pre' rest' (dec_size (set_b b' t)) _ L1 L2 n')|intros u s' Q; eapply Erased_trans; [exact R1|exact Q|]|auto].
      - apply R1.
      - lia.
      - exact Ch.
      - cbn [dec_size set_size set_b f_b]. rewrite <- En'. exact Pn'.
      - intros y Iy. apply in_app_or in Iy as [Iy|Iy]; apply in_or_app; [left; exact Iy|right; apply in_or_app; right; exact Iy]. }
    assert (forall q, chainat b' q = (if q =? p then pre ++ r0 else chainat (f_b t) q)) as CA by (intros q; destruct (Nat.eqb_spec q p) as [->|Nq]; [exact Ec2|apply X2; exact Nq]).
    destruct r0 as [|y r0].
    + cbn [is_nil]. rewrite get_t_eq. cbn [dec_size set_size set_b f_b]. rewrite Gr. destruct (increment (b_groups (f_b t)) (BI p (Some (p / 64)))) as [itb'|] eqn:Ei; [|discriminate]. cbn [bindo] in En. cbn [of_option]. rewrite bind_ret.
      destruct (chain (f_b t) itb') as [ch|] eqn:Eh; [|discriminate]. cbn [bindo] in En. assert (nx = EI (first_id ch) itb') as Enx by congruence.
      assert (exists ch', chain b' itb' = Some ch' /\ first_id ch' = first_id ch) as (ch' & Eh' & Ef).
      { assert (exists o', WB b' (ne b') o') as (o' & Wo'). { destruct (ci_b _ _ _ (ti_c _ _ _ T')) as [[Bn _]|(o' & Wo' & _)]; [|eauto]. exfalso. apply (f_equal b_size) in Bn. cbn [dec_size set_size set_b f_b b_null b_size] in Bn. unfold bucket_count in BC. lia. }
        assert (b_size b' = b_size (f_b t)) as BS by (unfold bucket_count in BC; lia). destruct itb' as [q g].
        assert (q <= b_size (f_b t)) as Lq. { unfold chain in Eh. cbn [bi_p] in Eh. pose proof (proj1 (nth_error_Some (b_chains (f_b t)) q) ltac:(congruence)) as X. pose proof (wb_len _ _ _ Wo). lia. }
        rewrite (chain_at _ _ o) in Eh by (try exact Wo; lia). rewrite (chain_at _ _ o') by (try exact Wo'; lia). exists (chainat b' q). split; [reflexivity|]. assert (ch = chainat (f_b t) q) as -> by congruence. rewrite CA.
        destruct (Nat.eqb_spec q p) as [->|]; [|reflexivity]. rewrite Ec', app_nil_r. destruct pre as [|w pre]; [|reflexivity]. exfalso.
        rewrite Ec' in Enx. cbn [app first_id] in Enx. rewrite Enx in Pn'. unfold Pos in Pn'. destruct (nth_error (L1 ++ D ++ L2) (length L1)) as [w|] eqn:Ew; [|destruct Pn'; discriminate]. destruct Pn' as (q2 & Jq & Eq). injection Eq as Eid _ _.
        apply nth_error_In in Ew. rewrite map_app in ND. cbn [app map] in ND. apply NoDup_remove_2 in ND. apply ND. rewrite <- map_app, Eid. apply in_map. exact Ew. }
      rewrite app_nil_r in *. destruct (is_nil pre) eqn:Ep.
      * rewrite (on_b_eq _ b') by exact Eb. apply (Rec itb' [] ch'); [exact Eh'|congruence].
      * rewrite bind_ret. assert (b1 = b') as -> by congruence. apply (Rec itb' [] ch'); [exact Eh'|congruence].
    + cbn [is_nil] in *. assert (b1 = b') as -> by (destruct pre; cbn [app is_nil] in Eb; congruence). apply (Rec _ pre (y :: r0)); [exact Ch1|]. cbn [first_id]. congruence.
Qed.
Lemma erase_nodes_range_ok r s l i j first last n E : SI r s l -> i <= j -> j <= length l -> Pos (f_b (fst s)) l i first -> Pos (f_b (fst s)) l j last ->
  outcome (erase_nodes_range first last s n) (fun _ s' => Erased r s (firstn i l ++ skipn j l) s') E.
Proof.
  intros I Lij Lj Pi Pj. destruct s as [t h]. pose proof (si_t _ _ _ _ I) as T. cbn [fst] in *. unfold erase_nodes_range. destruct (Nat.eq_dec i j) as [<-|Nij].
  - assert (e_eqb first last = true) as ->.
    { destruct l as [|x l]; [|rewrite (e_eqb_pos (f_b t) (x :: l) i first i last); [apply Nat.eqb_refl|apply (TInv_wf c t _ x T); left; reflexivity|apply (ci_ids _ _ _ (ti_c _ _ _ T))|lia|lia|exact Pi|exact Pj]].
      unfold Pos in *. destruct i; cbn [nth_error] in *; destruct Pi as [_ Pi], Pj as [_ Pj]; unfold e_eqb; rewrite Pi, Pj; reflexivity. }
    cbn [outcome ret]. rewrite firstn_skipn. apply Erased_refl. exact I.
  - assert (exists x l', l = x :: l') as (x0 & l0 & El0) by (destruct l; [cbn in Lj; lia|eauto]). pose proof (TInv_wf c t l x0 T ltac:(rewrite El0; left; reflexivity)) as W. pose proof (ci_ids _ _ _ (ti_c _ _ _ T)) as ND.
    rewrite (e_eqb_pos (f_b t) l i first j last W ND ltac:(lia) Lj Pi Pj). destruct (Nat.eqb_spec i j) as [|_]; [contradiction|]. rewrite get_t_eq.
    set (L1 := firstn i l). set (D := firstn (j - i) (skipn i l)). set (L2 := skipn j l).
    assert (l = L1 ++ D ++ L2) as El. { unfold L1, D, L2. rewrite <- (firstn_skipn i l) at 1. f_equal. rewrite <- (firstn_skipn (j - i) (skipn i l)) at 1. f_equal. rewrite skipn_skipn. f_equal. lia. }
    assert (length L1 = i) as LL1 by (unfold L1; rewrite firstn_length; lia). assert (length D = j - i) as LD by (unfold D; rewrite firstn_length, skipn_length; lia).
    fold L1 L2. clearbody L1 D L2. destruct D as [|x D]; [cbn in LD; lia|]. rewrite El in I, Pi, Pj. rewrite <- LL1 in Pi. pose proof Pi as Pi0. apply mid_pos in Pi as [Ei Ni]. specialize (Ni x (D ++ L2) eq_refl). pose proof Ni as (p & Jx & Ef). subst first. cbn [e_p e_b of_option]. rewrite bind_ret.
    pose proof W as (o & Wo & Eo). pose proof (chain_lt _ _ _ _ _ Wo Jx) as Lp. rewrite (chain_at _ _ o) by (try exact Wo; lia). cbn [bindo]. pose proof Jx as Jx0. apply in_split in Jx0 as (pre & suf & Ec).
    destruct (remove_id_split (nd_id x) _ (chain_nodup _ _ o p Wo ltac:(rewrite <- Eo; exact ND)) pre x suf Ec eq_refl) as (_ & _ & _ & Es & _). rewrite Es. cbn [of_option]. rewrite bind_ret. cbn [fst snd].
    assert (e_p last = first_id L2) as ->. { rewrite app_assoc in Pj. replace j with (length (L1 ++ x :: D)) in Pj by (rewrite app_length, LL1, LD; lia). apply mid_pos in Pj as [X _]. exact X. }
    apply (erase_from_ok r E (x :: D) (fuel_of t) _ pre (x :: suf) t h L1 L2 n I).
    + unfold fuel_of. rewrite (ti_size _ _ _ T), Nnat.Nat2N.id. lia.
    + rewrite (chain_at _ _ o) by (try exact Wo; lia). rewrite Ec. reflexivity.
    + exact Pi0.
Qed.

(** *** clear *)
Lemma clear_chain_ok {A} r q q2 l3 (f : unit -> M St A) Q E : forall ch t h l o n, SI r (t, h) l -> WB (f_b t) (ne (f_b t)) o -> l = seqn (f_b t) (ne (f_b t)) o -> bseq (b_size (f_b t)) (ne (f_b t)) o = q :: q2 :: l3 -> chainat (f_b t) q = ch -> ch <> [] ->
  (forall s' l' o' n', SI r s' l' -> l = ch ++ l' -> WB (f_b (fst s')) (ne (f_b (fst s'))) o' -> l' = seqn (f_b (fst s')) (ne (f_b (fst s'))) o' -> bseq (b_size (f_b (fst s'))) (ne (f_b (fst s'))) o' = q2 :: l3 -> SameB (t, h) s' -> outcome (f tt s' n') Q E) ->
  outcome (bind (clear_chain ch (BI q (Some (q / 64)))) f (t, h) n) Q E.
Proof.
  induction ch as [|x ch IH]; intros t h l o n I W El Eb Ec Nn H; [contradiction|]. cbn [clear_chain]. pose proof (si_t _ _ _ _ I) as T. cbn [fst] in T. pose proof (ci_ids _ _ _ (ti_c _ _ _ T)) as ND.
  assert (In x (chainat (f_b t) q)) as Jx by (rewrite Ec; left; reflexivity).
  rewrite El in ND. destruct (extract_node_ord (f_b t) o q x W ND Jx) as (b' & o' & l1 & l2 & Ex & Sq & W' & Sq' & Y1 & Y2 & Y3 & Y4 & (c1 & c2 & Ec1 & Ec2) & BF). rewrite <- El in ND.
  destruct (take_tab c t l q x T Jx) as (b2 & m1 & m2 & Ex2 & El2 & T' & BC & X1 & X2 & _). assert (b2 = b') as -> by congruence.
  assert (m1 = l1 /\ m2 = l2) as [-> ->] by (apply (split_nodup x m1 m2 l1 l2); [rewrite <- Sq, <- El; apply (NoDup_map_inv nd_id); exact ND|rewrite <- Sq, <- El; exact El2]).
  assert (l = x :: ch ++ flat_map (chainat (f_b t)) (q2 :: l3)) as Elx by (rewrite El; unfold seqn; rewrite Eb; cbn [flat_map]; rewrite Ec; reflexivity).
  assert (l1 = [] /\ l2 = ch ++ flat_map (chainat (f_b t)) (q2 :: l3)) as [-> ->].
  { apply (split_nodup x l1 l2 [] (ch ++ flat_map (chainat (f_b t)) (q2 :: l3))); [cbn [app]; rewrite <- Elx; apply (NoDup_map_inv nd_id); exact ND|cbn [app]; rewrite <- Elx; congruence]. }
  assert (c1 = [] /\ c2 = ch) as [-> ->].
  { apply (split_nodup x c1 c2 [] ch); [cbn [app]; rewrite <- Ec; apply (NoDup_map_inv nd_id); rewrite El in ND; apply (chain_nodup _ (ne (f_b t)) o q W ND)|cbn [app]; congruence]. }
  cbn [app] in *. assert (In x l) as Ix by (rewrite Elx; left; reflexivity).
  pose proof (bseq_nodup _ _ _ _ (wb_links _ _ _ W)) as NB. rewrite Eb in NB.
  assert (q <> b_size (f_b t)) as Nq by (pose proof (chain_lt _ _ _ _ _ W Jx); lia).
  assert (forall i, In i (q2 :: l3) -> marked (b_size (f_b t)) (ne b') i = true) as MK.
  { intros i Ii. rewrite <- (marked_ext (b_size (f_b t)) (ne (f_b t))); [apply (in_bseq _ _ _ _ (wb_links _ _ _ W)); rewrite Eb; right; exact Ii|]. intros _. unfold ne. rewrite X2; [reflexivity|]. intros ->. inversion NB. contradiction. }
  set (s1 := (dec_size (set_b b' t), Hp (Nat.pred (live h)) (next h))).
  assert (SI r s1 (ch ++ flat_map (chainat (f_b t)) (q2 :: l3))) as I1. { rewrite Elx in I. apply (SI_del c r t h [] x _ b' I T'). }
  assert (SameB (t, h) s1) as SB1 by (repeat split; exact BC).
  rewrite !bind_bind, (on_b_eq _ b') by exact Ex. rewrite bind_bind, delete_eq by (try apply (live_pos c r t h l x I Ix); cbn [set_b f_al]; apply (al_in c t l x T Ix)). rewrite bind_bind, mod_t_eq. fold s1.
  destruct ch as [|y ch].
  - cbn [clear_chain]. rewrite bind_ret. apply (H s1 (flat_map (chainat (f_b t)) (q2 :: l3)) o'); [exact I1|exact Elx|exact W'| | |exact SB1].
    + unfold s1. cbn [fst dec_size set_size set_b f_b]. rewrite Sq'. reflexivity.
    + unfold s1. cbn [fst dec_size set_size set_b f_b]. rewrite Y2, BF, Eb. cbn [filter]. assert (marked (b_size (f_b t)) (ne b') q = false) as ->. { unfold marked, ne. rewrite Ec2. cbn [is_nil negb]. rewrite andb_false_l. cbn [orb]. apply Nat.eqb_neq. exact Nq. }
      apply filter_all in MK. exact MK.
  - unfold s1. apply (IH (dec_size (set_b b' t)) (Hp (Nat.pred (live h)) (next h)) ((y :: ch) ++ flat_map (chainat (f_b t)) (q2 :: l3)) o'); [exact I1|exact W'| | |exact Ec2| |].
    + cbn [dec_size set_size set_b f_b]. rewrite Sq'. reflexivity.
    + cbn [dec_size set_size set_b f_b]. rewrite Y2, BF, Eb. apply filter_all. intros i [<-|Ii]; [|apply MK; exact Ii]. unfold marked, ne. rewrite Ec2. cbn [is_nil negb andb]. apply orb_true_iff. left. apply Nat.ltb_lt. apply (chain_lt _ _ _ _ _ W Jx).
    + discriminate.
    + intros s' l' o2 n' I' E2 W2 El' Eb' SB. apply (H s' l' o2); auto; [rewrite Elx, E2; reflexivity|apply (SameB_trans _ s1); assumption].
Qed.
Lemma clear_from_ok r E : forall fuel t h l itb n, SI r (t, h) l -> length l < fuel -> b_begin (f_b t) = Some itb -> outcome (clear_from fuel itb (t, h) n) (fun _ s' => SI r s' [] /\ SameB (t, h) s') E.
Proof.
  induction fuel as [|fuel IH]; intros t h l itb n I Lf B; [lia|]. cbn [clear_from]. rewrite get_t_eq. pose proof (si_t _ _ _ _ I) as T. cbn [fst] in T.
  destruct (ci_b _ _ _ (ti_c _ _ _ T)) as [[Bn ->]|(o & W & El)].
  - rewrite Bn in *. cbn in B. injection B as <-. cbn. split; [|apply SameB_refl]. exact I.
  - destruct (e_begin_ok _ _ W) as (q & l2 & Eb & B' & Eh & _). assert (itb = BI q (Some (q / 64))) as -> by congruence. unfold bi_eqb, b_end. cbn [bi_p]. destruct (Nat.eqb_spec q (b_size (f_b t))) as [Eq|Nq].
    + cbn [outcome ret]. split; [|apply SameB_refl]. assert (l = []) as ->; [|exact I]. rewrite El. unfold seqn. rewrite Eb. rewrite Eq in Eb. rewrite (bseq_end _ _ o [] l2 W Eb). cbn [flat_map]. rewrite Eq, (wb_last _ _ _ W). reflexivity.
    + destruct (bseq_tail _ _ o [] q l2 W Eb Nq) as (q2 & l3 & ->). rewrite (increment_seq (b_size (f_b t)) (b_groups (f_b t)) (ne (f_b t)) o (wb_links _ _ _ W) [b_size (f_b t)] q q2 l3) by (rewrite Eb; reflexivity). cbn [of_option]. rewrite bind_ret, Eh. cbn [of_option]. rewrite bind_ret.
      destruct (marked_ne _ o q W ltac:(rewrite Eb; left; reflexivity) Nq) as (Lq & x & ch & Ec).
      apply (clear_chain_ok r q q2 l3 _ _ _ (chainat (f_b t) q) t h l o n I W El Eb eq_refl); [rewrite Ec; discriminate|]. intros [t' h'] l' o' n' I' Ell W' El' Eb' SB. cbn [fst] in *.
      destruct (e_begin_ok _ _ W') as (q' & l2' & Eb2 & B2 & _). assert (q' = q2) as -> by congruence.
      eapply outcome_weaken; [apply (IH t' h' l' _ n' I'); [|exact B2]| |auto].
      * rewrite Ell, Ec in Lf. cbn [app length] in Lf. rewrite app_length in Lf. lia.
      * cbn beta. intros u s' (I2 & SB2). split; [exact I2|]. apply (SameB_trans _ (t', h')); assumption.
Qed.
Lemma clear_ok r s l n E : SI r s l -> outcome (clear s n) (fun _ s' => SI r s' [] /\ SameB s s') E.
Proof.
  intros I. destruct s as [t h]. unfold clear. rewrite get_t_eq. pose proof (si_t _ _ _ _ I) as T. cbn [fst] in T.
  assert (exists itb, b_begin (f_b t) = Some itb) as (itb & B). { destruct (ci_b _ _ _ (ti_c _ _ _ T)) as [[Bn _]|(o & W & El)]; [rewrite Bn; cbn; eauto|]. destruct (e_begin_ok _ _ W) as (q & l2 & _ & B & _). eauto. }
  rewrite B. cbn [of_option]. rewrite bind_ret. apply (clear_from_ok r E _ t h l itb n I); [|exact B]. unfold fuel_of. rewrite (ti_size _ _ _ T), Nnat.Nat2N.id. lia.
Qed.

(** *** delete_buckets *)
Lemma delete_from_ok {A} r (f : unit -> M St A) Q E : forall l fuel t h pos n, SI r (t, h) l -> length l < fuel -> Pos (f_b t) l 0 pos ->
  (forall s' n', SI r s' [] -> SameB (t, h) s' -> outcome (f tt s' n') Q E) -> outcome (bind (delete_from fuel pos) f (t, h) n) Q E.
Proof.
  induction l as [|x l IH]; intros fuel t h pos n I Lf PO H; (destruct fuel as [|fuel]; [lia|]); cbn [delete_from].
  - rewrite (e_end_pos (f_b t) [] 0 pos (le_n _) PO). cbn [length Nat.eqb]. rewrite bind_ret. apply H; [exact I|apply SameB_refl].
  - rewrite (e_end_pos (f_b t) (x :: l) 0 pos ltac:(lia) PO). cbn [length Nat.eqb]. pose proof (si_t _ _ _ _ I) as T. cbn [fst] in T. pose proof (TInv_wf c t _ x T (or_introl eq_refl)) as W. pose proof (ci_ids _ _ _ (ti_c _ _ _ T)) as ND.
    rewrite bind_bind, get_t_eq. pose proof (pos_node _ _ _ _ x PO eq_refl) as Ni. rewrite (e_node_ok _ _ x pos W ND Ni). cbn [of_option]. rewrite bind_bind, bind_ret.
    destruct (e_next_ok (f_b t) _ 0 pos W ND ltac:(cbn; lia) PO) as (nx & En & Pn). rewrite En. cbn [of_option]. rewrite bind_bind, bind_ret. pose proof Ni as (p & J & ->). cbn [e_b].
    destruct (take_tab c t _ p x T J) as (b' & m1 & m2 & Eb & El & T' & BC & X1 & X2 & X3). assert (m1 = [] /\ m2 = l) as [-> ->] by (apply (split_nodup x m1 m2 [] l); [apply (NoDup_map_inv _ _ ND)|exact El]). cbn [app] in *.
    rewrite bind_bind, (on_b_eq _ b') by exact Eb. rewrite bind_bind, delete_eq by (try apply (live_pos c r t h _ x I (or_introl eq_refl)); cbn [set_b f_al]; apply (al_in c t _ x T (or_introl eq_refl))). rewrite bind_bind, mod_t_eq.
    cbn [length] in Lf. apply (IH fuel); [apply (SI_del c r t h [] x l b' I T')|lia|apply (pos_shift c t b' [] x l 0 nx T X1 (le_n _) Pn)|]. intros s' n' I' SB. apply H; [exact I'|]. eapply SameB_trans; [|exact SB]. repeat split; exact BC.
Qed.
Definition no_buckets (s : St) (l : list node) : St := (set_b (b_null (f_al (fst s))) (set_size 0%N (fst s)), Hp (live (snd s) - length l) (next (snd s))).
Lemma delete_buckets_ok {A} r s l (f : unit -> M St A) n Q E : SI r s l -> (forall n', outcome (f tt (no_buckets s l) n') Q E) -> outcome (bind delete_buckets f s n) Q E.
Proof.
  intros I H. destruct s as [t h]. unfold delete_buckets. rewrite bind_bind, get_t_eq. pose proof (si_t _ _ _ _ I) as T. cbn [fst] in T.
  destruct (table_begin t l (ci_b _ _ _ (ti_c _ _ _ T)) (ti_size _ _ _ T)) as (it & Eb & PO). rewrite Eb. cbn [of_option]. rewrite bind_bind, bind_ret, bind_bind.
  apply (delete_from_ok r _ _ _ l (fuel_of t) t h it n I); [unfold fuel_of; rewrite (ti_size _ _ _ T), Nnat.Nat2N.id; lia|exact PO|]. intros [t' h'] n' I' (S1 & S2 & S3 & S4 & S5 & S6 & S7). cbn [fst snd] in *.
  rewrite bind_bind, get_t_eq. pose proof (si_t _ _ _ _ I') as T'. cbn [fst] in T'.
  assert (b_dealloc (f_al t') (f_b t') = Some tt) as ->.
  { destruct (ci_b _ _ _ (ti_c _ _ _ T')) as [[Bn _]|(o & W & El)]; [rewrite Bn; reflexivity|]. rewrite <- (ci_own _ _ _ (ti_c _ _ _ T')). apply (b_dealloc_ok _ _ o W). symmetry. exact El. }
  cbn [of_option]. rewrite bind_bind, bind_ret, mod_t_eq.
  assert ((set_b (b_null (f_al t')) t', h') = no_buckets (t, h) l) as ->; [|apply H].
  unfold no_buckets. cbn [fst snd]. f_equal.
  - pose proof (ti_size _ _ _ T') as Sz. cbn [length] in Sz. destruct t' as [a1 a2 a3 a4 a5 a6 a7], t as [b1 b2 b3 b4 b5 b6 b7]. cbn [set_b set_size f_hid f_pid f_al f_size f_mlf f_ml f_b] in *. subst. reflexivity.
  - pose proof (si_live _ _ _ _ I) as L1. pose proof (si_live _ _ _ _ I') as L2. cbn [snd length] in L1, L2. destruct h' as [h1 h2]. cbn [live next] in *. subst. f_equal. lia.
Qed.

(** *** erase_if *)
Lemma erase_if_from_ok r pr : forall l2 l1 fuel s pos n, SI r s (l1 ++ l2) -> length l2 < fuel -> Pos (f_b (fst s)) (l1 ++ l2) (length l1) pos ->
  outcome (erase_if_from c fuel pr pos s n) (fun _ s' => Erased r s (l1 ++ filter (fun y => negb (pr (nd_kv y))) l2) s')
    (fun kd s' => raised kd /\ exists d u, l2 = d ++ u /\ Erased r s (l1 ++ filter (fun y => negb (pr (nd_kv y))) d ++ u) s').
Proof.
  induction l2 as [|x l2 IH]; intros l1 fuel s pos n I Lf PO; (destruct fuel as [|fuel]; [lia|]); cbn [erase_if_from].
  - assert (e_eqb pos e_end = true) as ->. { rewrite app_nil_r in PO. rewrite (e_end_pos (f_b (fst s)) _ _ pos (le_n _) PO). apply Nat.eqb_refl. } cbn [outcome ret filter]. apply Erased_refl. exact I.
  - assert (e_eqb pos e_end = false) as ->. { rewrite (e_end_pos (f_b (fst s)) (l1 ++ x :: l2) (length l1) pos ltac:(rewrite app_length; lia) PO). rewrite app_length. cbn [length]. apply Nat.eqb_neq. lia. }
    destruct s as [t h]. pose proof (si_t _ _ _ _ I) as T. cbn [fst] in *. pose proof (TInv_wf c t _ x T (in_elt _ _ _)) as W. pose proof (ci_ids _ _ _ (ti_c _ _ _ T)) as ND. pose proof (mid_pos _ _ _ _ PO) as [_ Ni]. specialize (Ni x l2 eq_refl).
    rewrite get_t_eq, (e_node_ok _ _ x pos W ND Ni). cbn [of_option]. rewrite bind_ret. cbn [length] in Lf.
    apply outcome_tick; [intros R; split; [exact R|]; exists [], (x :: l2); split; [reflexivity|]; cbn [filter app]; apply Erased_refl; exact I|]. intros n1. cbn [filter]. destruct (pr (nd_kv x)) eqn:Ep; cbn [negb].
    + eapply outcome_bind; [apply (erase_node_ok c r (t, h) l1 x l2 pos n1 _ I Ni)|]. cbn beta. intros nx s1 n2 (R1 & Pn). eapply outcome_weaken; [apply (IH l1 fuel s1 nx n2); [apply R1|lia|exact Pn]| |].
      * cbn beta. intros u s' Q. eapply Erased_trans; [exact R1|exact Q|]. intros y Iy. apply in_app_or in Iy as [Iy|Iy]; apply in_or_app; [left; exact Iy|right; apply filter_In in Iy; apply Iy].
      * cbn beta. intros kd s' (R & d & u & -> & Q). split; [exact R|]. exists (x :: d), u. split; [reflexivity|]. cbn [filter]. rewrite Ep. cbn [negb]. eapply Erased_trans; [exact R1|exact Q|].
        intros y Iy. apply in_app_or in Iy as [Iy|Iy]; apply in_or_app; [left; exact Iy|right]. apply in_app_or in Iy as [Iy|Iy]; apply in_or_app; [left; apply filter_In in Iy; apply Iy|right; exact Iy].
    + destruct (e_next_ok (f_b t) _ (length l1) pos W ND ltac:(rewrite app_length; cbn [length]; lia) PO) as (nx & En & Pn). rewrite En. cbn [of_option]. rewrite bind_ret.
      assert (l1 ++ x :: l2 = (l1 ++ [x]) ++ l2) as Ea by (rewrite <- app_assoc; reflexivity). rewrite Ea in I, Pn. replace (S (length l1)) with (length (l1 ++ [x])) in Pn by (rewrite app_length; cbn; lia).
      eapply outcome_weaken; [apply (IH (l1 ++ [x]) fuel (t, h) nx n1 I ltac:(lia) Pn)| |].
      * cbn beta. intros u s' Q. rewrite <- app_assoc in Q. exact Q.
      * cbn beta. intros kd s' (R & d & u & -> & Q). split; [exact R|]. exists (x :: d), u. split; [reflexivity|]. cbn [filter]. rewrite Ep. cbn [negb app]. rewrite <- app_assoc in Q. exact Q.
Qed.
Lemma erase_if_ok r pr s l n : SI r s l ->
  outcome (erase_if c pr s n) (fun m s' => Erased r s (filter (fun y => negb (pr (nd_kv y))) l) s' /\ (m + N.of_nat (length (filter (fun y => negb (pr (nd_kv y))) l)) = N.of_nat (length l))%N)
    (fun kd s' => raised kd /\ exists d u, l = d ++ u /\ Erased r s (filter (fun y => negb (pr (nd_kv y))) d ++ u) s').
Proof.
  intros I. destruct s as [t h]. unfold erase_if. rewrite get_t_eq. pose proof (si_t _ _ _ _ I) as T. cbn [fst] in T.
  destruct (table_begin t l (ci_b _ _ _ (ti_c _ _ _ T)) (ti_size _ _ _ T)) as (it & Eb & PO). rewrite Eb. cbn [of_option]. rewrite bind_ret.
  eapply outcome_bind; [apply (erase_if_from_ok r pr l [] (fuel_of t) (t, h) it n I); [unfold fuel_of; rewrite (ti_size _ _ _ T), Nnat.Nat2N.id; lia|exact PO]|].
  cbn beta. intros u [t' h'] n1 Q. rewrite get_t_eq. cbn [outcome ret app] in *. split; [exact Q|]. destruct Q as (I' & _). pose proof (si_t _ _ _ _ I') as T'. cbn [fst] in T'. rewrite (ti_size _ _ _ T), (ti_size _ _ _ T').
  assert (length (filter (fun y => negb (pr (nd_kv y))) l) <= length l) as LL by apply filter_length_le'. pose proof max_elems_lt. pose proof (ti_room _ _ _ T).
  unfold usub. set (a := N.of_nat (length l)) in *. set (b0 := N.of_nat (length (filter (fun y => negb (pr (nd_kv y))) l))) in *. assert (b0 <= a)%N by lia. replace (a + (2 ^ 64 - b0))%N with ((a - b0) + 1 * 2 ^ 64)%N by lia. rewrite N.mod_add by discriminate. rewrite N.mod_small by lia. lia.
Qed.
End Erase.
