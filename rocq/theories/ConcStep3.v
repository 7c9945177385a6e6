(** Steps of visit_all, visit_while, erase_if(pred) and size() preserve the invariant of a concurrent container. *)
From Coq Require Import NArith Bool List Arith Lia ZifyBool ZifyNat ZifyN Permutation.
From Verif Require Import FloatModel SizeModel SizeProofs GroupModel GroupSpec FoaModel FoaGroup FoaBase FoaFind FoaArr FoaInv FoaSpec ConcSpec ConcModel ConcInv ConcStep ConcStep2.
Import ListNotations.
Local Open Scope N_scope.

Section CStep3.
Context {K V : Type} (c : Cfg K V).
Notation arrays := (arrays K V).
Notation table := (table K V).
Notation Sh := (@Sh K V).
Notation pop := (pop K V). Notation cop := (cop K V). Notation loc := (@loc K V). Notation cres := (cres K V).
Notation ent := (option (cop * loc)).
Notation CBase := (CBase c). Notation CUniq := (CUniq c). Notation CInv := (CInv c). Notation TI := (TI c). Notation TI1 := (TI1 c).
Notation hk := (hk c). Notation Fr := (Fr c). Notation good := (good c).

Lemma write_gen k s vs t o l l' g n e1 v : CInv k s vs -> nth_error vs t = Some (Some (o, l)) ->
  lock_of o l = Some (g, true) -> lock_of o l' = Some (g, true) -> infl l = None -> infl l' = None -> (n < 15)%nat ->
  nth_error (cells (A s)) (slot_index g n) = Some (Live e1) -> wt l' = wt l -> adm (ml (tb s)) l' <= adm (ml (tb s)) l -> wf o l' ->
  (forall s', hid (tb s') = hid (tb s) -> length (cells (A s')) = length (cells (A s)) ->
     (forall j, j <> slot_index g n -> nth_error (cells (A s')) j = nth_error (cells (A s)) j) ->
     nth_error (cells (A s')) (slot_index g n) = Some (Live (fst e1, v)) -> TI k s' o l') ->
  (forall x n, l' <> LCons x n) -> ectx l' = None ->
  exists s', apply (ECell (slot_index g n) (Live (fst e1, v))) s = Some s' /\ CInv k s' (set_nth vs t (Some (o, l'))).
Proof.
  intros CI Ht Hl Hl' Hi Hi' Ln E1 Hw Ha Hwf HT Hnc He. pose proof CI as [B U]. pose proof (nth_error_Some_lt _ _ _ E1) as Li.
  pose proof (cb_fr _ _ _ _ B) as Fk. assert (Shape k (A s)) as HS by (apply (fr_shape c); [exact Fk|lia]).
  set (i0 := slot_index g n) in *. assert (i0 / 15 = g)%nat as Di by (apply slot_div, Ln).
  exists (with_arr s (upd_cell (A s) i0 (Live (fst e1, v)))). split; [apply (ap_cell k); assumption|].
  destruct (fo_cell k s i0 (Live (fst e1, v)) HS Li) as [F HS']. rewrite Di in F. set (s' := with_arr s _) in *.
  destruct (elems_swap (A s) i0 e1 (fst e1, v) E1) as (rest & P1 & P2). apply Permutation_length in P1, P2.
  change (elems (upd_cell (A s) i0 (Live (fst e1, v)))) with (elems (A s')) in P2. cbn [length] in P1, P2.
  assert (cells (A s') = set_nth (cells (A s)) i0 (Live (fst e1, v))) as Ec by reflexivity.
  assert (forall j, nth_error (cells (A s')) j = if Nat.eqb j i0 then Some (Live (fst e1, v)) else nth_error (cells (A s)) j) as En
    by (intros j; rewrite Ec; apply set_nth_err; exact Li).
  destruct (cb_live _ _ _ _ B i0 e1 E1) as [Y1 Y2].
  eapply cinv_eff; try eassumption.
  - rewrite (lock_xg _ _ _ Hl). exact F.
  - apply (fr_arr c k s); [exact Fk|exact HS'|lia].
  - intros j Hj. rewrite En. change (ctrl (A s') j) with (ctrl (A s) j). change (hid (tb s')) with (hid (tb s)).
    destruct (Nat.eqb_spec j i0) as [->|N]; [split; [exact Y1|exact Y2]|].
    destruct (nth_error (cells (A s)) j) as [[| |e2]|] eqn:Ej; auto.
    + left. destruct (own_same c k s vs t _ _ j B Ht Hj Ej) as [Z|Z]; [exact Z|congruence].
    + exact (cb_moved _ _ _ _ B j Ej).
    + exact (cb_live _ _ _ _ B j e2 Ej).
  - left. congruence.
  - change (sz (tb s')) with (sz (tb s)). lia.
  - left. change (ml (tb s')) with (ml (tb s)). lia.
  - apply HT; [reflexivity|rewrite Ec; apply set_nth_len| |].
    + intros j Hj. rewrite En. destruct (Nat.eqb_spec j i0); [contradiction|reflexivity].
    + rewrite En, Nat.eqb_refl. reflexivity.
  - intros j e2. rewrite En. destruct (Nat.eqb_spec j i0) as [->|N].
    + intros [= <-]. left. exists e1. auto.
    + intros Hj. left. exists e2. auto.
  - apply ti1_none. exact He.
Qed.
Lemma kill_gen k s vs t o l l' g n e1 : CInv k s vs -> nth_error vs t = Some (Some (o, l)) ->
  lock_of o l = Some (g, true) -> lock_of o l' = Some (g, true) -> infl l = None -> infl l' = Some (slot_index g n) -> (n < 15)%nat ->
  nth_error (cells (A s)) (slot_index g n) = Some (Live e1) -> wt l' = wt l + 1 -> adm (ml (tb s)) l' <= adm (ml (tb s)) l + 1 -> wf o l' ->
  (forall s', hid (tb s') = hid (tb s) -> length (cells (A s')) = length (cells (A s)) ->
     (forall j, j <> slot_index g n -> nth_error (cells (A s')) j = nth_error (cells (A s)) j) ->
     nth_error (cells (A s')) (slot_index g n) = Some Raw -> TI k s' o l') ->
  (forall x n, l' <> LCons x n) -> ectx l' = None ->
  exists s', apply (ECell (slot_index g n) Raw) s = Some s' /\ CInv k s' (set_nth vs t (Some (o, l'))).
Proof.
  intros CI Ht Hl Hl' Hi Hi' Ln E1 Hw Ha Hwf HT Hnc He. pose proof CI as [B U]. pose proof (nth_error_Some_lt _ _ _ E1) as Li.
  pose proof (cb_fr _ _ _ _ B) as Fk. assert (Shape k (A s)) as HS by (apply (fr_shape c); [exact Fk|lia]).
  set (i0 := slot_index g n) in *. assert (i0 / 15 = g)%nat as Di by (apply slot_div, Ln).
  exists (with_arr s (upd_cell (A s) i0 Raw)). split; [apply (ap_cell k); assumption|].
  destruct (fo_cell k s i0 Raw HS Li) as [F HS']. rewrite Di in F. set (s' := with_arr s _) in *.
  pose proof (elems_set_dead (A s) i0 e1 Raw E1 eq_refl) as P1. apply Permutation_length in P1. cbn [length] in P1.
  change (elems (upd_cell (A s) i0 Raw)) with (elems (A s')) in P1.
  assert (cells (A s') = set_nth (cells (A s)) i0 Raw) as Ec by reflexivity.
  assert (forall j, nth_error (cells (A s')) j = if Nat.eqb j i0 then Some Raw else nth_error (cells (A s)) j) as En
    by (intros j; rewrite Ec; apply set_nth_err; exact Li).
  eapply cinv_eff; try eassumption.
  - rewrite (lock_xg _ _ _ Hl). exact F.
  - apply (fr_arr c k s); [exact Fk|exact HS'|lia].
  - intros j Hj. rewrite En. change (ctrl (A s') j) with (ctrl (A s) j). change (hid (tb s')) with (hid (tb s)).
    destruct (Nat.eqb_spec j i0) as [->|N]; [right; exact Hi'|].
    destruct (nth_error (cells (A s)) j) as [[| |e2]|] eqn:Ej; auto.
    + left. destruct (own_same c k s vs t _ _ j B Ht Hj Ej) as [Z|Z]; [exact Z|congruence].
    + exact (cb_moved _ _ _ _ B j Ej).
    + exact (cb_live _ _ _ _ B j e2 Ej).
  - left. congruence.
  - change (sz (tb s')) with (sz (tb s)). lia.
  - left. change (ml (tb s')) with (ml (tb s)). lia.
  - apply HT; [reflexivity|rewrite Ec; apply set_nth_len| |].
    + intros j Hj. rewrite En. destruct (Nat.eqb_spec j i0); [contradiction|reflexivity].
    + rewrite En, Nat.eqb_refl. reflexivity.
  - intros j e2. rewrite En. destruct (Nat.eqb_spec j i0) as [->|N]; [discriminate|].
    intros Hj. left. exists e2. auto.
  - apply ti1_none. exact He.
Qed.

Lemma nth_snoc {X} (l : list X) x n y : nth_error (l ++ [x]) n = Some y -> (nth_error l n = Some y /\ (n < length l)%nat) \/ (n = length l /\ y = x).
Proof.
  intros H. destruct (Nat.lt_ge_cases n (length l)) as [L|L].
  - rewrite nth_error_app1 in H by exact L. auto.
  - rewrite nth_error_app2 in H by exact L. destruct (n - length l)%nat as [|z] eqn:E; cbn in H.
    + injection H as <-. right. split; [lia|reflexivity].
    + destruct z; discriminate.
Qed.
Lemma acc_snoc md (f : nat -> ufun K V) acc e d : acc_ok md f acc -> goes_on md (snd (f (length acc) e)) = true -> acc_ok md f (acc ++ [(e, d)]).
Proof. intros H1 H2 n e' b H. destruct (nth_snoc _ _ _ _ H) as [[E _]|[-> E]]; [eapply H1; exact E|]. injection E as -> ->. exact H2. Qed.
Lemma acc_ends md (f : nat -> ufun K V) acc : acc_ok md f acc -> bulk_ends md f acc BDone.
Proof.
  intros H. unfold bulk_ends. split.
  - intros n ob _ E. destruct (nth_error acc n) as [[e b]|] eqn:En; [|discriminate]. injection E as <-. eapply H; exact En.
  - intros n ob E. destruct (nth_error acc n) as [[e b]|] eqn:En; [|discriminate]. injection E as <-. eapply H; exact En.
Qed.
Lemma acc_ends_last md (f : nat -> ufun K V) acc e d st : acc_ok md f acc ->
  match st with BDone => False | BHalted => md = BWhile /\ snd (f (length acc) e) = Some false | BThrew => snd (f (length acc) e) = None end ->
  bulk_ends md f (acc ++ [(e, d)]) st.
Proof.
  intros H Hs. unfold bulk_ends. split.
  - intros n ob L E. rewrite app_length in L. cbn [length] in L. rewrite nth_error_app1 in E by lia.
    destruct (nth_error acc n) as [[e1 b]|] eqn:En; [|discriminate]. injection E as <-. eapply H; exact En.
  - assert (length (acc ++ [(e, d)]) = S (length acc)) as El by (rewrite app_length; cbn; lia).
    assert (nth_error (acc ++ [(e, d)]) (length acc) = Some (e, d)) as En by (rewrite nth_error_app2, Nat.sub_diag by lia; reflexivity).
    destruct st; [contradiction| |].
    + split; [apply Hs|]. exists (length acc). rewrite En. split; [exact El|]. f_equal. apply Hs.
    + exists (length acc). rewrite En. split; [exact El|]. f_equal. apply Hs.
Qed.
Lemma occ_in g last n : In n (occ_bits g last) <-> (n < 15)%nat /\ nth n g 0 <> 0 /\ (last = true -> n <> 14%nat).
Proof.
  unfold occ_bits. rewrite filter_In, in_seq, andb_true_iff, !negb_true_iff, N.eqb_neq. split.
  - intros (L & E1 & E2). split; [lia|]. split; [exact E1|]. intros -> ->. discriminate.
  - intros (L & E1 & E2). split; [lia|]. split; [exact E1|]. destruct last; [|reflexivity]. cbn. apply Nat.eqb_neq. auto.
Qed.

Lemma bstep_ok k s vs t x0 md f l free : CInv k s vs -> nth_error vs t = Some (Some (Bulk x0 md f, l)) ->
  (forall g x, free g x = true -> frees vs t g x) -> (forall r, l <> LRet r) ->
  good k s vs t (Bulk x0 md f) (bstep free s (writes x0 md) md f l).
Proof.
  intros CI Ht Hfree Nr. pose proof CI as [B U]. destruct (cb_ti _ _ _ _ B _ _ _ Ht) as [W T].
  pose proof (cb_fr _ _ _ _ B) as Fk. pose proof (fr_geo _ _ _ Fk) as G. pose proof (ge_mask _ _ G) as Em. pose proof (pow2_pos k) as P2.
  assert (forall l', infl l' = infl l -> lock_ok vs t (Bulk x0 md f) l l' -> wt l' = wt l -> adm (ml (tb s)) l' <= adm (ml (tb s)) l ->
     wf (Bulk x0 md f) l' -> TI k s (Bulk x0 md f) l' -> (forall x n, l' <> LCons x n) -> good k s vs t (Bulk x0 md f) (go l')) as Pure.
  { intros l' H1 H2 H3 H4 H5 H6 H7. cbn [good go]. exists s. split; [reflexivity|]. eapply cinv_pure; try eassumption. exact I. }
  destruct l; cbn [ConcInv.TI wf] in W, T; try contradiction; cbn [bstep]; change (arr (tb s)) with (A s).
  - apply Pure; try reflexivity; try discriminate; [left; reflexivity|intros n e b; destruct n; discriminate|cbn; lia].
  - (* LMl *) destruct kt as [|ms acc]; [contradiction|]. destruct T as (T1 & T2 & T3). rewrite (geo_get k) by assumption. eapply ml_gen; eassumption.
  - eapply resets_gen; eassumption.
  - destruct kt as [|ms acc]; [contradiction|]. destruct W as [W1 W2]. eapply dec_gen; try eassumption; try reflexivity; try discriminate.
    left. cbn [lock_of mode]. subst md. reflexivity.
  - (* BGrp *) assert (length (cells (A s)) = 0%nat \/ (0 < length (cells (A s)))%nat) as [L0|L0] by lia.
    + assert (a_elems (A s) = None) as ->. { destruct Fk as [[_ ->]|[HS _]]; [reflexivity|]. rewrite (sh_cells _ _ HS) in L0. pose proof (pow_nat_pos k). lia. }
      apply Pure; try reflexivity; try discriminate; [left; reflexivity|]. cbn. apply acc_ends, W.
    + pose proof (fr_shape _ _ _ Fk L0) as HS. rewrite (sh_elems _ _ HS). rewrite Em. replace (2 ^ k - 1 + 1) with (2 ^ k) by lia.
      destruct (Nat.eqb_spec g (N.to_nat (2 ^ k))) as [E|N].
      * apply Pure; try reflexivity; try discriminate; [left; reflexivity|]. cbn. apply acc_ends, W.
      * destruct (free g (writes x0 md)) eqn:Ef; [|exact I]. apply Pure; try reflexivity; try discriminate; try exact W.
        -- right. right. exists g, (writes x0 md). split; [reflexivity|]. apply Hfree, Ef.
        -- cbn [ConcInv.TI]. split; [lia|exact L0].
  - (* BMask *) destruct T as [T1 T2]. rewrite (geo_get k) by assumption. pose proof (geo_len _ _ _ G T1) as Lb. rewrite really_occupied_bits by exact Lb.
    pose proof (fr_shape _ _ _ Fk T2) as HS. rewrite Em. replace (2 ^ k - 1 + 1) with (2 ^ k) by lia.
    apply Pure; try reflexivity; try discriminate; try exact W; [left; reflexivity|]. cbn [ConcInv.TI]. split; [exact T1|]. split; [exact T2|].
    split; [apply NoDup_filter, seq_NoDup|]. intros n Hn. apply occ_in in Hn as (Ln & E1 & E2). split; [exact Ln|].
    assert (slot_index g n < length (cells (A s)))%nat as Li.
    { rewrite (sh_cells _ _ HS). destruct (Nat.eqb_spec (S g) (N.to_nat (2 ^ k))) as [E|E]; [specialize (E2 eq_refl); unfold slot_index; lia|].
      unfold slot_index. lia. }
    destruct (nth_error (cells (A s)) (slot_index g n)) as [[| |e]|] eqn:Ec.
    + exfalso. apply E1. rewrite <- ctrl_slot by exact Ln. exact (locked_slot c k s vs t _ _ g _ n B Ht eq_refl eq_refl Ln Ec).
    + destruct (cb_moved _ _ _ _ B _ Ec).
    + exists e. reflexivity.
    + apply nth_error_None in Ec. lia.
  - (* BElem *) destruct T as (T1 & T2 & T3 & T4). destruct ms as [|n ms].
    + apply Pure; try reflexivity; try discriminate; try exact W; [right; left; reflexivity|]. cbn [ConcInv.TI]. lia.
    + destruct (T4 n ltac:(now left)) as [Ln (e1 & E1)]. pose proof (nth_error_Some_lt _ _ _ E1) as Li.
      pose proof (fr_shape _ _ _ Fk T2) as HS. rewrite (get_cell_eq k) by exact HS. rewrite E1.
      destruct (f (length acc) e1) as [v ob] eqn:Ef. assert (snd (f (length acc) e1) = ob) as Eo by (rewrite Ef; reflexivity).
      apply NoDup_cons_iff in T3 as [N1 N2].
      set (l' := if erases md ob then LMl _ _ _ else _).
      assert (lock_of (Bulk x0 md f) l' = Some (g, writes x0 md)) as El.
      { unfold l', erases. destruct md, ob as [[|]|]; reflexivity. }
      assert (wf (Bulk x0 md f) l') as Wl.
      { unfold l'. destruct (erases md ob) eqn:Ee.
        - destruct md, ob as [[|]|]; try discriminate Ee. cbn [wf]. split; [reflexivity|]. apply acc_snoc; [exact W|]. rewrite Eo. reflexivity.
        - destruct ob as [b|]; [|cbn [wf]; apply acc_ends_last; [exact W|exact Eo]].
          destruct (goes_on md (Some b)) eqn:Eg; cbn [wf]; [apply acc_snoc; [exact W|rewrite Eo; exact Eg]|].
          apply acc_ends_last; [exact W|]. destruct md, b; try discriminate Eg. split; [reflexivity|exact Eo]. }
      assert (forall x n, l' <> LCons x n) as Nl by (unfold l'; intros; destruct (erases md ob); [discriminate|]; destruct ob; [destruct (goes_on md (Some b))|]; discriminate).
      assert (ectx l' = None) as Xl by (unfold l'; destruct (erases md ob); [reflexivity|]; destruct ob; [destruct (goes_on md (Some b))|]; reflexivity).
      destruct (erases md ob) eqn:Ee.
      * assert (md = BErase) as -> by (destruct md, ob as [[|]|]; try discriminate Ee; reflexivity). cbn [good].
        eapply kill_gen; try eassumption; try reflexivity; try discriminate.
        intros s' Eh Es Eo' Er. unfold l'. cbn [ConcInv.TI kont_ok]. split; [exact T1|]. split; [split; [exact Ln|exact Er]|]. split; [exact N1|].
        split; [exact N2|]. intros n' Hn'. destruct (T4 n' ltac:(now right)) as [Z1 Z2]. split; [exact Z1|]. rewrite Eo'; [exact Z2|].
        intros Ex. apply slot_nn in Ex; [congruence|assumption|assumption].
      * assert (infl l' = None /\ wt l' = 0 /\ forall m, adm m l' = 0) as (Il & Wt & Al)
          by (unfold l'; destruct ob; [destruct (goes_on md (Some b))|]; repeat split).
        assert (forall s', length (cells (A s')) = length (cells (A s)) -> (forall n', In n' ms -> live_at s' g n') -> TI k s' (Bulk x0 md f) l') as Tl.
        { intros s' H1 H2. unfold l'. destruct ob; [destruct (goes_on md (Some b))|]; cbn [ConcInv.TI]; auto. split; [exact T1|]. split; [lia|].
          split; [exact N2|exact H2]. }
        cbn [good]. destruct (writes x0 md) eqn:Ew.
        -- eapply write_gen; try eassumption; try reflexivity; try (cbn [lock_of mode]; congruence); [rewrite Al; cbn; lia|].
           intros s' Eh Es Eo' Er. apply Tl; [exact Es|]. intros n' Hn'. destruct (T4 n' ltac:(now right)) as [Z1 Z2]. split; [exact Z1|]. rewrite Eo'; [exact Z2|].
           intros Ex. apply slot_nn in Ex; [congruence|assumption|assumption].
        -- exists s. split; [reflexivity|]. eapply cinv_pure; try eassumption; try reflexivity.
           ++ left. cbn [lock_of mode] in *. congruence.
           ++ rewrite Al. cbn. lia.
           ++ apply Tl; [reflexivity|]. intros n' Hn'. apply T4. now right.
  - destruct r; try contradiction. apply Pure; try reflexivity; try discriminate; [right; left; reflexivity|exact W].
  - destruct r; try contradiction. apply Pure; try reflexivity; try discriminate; [left; reflexivity|exact W].
  - destruct (Nr r eq_refl).
Qed.

Lemma sstep_ok k s vs t l : CInv k s vs -> nth_error vs t = Some (Some (SizeOf, l)) -> (forall r, l <> LRet r) -> good k s vs t SizeOf (sstep s l).
Proof.
  intros CI Ht Nr. pose proof CI as [B U]. destruct (cb_ti _ _ _ _ B _ _ _ Ht) as [W _].
  destruct l; cbn [wf] in W; try contradiction; cbn [sstep good go]; try (exists s; split; [reflexivity|];
    eapply cinv_pure; try eassumption; try reflexivity; try discriminate; try exact I; try (left; reflexivity); cbn; lia).
  destruct (Nr r eq_refl).
Qed.

Lemma lstep_ok k s vs t o l free i thr : CInv k s vs -> nth_error vs t = Some (Some (o, l)) ->
  (forall g x, free g x = true -> frees vs t g x) -> nowrap s l -> l <> LFull -> (forall r, l <> LRet r) ->
  good k s vs t o (lstep c free s o l i thr).
Proof.
  intros CI Ht Hf Hn Nf Nr. destruct o as [p|x md f|]; cbn [lstep].
  - apply pstep_ok; assumption.
  - apply bstep_ok; assumption.
  - apply sstep_ok; assumption.
Qed.
End CStep3.
