(** Copies, moves, swap, assignment. *)
From Coq Require Import NArith ZArith Bool List Arith Lia ZifyBool ZifyNat ZifyN Permutation.
From Verif Require Import FloatModel SizeModel SizeProofs GroupModel GroupSpec FoaModel FoaGroup FoaBase FoaFind FoaArr FoaInv FoaRehash FoaOps.
Import ListNotations.
Local Open Scope N_scope.

Section Copy.
Context {K V : Type} (c : Cfg K V).
Notation arrays := (arrays K V).
Notation table := (table K V).
Notation cell := (cell K V).
Hypothesis HC : good_cfg c.

(** ** element-by-element copy with the same number of groups *)
Record filled (x a : arrays) (D : list nat) (a' : arrays) : Prop := {
  fi_gsi : a_gsi a' = a_gsi a; fi_mask : a_mask a' = a_mask a; fi_owner : a_owner a' = a_owner a;
  fi_groups : a_groups a' = a_groups a; fi_elems : a_elems a' = Some (cells a');
  fi_len : length (cells a') = length (cells a);
  fi_in : forall i, In i D -> nth_error (cells a') i = nth_error (cells x) i;
  fi_out : forall i, ~ In i D -> nth_error (cells a') i = nth_error (cells a) i
}.
Lemma filled_shape x a D a' k : filled x a D a' -> Shape k a -> Shape k a'.
Proof.
  intros W H. destruct W, H. constructor; try congruence.
  unfold ctrl, grp in *. rewrite fi_groups0, fi_len0. assumption.
Qed.
Lemma filled_nil x a k : Shape k a -> filled x a [] a.
Proof. intros H. constructor; auto; [apply (sh_elems _ _ H)|intros i []]. Qed.
Lemma filled_eq x a a' k : Shape k a -> filled x a [] a' -> a' = a.
Proof.
  intros HS W. pose proof (sh_elems _ _ HS) as E. destruct W.
  assert (cells a' = cells a) as Ec by (apply list_ext; intros i; apply fi_out0; intros []).
  destruct a, a'. cbn in *. congruence.
Qed.

(** the clean-up loop removes exactly the copies made so far *)
Lemma uncopy_loop k h (x t : table) D D' a' n : GoodA c h k (arr x) -> Shape k (arr t) ->
  (forall i, (i < length (cells (arr t)))%nat -> nth_error (cells (arr t)) i = Some Raw) ->
  D ++ D' = occ (arr x) -> D <> [] -> filled (arr x) (arr t) D a' ->
  outcome (for_all_while (fun _ : table * nat => arr x)
      (fun g m => bind (on_fst (on_arr (destroy_element (slot_index g m)))) (fun _ =>
                  bind (modify (fun s => (fst s, Nat.pred (snd s)))) (fun _ =>
                  bind get (fun s => ret (negb (Nat.eqb (snd s) 0)))))) (set_arr t a', length D) n)
    (fun _ s => fst s = t) (fun _ _ => False).
Proof.
  intros HG HS Hraw Ho HD F. pose proof HG as [HSx _].
  assert (length (cells (arr x)) = length (cells (arr t))) as Lx by (rewrite (sh_cells _ _ HSx), (sh_cells _ _ HS); reflexivity).
  set (J := fun (done : list nat) (s : table * nat) => exists todo a1, done ++ todo = D /\
     s = (set_arr t a1, length todo) /\ filled (arr x) (arr t) todo a1).
  eapply outcome_weaken.
  - apply (for_all_while_ok _ _ k (arr x) (fun done todo s => done <> D /\ J done s) (fun s => J D s) (fun _ _ => False) HSx).
    + intros done i rest s n' Ho' [Hnd (todo & a1 & ED & -> & F1)].
      destruct todo as [|i' todo]; [exfalso; apply Hnd; rewrite <- ED; rewrite app_nil_r; reflexivity|].
      assert (i' = i /\ rest = todo ++ D') as [-> Erest].
      { pose proof Ho' as E'. rewrite <- Ho, <- ED, <- app_assoc in E'. apply app_inv_head in E'. cbn in E'. injection E'. auto. }
      assert (In i (occ (arr x))) as Hi by (rewrite <- Ho'; apply in_or_app; right; now left).
      pose proof (occ_in k (arr x) i HSx Hi) as [Li _].
      apply (good_occ c h k) in Hi as [e He]; [|exact HG].
      pose proof (occ_nodup (arr x)) as ND. rewrite <- Ho' in ND. apply NoDup_remove_2 in ND.
      rewrite slot_of. unfold bind at 1, on_fst, on_arr, lens. cbn [fst snd set_arr arr].
      rewrite (destroy_eq k a1 i n' (Live e)).
      2:{ eapply filled_shape; eauto. }
      2:{ rewrite (fi_in _ _ _ _ F1); [exact He|now left]. }
      2:{ discriminate. }
      rewrite bind_modify, bind_get. cbn [fst snd ret outcome length Nat.pred].
      assert (J (done ++ [i]) (set_arr (set_arr t a1) (upd_cell a1 i Raw), length todo)) as HJ.
      { exists todo, (upd_cell a1 i Raw). split; [rewrite <- app_assoc; exact ED|]. split; [reflexivity|].
        assert (~ In i todo) as Hni.
        { intros C. apply ND, in_or_app. right. rewrite Erest. apply in_or_app. now left. }
        destruct F1. constructor; auto.
        - rewrite cells_upd_cell, set_nth_len. assumption.
        - intros j Hj. rewrite cells_upd_cell, set_nth_err by lia. destruct (Nat.eqb_spec j i) as [->|]; [contradiction|].
          apply fi_in0. now right.
        - intros j Hj. rewrite cells_upd_cell, set_nth_err by lia. destruct (Nat.eqb_spec j i) as [->|Hne].
          + symmetry. apply Hraw. lia.
          + apply fi_out0. intros [C|C]; [congruence|auto]. }
      destruct todo as [|i2 todo]; cbn [length Nat.eqb negb].
      * rewrite <- ED. exact HJ.
      * split; [|exact HJ]. intros C. rewrite <- C in ED. apply (f_equal (@length nat)) in ED. rewrite !app_length in ED. cbn in ED. lia.
    + intros done todo s g _ _ Hg _. apply (shape_get_group k); auto.
    + apply (sh_elems _ _ HSx).
    + apply (sh_mask _ _ HSx).
    + split; [auto|]. exists D, a'. auto.
  - intros b s Hb. assert (J D s) as (todo & a1 & ED & -> & F1).
    { destruct b; [|exact Hb]. destruct Hb as [Hnd (todo & a1 & ED & -> & F1)].
      exfalso. apply Hnd. apply (f_equal (@length nat)) in Ho as L1. apply (f_equal (@length nat)) in ED as L2.
      rewrite app_length in L1, L2. destruct todo; [|cbn in L2; lia]. rewrite app_nil_r in ED. exact ED. }
    assert (todo = []) as ->.
    { apply (f_equal (@length nat)) in ED. rewrite app_length in ED. destruct todo; [reflexivity|cbn in ED; lia]. }
    cbn [fst]. rewrite (filled_eq _ _ _ k HS F1). apply set_arr_id.
  - auto.
Qed.

Lemma copy_array_ok k (x t : table) n : GoodA c (hid x) k (arr x) -> Shape k (arr t) ->
  (forall i, (i < length (cells (arr t)))%nat -> nth_error (cells (arr t)) i = Some Raw) ->
  outcome (with_counter (copy_elements_array_from c x) t n)
    (fun _ t' => exists a', t' = set_arr t a' /\ filled (arr x) (arr t) (occ (arr x)) a')
    (fun kd t' => kd = KTransfer /\ raised c KTransfer /\ t' = t).
Proof.
  intros HG HS Hraw. pose proof HG as [HSx _].
  assert (length (cells (arr x)) = length (cells (arr t))) as Lx by (rewrite (sh_cells _ _ HSx), (sh_cells _ _ HS); reflexivity).
  unfold with_counter, copy_elements_array_from, on_exn.
  assert (outcome (for_all (fun _ : table * nat => arr x)
      (fun g m => bind (read_element (arr x) (slot_index g m)) (fun e =>
         bind (on_fst (on_arr (construct_element c KTransfer (slot_index g m) e))) (fun _ =>
         modify (fun s => (fst s, S (snd s)))))) (t, O) n)
     (fun _ s => exists a', s = (set_arr t a', length (occ (arr x))) /\ filled (arr x) (arr t) (occ (arr x)) a')
     (fun kd s => kd = KTransfer /\ raised c KTransfer /\ exists D D' a', D ++ D' = occ (arr x) /\ s = (set_arr t a', length D) /\ filled (arr x) (arr t) D a')) as X.
  { apply (for_all_ok _ _ k (arr x) (fun done todo s => exists a', s = (set_arr t a', length done) /\ filled (arr x) (arr t) done a')).
    - exact HSx.
    - intros done i todo s n' Ho (a' & -> & F).
      assert (In i (occ (arr x))) as Hi by (rewrite <- Ho; apply in_or_app; right; now left).
      pose proof (occ_in k (arr x) i HSx Hi) as [Li _].
      apply (good_occ c (hid x) k) in Hi as [e He]; [|exact HG].
      pose proof (occ_nodup (arr x)) as ND. rewrite <- Ho in ND. apply NoDup_remove_2 in ND.
      assert (~ In i done) as Hni by (intros C; apply ND, in_or_app; now left).
      rewrite slot_of. unfold read_element. rewrite (get_cell_eq k), He by exact HSx. rewrite bind_ret.
      eapply outcome_bind with (Q' := fun _ s => s = (set_arr t (upd_cell a' i (Live e)), length done)).
      + unfold on_fst, on_arr. apply outcome_lens, outcome_lens. cbn [fst snd set_arr arr].
        unfold construct_element. rewrite bind_get, (get_cell_eq k) by (eapply filled_shape; eauto).
        rewrite (fi_out _ _ _ _ F), Hraw by (auto; lia).
        apply tick_bind.
        * intros n1. rewrite (put_cell_eq k); [reflexivity|eapply filled_shape; eauto|rewrite (fi_len _ _ _ _ F); lia].
        * intros R. split; [reflexivity|]. split; [exact R|]. exists done, (i :: todo), a'. auto.
      + intros _ s n1 ->. cbn [modify outcome fst snd]. exists (upd_cell a' i (Live e)). split.
        * rewrite app_length. cbn [length]. rewrite Nat.add_1_r. reflexivity.
        * destruct F. constructor; auto.
          -- rewrite cells_upd_cell, set_nth_len. assumption.
          -- intros j Hj. rewrite cells_upd_cell, set_nth_err by lia. destruct (Nat.eqb_spec j i) as [->|Hne]; [congruence|].
             apply fi_in0. apply in_app_or in Hj as [|[|[]]]; [assumption|congruence].
          -- intros j Hj. rewrite cells_upd_cell, set_nth_err by lia. destruct (Nat.eqb_spec j i) as [->|Hne].
             ++ exfalso. apply Hj, in_or_app. right. now left.
             ++ apply fi_out0. intros C. apply Hj, in_or_app. now left.
    - intros done todo s g _ _ Hg _. apply (shape_get_group k); auto.
    - apply (sh_elems _ _ HSx).
    - apply (sh_mask _ _ HSx).
    - exists (arr t). rewrite set_arr_id. split; [reflexivity|eapply filled_nil; eauto]. }
  destruct (for_all (fun _ : table * nat => arr x) _ (t, O) n) as [u s n1|kd s n1|]; cbn [outcome] in X; [| |destruct X].
  - destruct X as (a' & -> & F). cbn [outcome fst]. eauto.
  - destruct X as (-> & R & D & D' & a' & Ho & -> & F). rewrite bind_get. cbn [snd].
    destruct (Nat.eqb_spec (length D) 0) as [E0|N0].
    + destruct D; [|discriminate]. cbn [ret outcome fst]. rewrite (filled_eq _ _ _ k HS F), set_arr_id. auto.
    + assert (D <> []) as HD by (intros ->; apply N0; reflexivity).
      pose proof (uncopy_loop k (hid x) x t D D' a' n1 HG HS Hraw Ho HD F) as U.
      unfold bind at 1. destruct (for_all_while (fun _ : table * nat => arr x) _ (set_arr t a', length D) n1) as [u s n2|kd s n2|]; cbn [outcome] in U; [|destruct U|destruct U].
      cbn [ret outcome fst]. auto.
Qed.

(** elements of a prefix of the traversal and the element after it have different keys *)
Lemma uniq_prefix h p k a D i D' e : compat c h p -> GoodA c h k a -> Uniq c p (elems a) -> D ++ i :: D' = occ a ->
  nth_error (cells a) i = Some (Live e) -> forall x, In x (at_slots a D) -> keqf c p (fst e) (fst x) = false.
Proof.
  intros [[Er [Es Et]] _] HG U Ho He x Hx. rewrite (elems_occ c h k a HG), <- Ho, at_slots_app in U.
  change (i :: D') with ([i] ++ D') in U. rewrite at_slots_app, (at_slots_one _ _ _ He) in U. cbn [app] in U.
  revert U Hx. generalize (at_slots a D) as l. induction l as [|y l IH]; cbn; intros U [].
  - subst y. inversion U as [|? ? F _]; subst. rewrite Forall_forall in F. rewrite Es. apply F. apply in_or_app. right. now left.
  - inversion U; subst. auto.
Qed.

Lemma insert_slot_ok (x t : table) k D i D' e n : GoodA c (hid x) k (arr x) -> Uniq c (pid x) (elems (arr x)) ->
  sz x = N.of_nat (length (elems (arr x))) ->
  Inv c t -> hid t = hid x -> pid t = pid x -> sz x <= ml t ->
  D ++ i :: D' = occ (arr x) -> Permutation (elems (arr t)) (at_slots (arr x) D) -> nth_error (cells (arr x)) i = Some (Live e) ->
  outcome (unchecked_insert c KTransfer e t n)
    (fun _ t' => Inv c t' /\ Ids t t' /\ ml t' = ml t /\ Permutation (elems (arr t')) (at_slots (arr x) (D ++ [i])))
    (fun kd t' => (kd = KHash \/ kd = KTransfer) /\ raised c kd /\ Inv c t' /\ Ids t t' /\ Permutation (elems (arr t')) (at_slots (arr x) D)).
Proof.
  intros HG HU Hsz H Eh Ep Hml Ho P He. unfold unchecked_insert. rewrite bind_get. unfold hash_for. rewrite bind_bind.
  apply tick_bind.
  2:{ intros R. split; [now left|]. split; [exact R|]. split; [exact H|]. split; [apply Ids_refl|exact P]. }
  intros n1. rewrite bind_ret.
  assert (sz t < ml t) as Hlt.
  { rewrite (i_sz _ _ H), (Permutation_length P). 
    assert (length (at_slots (arr x) D) < length (elems (arr x)))%nat; [|lia].
    rewrite (elems_occ c _ k _ HG), <- Ho, at_slots_app, app_length. change (i :: D') with ([i] ++ D').
    rewrite at_slots_app, app_length, (at_slots_one _ _ _ He). cbn [length]. lia. }
  eapply outcome_bind; [eapply outcome_weaken; [apply (unchecked_emplace_at_ok c KTransfer t e n1 H Hlt)| |]|].
  - intros y Hy. apply (Permutation_in _ P) in Hy. rewrite Ep. eapply (uniq_prefix (hid x)); eauto.
    rewrite <- Eh, <- Ep. apply (i_compat _ _ H).
  - intros l t' X. exact X.
  - intros kd t' (-> & R & I & S). split; [now right|]. split; [exact R|]. split; [exact I|].
    split; [apply same_ids; exact S|]. destruct S as [_ S]. rewrite (ext_elems _ _ S). exact P.
  - intros l t' n2 (I & _ & Ins & P'). cbn [ret outcome]. split; [exact I|]. split; [apply Ins|]. split; [apply Ins|].
    rewrite P', P, at_slots_app, (at_slots_one _ _ _ He). apply Permutation_cons_append.
Qed.

Record Part (x t : table) (t' : table) : Prop := {
  pt_inv : Inv c t'; pt_ids : Ids t t'; pt_sub : exists rest, Permutation (elems (arr x)) (elems (arr t') ++ rest) }.

Lemma good_fill k (x : arrays) h a a' : GoodA c h k x -> Shape k a ->
  (forall i, (i < length (cells a))%nat -> nth_error (cells a) i = Some Raw) ->
  filled x a (occ x) a' ->
  let b := Arr (a_gsi a) (a_mask a) (a_groups x) (a_elems a') (a_owner a) in
  GoodA c h k b /\ cells b = cells x.
Proof.
  intros HG HS Hraw F b. pose proof HG as [HSx HSl].
  assert (cells a' = cells x) as Ec.
  { apply list_ext. intros i. destruct (in_dec Nat.eq_dec i (occ x)) as [I|I]; [apply (fi_in _ _ _ _ F i I)|].
    rewrite (fi_out _ _ _ _ F i I). destruct (Nat.lt_ge_cases i (length (cells x))) as [L|G].
    - assert (i < length (cells a))%nat as La by (rewrite (sh_cells _ _ HS); rewrite (sh_cells _ _ HSx) in L; exact L).
      rewrite (Hraw i La). destruct (nth_error (cells x) i) as [y|] eqn:Ey; [|apply nth_error_None in Ey; lia].
      specialize (HSl i y Ey). destruct y as [| |e]; [reflexivity|destruct HSl|].
      exfalso. apply I. eapply good_occ; eauto.
    - rewrite !(proj2 (nth_error_None _ _)); auto. rewrite (sh_cells _ _ HS). rewrite (sh_cells _ _ HSx) in G. exact G. }
  assert (cells b = cells x) as Eb by (unfold b, cells at 1; cbn [a_elems]; fold (cells a'); exact Ec).
  split; [|exact Eb]. split.
  - destruct HSx, HS. constructor; auto; unfold b; cbn [a_gsi a_mask a_groups a_elems]; fold b.
    + rewrite (fi_elems _ _ _ _ F). unfold b, cells at 2. cbn [a_elems]. fold (cells a'). reflexivity.
    + rewrite Eb. assumption.
    + rewrite Eb. exact sh_sent.
  - intros i y Hy. rewrite Eb in Hy. exact (HSl i y Hy).
Qed.

Lemma copy_elements_ok (x t : table) n : Inv c x -> Inv c t -> elems (arr t) = [] -> hid t = hid x -> pid t = pid x -> sz x <= ml t ->
  outcome (copy_elements_from c x t n)
    (fun _ t' => Inv c t' /\ Ids t t' /\ Permutation (elems (arr t')) (elems (arr x)))
    (fun kd t' => (kd = KHash \/ kd = KTransfer) /\ raised c kd /\ Part x t t').
Proof.
  intros Hx H Ee Eh Ep Hml. unfold copy_elements_from. rewrite bind_get.
  destruct (i_arr _ _ Hx) as [Ex | (k & HG & Hk)].
  { assert (elems (arr x) = []) as Eex by (rewrite Ex; reflexivity).
    assert (outcome (ret tt t n) (fun _ t' => Inv c t' /\ Ids t t' /\ Permutation (elems (arr t')) (elems (arr x)))
        (fun kd t' => (kd = KHash \/ kd = KTransfer) /\ raised c kd /\ Part x t t')) as R.
    { cbn [ret outcome]. rewrite Ee, Eex. split; [exact H|]. split; [apply Ids_refl|constructor]. }
    destruct (a_mask (arr t) =? a_mask (arr x)).
    - unfold fast_copy_elements_from. rewrite bind_get. replace (a_elems (arr x)) with (@None (list cell)) by (rewrite Ex; reflexivity).
      destruct (a_elems (arr t)); exact R.
    - rewrite for_all_none by (rewrite Ex; reflexivity). exact R. }
  pose proof HG as [HSx _].
  destruct (N.eqb_spec (a_mask (arr t)) (a_mask (arr x))) as [Em|Nm].
  - unfold fast_copy_elements_from. rewrite bind_get.
    destruct (i_arr _ _ H) as [Et | (k' & HGt & Hk')].
    + replace (a_elems (arr t)) with (@None (list cell)) by (rewrite Et; reflexivity).
      cbn [ret outcome]. split; [exact H|]. split; [apply Ids_refl|]. rewrite Ee.
      pose proof (inv_bounds c t H) as (B1 & B2 & B3). rewrite Et in B2. cbn in B2.
      pose proof (i_sz _ _ Hx). destruct (elems (arr x)); [constructor|cbn in *; lia].
    + pose proof HGt as [HSt _].
      assert (k' = k) as ->.
      { rewrite (sh_mask _ _ HSt), (sh_mask _ _ HSx) in Em. pose proof (pow2_pos k). pose proof (pow2_pos k').
        assert (2 ^ k' = 2 ^ k) as E2 by lia. apply N.pow_inj_r in E2; lia. }
      assert (forall i, (i < length (cells (arr t)))%nat -> nth_error (cells (arr t)) i = Some Raw) as Hraw.
      { intros i Hi. destruct (nth_error (cells (arr t)) i) as [y|] eqn:Ey; [|apply nth_error_None in Ey; lia].
        destruct HGt as [_ Sl]. specialize (Sl i y Ey). destruct y as [| |e]; [reflexivity|destruct Sl|].
        exfalso. assert (In e (elems (arr t))) as I by (apply in_elems; eauto). rewrite Ee in I. destruct I. }
      rewrite (sh_elems _ _ HSt), (sh_elems _ _ HSx).
      eapply outcome_bind; [eapply outcome_weaken; [apply (copy_array_ok k x t n HG HSt Hraw)| |]|].
      * intros u t' X. exact X.
      * intros kd t' (-> & R & ->). split; [now right|]. split; [exact R|]. constructor; [exact H|apply Ids_refl|].
        rewrite Ee. exists (elems (arr x)). reflexivity.
      * intros _ t' n1 (a' & -> & F). cbn [modify outcome set_arr arr hid pid aid ml sz].
        rewrite (fi_gsi _ _ _ _ F), (fi_mask _ _ _ _ F), (fi_owner _ _ _ _ F).
        destruct (good_fill k (arr x) (hid x) (arr t) a' HG HSt Hraw F) as [Gb Eb]. set (b := Arr _ _ _ _ _) in *.
        assert (elems b = elems (arr x)) as Eeb by (unfold elems; rewrite Eb; reflexivity).
        split; [|split; [constructor; reflexivity|rewrite Eeb; reflexivity]].
        pose proof Gb as [HSb _]. destruct (init_ml_shape _ _ HSb) as [E1 _], (init_ml_shape _ _ HSx) as [E2 _].
        constructor; cbn [arr hid pid aid ml sz].
        -- apply H.
        -- apply (i_owner _ _ H).
        -- right. exists k. rewrite Eh. auto.
        -- rewrite Eeb, Ep. apply Hx.
        -- rewrite Eeb. apply Hx.
        -- apply Hx.
        -- rewrite E1, <- E2. apply Hx.
  - assert (at_slots (arr x) (occ (arr x)) = elems (arr x)) as EA by (symmetry; eapply elems_occ; eauto).
    eapply outcome_weaken.
    + apply (for_all_ok _ _ k (arr x) (fun done todo t' => Inv c t' /\ Ids t t' /\ ml t' = ml t /\ Permutation (elems (arr t')) (at_slots (arr x) done))
        (fun kd t' => (kd = KHash \/ kd = KTransfer) /\ raised c kd /\ Part x t t')).
      * exact HSx.
      * intros done i todo t' n' Ho (I & [Ih Ip Ia] & Em' & P).
        assert (In i (occ (arr x))) as Hi by (rewrite <- Ho; apply in_or_app; right; now left).
        apply (good_occ c (hid x) k) in Hi as [e He]; [|exact HG].
        rewrite slot_of. unfold read_element. rewrite (get_cell_eq k), He by exact HSx. rewrite bind_ret.
        eapply outcome_weaken; [apply (insert_slot_ok x t' k done i todo e n'); auto; try congruence; try apply Hx| |].
        -- intros u t1 (I1 & [A1 A2 A3] & M1 & P1). split; [exact I1|]. split; [constructor; congruence|]. split; [congruence|exact P1].
        -- intros kd t1 (Hkd & R & I1 & [A1 A2 A3] & P1). split; [exact Hkd|]. split; [exact R|].
           constructor; [exact I1|constructor; congruence|]. exists (at_slots (arr x) (i :: todo)).
           rewrite P1, <- at_slots_app, Ho, EA. reflexivity.
      * intros done todo t' g _ _ Hg _. apply (shape_get_group k); auto.
      * apply (sh_elems _ _ HSx).
      * apply (sh_mask _ _ HSx).
      * split; [exact H|]. split; [apply Ids_refl|]. split; [reflexivity|]. rewrite Ee. constructor.
    + intros u t' (I & Id & _ & P). rewrite EA in P. auto.
    + auto.
Qed.

(** copy construction: the new table has the same elements; on failure nothing remains *)
Lemma copy_construct_ok {St} (x : table) al (s : St) n : Inv c x ->
  outcome (copy_construct c x al s n)
    (fun t s' => s' = s /\ Inv c t /\ hid t = hid x /\ pid t = pid x /\ aid t = al /\ Permutation (elems (arr t)) (elems (arr x)))
    (fun kd s' => s' = s /\ ((kd = KHash \/ kd = KTransfer) /\ raised c kd \/ kd = KAlloc /\ alloc_fail c (ceil_div_mlf (sz x)))).
Proof.
  intros Hx. unfold copy_construct. destruct (small_ceil c HC (sz x) (inv_small c x Hx)) as [C1 C2].
  unfold ceil_div_mlf_ok. apply N.ltb_lt in C1 as C1b. rewrite C1b. cbn [negb]. unfold construct_then.
  pose proof (new_table_ok c HC (hid x) (pid x) al (ceil_div_mlf (sz x)) s n (i_compat _ _ Hx) (conj C1 C2)) as X.
  destruct (new_table c (hid x) (pid x) al (ceil_div_mlf (sz x)) s n) as [t s1 n1|kd s1 n1|]; cbn [outcome] in X; [| |destruct X].
  - destruct X as (-> & I & Eh & Ep & Ea & Ee & Es & Em & Lc & Lr).
    unfold on_fst, lens. cbn [fst snd].
    pose proof (copy_elements_ok x t n1 Hx I Ee Eh Ep (Lr _ eq_refl)) as Y.
    destruct (copy_elements_from c x t n1) as [u t' n2|kd t' n2|]; cbn [outcome] in Y; [| |destruct Y].
    + destruct Y as (I' & [A1 A2 A3] & P). cbn [outcome fst snd]. split; [reflexivity|]. split; [exact I'|].
      repeat split; try congruence; try exact P.
    + destruct Y as (Hkd & R & [I' _ _]). cbn [fst snd].
      pose proof (destroy_table_ok c t' n2 (inv_w c t' I')) as Z.
      destruct (destroy_table t' n2); cbn [outcome] in *; [|destruct Z|destruct Z]. auto.
  - destruct X as (-> & -> & F). cbn [outcome]. auto.
Qed.

Lemma move_construct_ok (x : table) n : Inv c x ->
  outcome (move_construct c x n)
    (fun t x' => t = x /\ Inv c x' /\ Ids x x' /\ elems (arr x') = [] /\ sz x' = 0) (fun _ _ => False).
Proof.
  intros Hx. unfold move_construct. rewrite bind_get. unfold bind at 1, new_arrays. rewrite N.eqb_refl. cbn [ret].
  cbn [bind put outcome]. split; [destruct x; reflexivity|].
  split; [|split; [constructor; reflexivity|split; reflexivity]].
  constructor; cbn [arr hid pid aid ml sz]; try reflexivity.
  - apply Hx.
  - left. reflexivity.
  - constructor.
Qed.

(** ** moving element by element, the source being cleared at the end in all cases *)
Record movedout (a : arrays) (D : list nat) (a' : arrays) : Prop := {
  mv_gsi : a_gsi a' = a_gsi a; mv_mask : a_mask a' = a_mask a; mv_owner : a_owner a' = a_owner a;
  mv_groups : a_groups a' = a_groups a; mv_elems : a_elems a' = Some (cells a');
  mv_len : length (cells a') = length (cells a);
  mv_in : forall i, In i D -> nth_error (cells a') i = Some Moved;
  mv_out : forall i, ~ In i D -> nth_error (cells a') i = nth_error (cells a) i
}.
Lemma movedout_w k h a D a' : GoodA c h k a -> movedout a D a' -> (forall i, In i D -> In i (occ a)) -> GoodW k a'.
Proof.
  intros HG W HD. pose proof (good_w c h k a HG) as [HS Hw]. destruct W.
  assert (forall i, ctrl a' i = ctrl a i) as Ec by (intros i; unfold ctrl, grp; rewrite mv_groups0; reflexivity).
  split.
  - destruct HS. constructor; try congruence.
  - intros i y Hy. rewrite Ec. destruct (in_dec Nat.eq_dec i D) as [I|I].
    + rewrite mv_in0 in Hy by exact I. injection Hy as <-. split; [discriminate|].
      intros C. exfalso. apply (occ_in k a i HS (HD i I)). exact C.
    + rewrite mv_out0 in Hy by exact I. apply (Hw i y Hy).
Qed.

Lemma move_elements_hp_ok (t x : table) h p n : compat c h p -> Inv c x -> Inv c t -> elems (arr t) = [] -> hid t = hid x -> pid t = pid x -> sz x <= ml t ->
  outcome (move_elements c (t, set_hp x h p) n)
    (fun _ s => Inv c (fst s) /\ Ids t (fst s) /\ Permutation (elems (arr (fst s))) (elems (arr x)) /\
                Inv c (snd s) /\ Ids (set_hp x h p) (snd s) /\ elems (arr (snd s)) = [])
    (fun kd s => (kd = KHash \/ kd = KTransfer) /\ raised c kd /\ Part x t (fst s) /\
                Inv c (snd s) /\ Ids (set_hp x h p) (snd s) /\ elems (arr (snd s)) = []).
Proof.
  intros Hcp Hx H Ee Eh Ep Hml. unfold move_elements, finally.
  set (f := fun g m => bind get (fun s : table * table => _)).
  assert (outcome (for_all (fun s => arr (snd s)) f (t, set_hp x h p) n)
    (fun _ s => Inv c (fst s) /\ Ids t (fst s) /\ Permutation (elems (arr (fst s))) (elems (arr x)) /\ InvW c (snd s) /\ Ids (set_hp x h p) (snd s))
    (fun kd s => (kd = KHash \/ kd = KTransfer) /\ raised c kd /\ Part x t (fst s) /\ InvW c (snd s) /\ Ids (set_hp x h p) (snd s))) as X.
  { destruct (i_arr _ _ Hx) as [Ex | (k & HG & Hk)].
    - rewrite for_all_none by (cbn [snd set_hp arr]; rewrite Ex; reflexivity). cbn [outcome fst snd].
      split; [exact H|]. split; [apply Ids_refl|]. split; [rewrite Ee, Ex; constructor|]. split; [|apply Ids_refl]. destruct (inv_w c x Hx) as (_ & W2 & W3). split; [exact Hcp|]. split; [exact W2|exact W3].
    - pose proof HG as [HSx _]. assert (at_slots (arr x) (occ (arr x)) = elems (arr x)) as EA by (symmetry; eapply elems_occ; eauto).
      assert (forall D a', movedout (arr x) D a' -> (forall i, In i D -> In i (occ (arr x))) -> InvW c (set_arr (set_hp x h p) a')) as HW.
      { intros D a' W HD. split; [exact Hcp|]. split; [cbn; rewrite (mv_owner _ _ _ W); apply Hx|]. right. exists k.
        split; [eapply movedout_w; eauto|exact Hk]. }
      eapply outcome_weaken.
      + apply (for_all_ok _ _ k (arr x) (fun done todo s => exists t' a', s = (t', set_arr (set_hp x h p) a') /\ movedout (arr x) done a' /\
           Inv c t' /\ Ids t t' /\ ml t' = ml t /\ Permutation (elems (arr t')) (at_slots (arr x) done))
          (fun kd s => (kd = KHash \/ kd = KTransfer) /\ raised c kd /\ Part x t (fst s) /\ InvW c (snd s) /\ Ids (set_hp x h p) (snd s))).
        * exact HSx.
        * intros done i todo s n' Ho (t' & a' & -> & W & I & [Ih Ip Ia] & Em' & P).
          assert (In i (occ (arr x))) as Hi by (rewrite <- Ho; apply in_or_app; right; now left).
          assert (forall j, In j done -> In j (occ (arr x))) as Hd by (intros j Hj; rewrite <- Ho; apply in_or_app; now left).
          pose proof (occ_in k (arr x) i HSx Hi) as [Li _].
          pose proof Hi as Hi2. apply (good_occ c (hid x) k) in Hi as [e He]; [|exact HG].
          pose proof (occ_nodup (arr x)) as ND. rewrite <- Ho in ND. apply NoDup_remove_2 in ND.
          assert (~ In i done) as Hni by (intros C; apply ND, in_or_app; now left).
          pose proof (movedout_w k (hid x) _ _ _ HG W Hd) as [HSa _].
          unfold f. rewrite bind_get, slot_of. cbn [fst snd set_arr set_hp arr].
          unfold read_element. rewrite (get_cell_eq k) by exact HSa. rewrite (mv_out _ _ _ W i Hni), He, bind_ret.
          eapply outcome_bind with (Q' := fun _ s => exists t1, s = (t1, set_arr (set_hp x h p) a') /\ Inv c t1 /\ Ids t' t1 /\ ml t1 = ml t' /\
             Permutation (elems (arr t1)) (at_slots (arr x) (done ++ [i]))).
          -- unfold on_fst. apply outcome_lens. cbn [fst snd].
             eapply outcome_weaken; [apply (insert_slot_ok x t' k done i todo e n'); auto; try congruence; try apply Hx| |].
             ++ intros u t1 (I1 & Id1 & M1 & P1). exists t1. auto.
             ++ intros kd t1 (Hkd & R & I1 & [A1 A2 A3] & P1). split; [exact Hkd|]. split; [exact R|]. cbn [fst snd].
                split; [|split; [eapply HW; eauto|constructor; reflexivity]].
                constructor; [exact I1|constructor; congruence|]. exists (at_slots (arr x) (i :: todo)).
                rewrite P1, <- at_slots_app, Ho, EA. reflexivity.
          -- intros u s n1 (t1 & -> & I1 & [A1 A2 A3] & M1 & P1). unfold on_snd, on_arr, lens. cbn [fst snd set_arr set_hp arr].
             rewrite (put_cell_eq k) by (auto; rewrite (mv_len _ _ _ W); exact Li). cbn [outcome].
             exists t1, (upd_cell a' i Moved). split; [reflexivity|]. split; [|split; [exact I1|split; [constructor; congruence|split; [congruence|exact P1]]]].
             pose proof (mv_len _ _ _ W) as Lw. destruct W. constructor; auto.
             ++ rewrite cells_upd_cell, set_nth_len. assumption.
             ++ intros j Hj. rewrite cells_upd_cell, set_nth_err by lia. destruct (Nat.eqb_spec j i) as [->|Hne]; [reflexivity|].
                apply mv_in0. apply in_app_or in Hj as [|[|[]]]; [assumption|congruence].
             ++ intros j Hj. rewrite cells_upd_cell, set_nth_err by lia. destruct (Nat.eqb_spec j i) as [->|Hne].
                ** exfalso. apply Hj, in_or_app. right. now left.
                ** apply mv_out0. intros C. apply Hj, in_or_app. now left.
        * intros done todo s g Ho (t' & a' & -> & W & _) Hg _. cbn [snd set_arr set_hp arr].
          assert (forall j, In j done -> In j (occ (arr x))) as Hd by (intros j Hj; rewrite <- Ho; apply in_or_app; now left).
          pose proof (movedout_w k (hid x) _ _ _ HG W Hd) as [HSa _].
          rewrite (shape_get_group k) by assumption. unfold grp. rewrite (mv_groups _ _ _ W). reflexivity.
        * apply (sh_elems _ _ HSx).
        * apply (sh_mask _ _ HSx).
        * exists t, (arr x). split; [reflexivity|]. split; [|split; [exact H|split; [apply Ids_refl|split; [reflexivity|rewrite Ee; constructor]]]].
          constructor; auto; [apply (sh_elems _ _ HSx)|intros i []].
      + intros u s (t' & a' & -> & W & I & Id & _ & P). rewrite EA in P. cbn [fst snd].
        split; [exact I|]. split; [exact Id|]. split; [exact P|]. split; [eapply HW; eauto|constructor; reflexivity].
      + auto. }
  destruct (for_all (fun s : table * table => arr (snd s)) f (t, set_hp x h p) n) as [u s n1|kd s n1|]; cbn [outcome] in X; [| |destruct X].
  - destruct X as (I & Id & P & IW & Idx). unfold on_snd, lens.
    pose proof (clear_ok c (snd s) n1 IW) as Y. destruct (clear (snd s) n1) as [u' x' n2|kd' x' n2|]; cbn [outcome fst snd] in *; [|destruct Y|destruct Y].
    destruct Y as (I' & [A1 A2 A3] & Ee' & _). destruct Idx. split; [exact I|]. split; [exact Id|]. split; [exact P|]. split; [exact I'|].
    split; [constructor; congruence|exact Ee'].
  - destruct X as (Hkd & R & Pt & IW & Idx). unfold on_snd, lens.
    pose proof (clear_ok c (snd s) n1 IW) as Y. destruct (clear (snd s) n1) as [u' x' n2|kd' x' n2|]; cbn [outcome fst snd] in *; [|destruct Y|destruct Y].
    destruct Y as (I' & [A1 A2 A3] & Ee' & _). destruct Idx. split; [exact Hkd|]. split; [exact R|]. split; [exact Pt|]. split; [exact I'|].
    split; [constructor; congruence|exact Ee'].
Qed.

Lemma set_hp_id (x : table) : set_hp x (hid x) (pid x) = x. Proof. destruct x; reflexivity. Qed.
Lemma move_elements_ok (t x : table) n : Inv c x -> Inv c t -> elems (arr t) = [] -> hid t = hid x -> pid t = pid x -> sz x <= ml t ->
  outcome (move_elements c (t, x) n)
    (fun _ s => Inv c (fst s) /\ Ids t (fst s) /\ Permutation (elems (arr (fst s))) (elems (arr x)) /\
                Inv c (snd s) /\ Ids x (snd s) /\ elems (arr (snd s)) = [])
    (fun kd s => (kd = KHash \/ kd = KTransfer) /\ raised c kd /\ Part x t (fst s) /\
                Inv c (snd s) /\ Ids x (snd s) /\ elems (arr (snd s)) = []).
Proof.
  intros Hx. pose proof (move_elements_hp_ok t x (hid x) (pid x) n (i_compat _ _ Hx) Hx) as X.
  rewrite set_hp_id in X. exact X.
Qed.

Lemma move_construct_al_ok (x : table) al n : Inv c x ->
  outcome (move_construct_al c al x n)
    (fun t x' => Inv c t /\ hid t = hid x /\ pid t = pid x /\ aid t = al /\ Permutation (elems (arr t)) (elems (arr x)) /\
                 Inv c x' /\ Ids x x' /\ elems (arr x') = [] /\ (al = aid x -> arr t = arr x))
    (fun kd x' => Inv c x' /\ Ids x x' /\ 
       (kd = KAlloc \/ raised c kd) /\ (x' = x \/ elems (arr x') = [])).
Proof.
  intros Hx. unfold move_construct_al. rewrite bind_get. unfold construct_then.
  assert (request_ok c 0) as R0.
  { split; [reflexivity|]. change (groups_for 0) with 2.
    apply buffer_fits_mono with (g' := 8 * gmax c); [lia| |apply HC]. pose proof (gc_gmax _ HC). lia. }
  unfold new_table at 1, new_arrays at 1. rewrite N.eqb_refl, bind_ret. cbn [ret].
  set (t := Tab (hid x) (pid x) al (dummy_arrays al) (init_ml (dummy_arrays al)) 0).
  assert (Inv c t) as It.
  { constructor; cbn [t arr hid pid aid ml sz]; try reflexivity; [apply Hx|left; reflexivity|constructor]. }
  rewrite bind_get. cbn [fst snd].
  destruct (N.eqb_spec al (aid x)) as [->|Na].
  - cbn [put outcome fst snd t arr hid pid aid ml sz]. split; [destruct x; exact Hx|].
    do 3 (split; [reflexivity|]). split; [reflexivity|].
    split; [|split; [constructor; reflexivity|split; [reflexivity|intros _; reflexivity]]].
    constructor; cbn [t arr hid pid aid ml sz]; try reflexivity; [apply Hx|left; reflexivity|constructor].
  - destruct (small_ceil c HC (sz x) (inv_small c x Hx)) as [C1 C2].
    pose proof (reserve_ok c HC t (sz x) n It (conj C1 C2)) as X.
    unfold bind at 1, on_fst at 1, lens at 1. cbn [fst snd].
    destruct (reserve c (sz x) t n) as [u t1 n1|kd t1 n1|]; cbn [outcome] in X; [| |destruct X].
    + destruct X as (I1 & [A1 A2 A3] & P1 & S1 & _ & _ & M1). cbn [t arr hid pid aid ml sz] in *.
      destruct (M1 eq_refl) as [M2 _].
      assert (elems (arr t1) = []) as Ee1 by (apply Permutation_nil; symmetry; exact P1).
      pose proof (move_elements_ok t1 x n1 Hx I1 Ee1 A1 A2 M2) as Y.
      destruct (move_elements c (t1, x) n1) as [u' s n2|kd s n2|]; cbn [outcome] in Y; [| |destruct Y].
      * destruct Y as (I2 & [B1 B2 B3] & P2 & Ix & Idx & Ex). cbn [outcome].
        split; [exact I2|]. split; [congruence|]. split; [congruence|]. split; [congruence|]. split; [exact P2|]. split; [exact Ix|].
        split; [exact Idx|]. split; [exact Ex|]. intros C. congruence.
      * destruct Y as (Hkd & R & [I2 _ _] & Ix & Idx & Ex).
        pose proof (destroy_table_ok c (fst s) n2 (inv_w c _ I2)) as Z.
        destruct (destroy_table (fst s) n2); cbn [outcome] in *; [|destruct Z|destruct Z].
        split; [exact Ix|]. split; [exact Idx|]. auto.
    + assert (Inv c t1) as I1.
      { destruct X as [(-> & -> & _) | (_ & _ & F)]; [exact It|]. apply (failed_inv c t t1 It F). }
      assert (kd = KAlloc \/ raised c kd) as Hk by (destruct X as [(-> & _) | (_ & R & _)]; auto).
      cbn [fst snd]. pose proof (destroy_table_ok c t1 n1 (inv_w c _ I1)) as Z.
      destruct (destroy_table t1 n1); cbn [outcome] in *; [|destruct Z|destruct Z].
      split; [exact Hx|]. split; [apply Ids_refl|]. auto.
Qed.
End Copy.
