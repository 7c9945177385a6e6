(** Merge, comparison, erase_if. *)
From Coq Require Import NArith ZArith Bool List Arith Lia ZifyBool ZifyNat ZifyN Permutation.
From Verif Require Import FloatModel SizeModel SizeProofs GroupModel GroupSpec FoaModel FoaGroup FoaBase FoaFind FoaArr FoaInv FoaRehash FoaOps FoaCopy.
Import ListNotations.
Local Open Scope N_scope.

Section Merge.
Context {K V : Type} (c : Cfg K V).
Notation arrays := (arrays K V).
Notation table := (table K V).
Notation cell := (cell K V).

Definition mem (D : list nat) (i : nat) : bool := existsb (Nat.eqb i) D.
Lemma mem_spec D i : mem D i = true <-> In i D.
Proof.
  unfold mem. rewrite existsb_exists. split; [intros (j & Hj & E)|intros H; exists i].
  - apply Nat.eqb_eq in E. congruence.
  - split; [exact H|apply Nat.eqb_refl].
Qed.

(** erasing slots keeps the order of the others *)
Lemma erased_order h k D a a' : GoodA c h k a -> erased k D a a' ->
  elems a' = at_slots a (filter (fun i => negb (mem D i)) (occ a)).
Proof.
  intros HG W. rewrite (elems_occ c h k a' (good_erased c h k D a a' HG W)).
  unfold occ. rewrite (er_len _ _ _ _ W). generalize (seq 0 (length (cells a))) as l.
  induction l as [|i l IH]; [reflexivity|]. cbn [filter]. destruct (mem D i) eqn:E.
  - apply mem_spec in E as Hi. destruct (er_in _ _ _ _ W i Hi) as [_ E2]. rewrite E2. cbn [N.eqb negb].
    destruct (negb (ctrl a i =? 0)); cbn [filter]; rewrite ?E; cbn [negb]; exact IH.
  - assert (~ In i D) as Hi by (intros C; apply mem_spec in C; congruence).
    destruct (er_out _ _ _ _ W i Hi) as [E1 E2]. rewrite E2.
    destruct (negb (ctrl a i =? 0)); cbn [filter]; rewrite ?E; cbn [negb]; [|exact IH].
    unfold at_slots in *. cbn [flat_map]. rewrite E1. f_equal. exact IH.
Qed.

Lemma erasedT_nil (t : table) k : Shape k (arr t) -> ErasedT t t [].
Proof.
  intros HS. constructor; [apply Ids_refl|cbn; lia|cbn; lia|]. exists k. split; [apply erased_nil; exact HS|exact HS].
Qed.
Lemma erased_k k k' D (a a' : arrays) : Shape k a -> Shape k' a' -> erased k D a a' -> k' = k.
Proof.
  intros HS HS' W. pose proof (sh_mask _ _ HS') as M1. rewrite (sh_mask _ _ (er_shape _ _ _ _ W)) in M1.
  assert (2 ^ k' = 2 ^ k) as Ek by (pose proof (pow2_pos k); pose proof (pow2_pos k'); lia).
  apply N.pow_inj_r in Ek; lia.
Qed.

Lemma set_nth_twice {A} (l : list A) i x y : (i < length l)%nat -> set_nth (set_nth l i x) i y = set_nth l i y.
Proof.
  intros L. apply list_ext. intros j. rewrite !set_nth_err by (rewrite ?set_nth_len; exact L). destruct (Nat.eqb j i); reflexivity.
Qed.

(** erasing one more slot, possibly after its value was moved from *)
Lemma erasedT_erase t t1 D i e y n : Inv c t -> ErasedT t t1 D -> NoDup D -> (forall j, In j D -> In j (occ (arr t))) ->
  ~ In i D -> nth_error (cells (arr t)) i = Some (Live e) -> y <> Raw ->
  outcome (erase_at (i / 15) (i mod 15) (set_arr t1 (upd_cell (arr t1) i y)) n)
    (fun _ t2 => ErasedT t t2 (D ++ [i])) (fun _ _ => False).
Proof.
  intros H ET ND HD Hni He Hy.
  destruct (erased_t_inv c t t1 D H ET ND HD) as (I1 & P1 & C1).
  destruct ET as [[E1 E2 E3] Es Em (k & W & HS)].
  pose proof (inv_bounds c t1 I1) as (B1 & B2 & B3).
  destruct (er_out _ _ _ _ W i Hni) as [Ec _]. rewrite He in Ec.
  assert (i < length (cells (arr t1)))%nat as L by (apply nth_error_Some; congruence).
  assert (1 <= sz t1) as Hs.
  { rewrite (i_sz _ _ I1). assert (In e (elems (arr t1))) as J by (apply in_elems; eauto).
    destruct (elems (arr t1)); [destruct J|cbn [length]; lia]. }
  pose proof (er_shape _ _ _ _ W) as HS1.
  eapply outcome_weaken; [apply (erase_at_ok (set_arr t1 (upd_cell (arr t1) i y)) i y n k)| |auto]; cbn [set_arr arr sz ml].
  - apply shape_upd_cell. exact HS1.
  - rewrite cells_upd_cell, set_nth_err, Nat.eqb_refl by exact L. reflexivity.
  - exact Hy.
  - exact Hs.
  - lia.
  - lia.
  - intros _ t2 [[[F1 F2 F3] Gs Gm _] Ea]. cbn [set_arr hid pid aid ml sz length arr] in *.
    constructor; rewrite ?app_length; cbn [length].
    + constructor; congruence.
    + lia.
    + lia.
    + exists k. split; [|exact HS]. rewrite Ea.
      assert (upd_cell (upd_cell (arr t1) i y) i Raw = upd_cell (arr t1) i Raw) as ->.
      { unfold upd_cell. cbn [a_gsi a_mask a_groups a_owner]. f_equal. f_equal. unfold cells at 1. cbn [a_elems]. apply set_nth_twice. exact L. }
      apply erased_step; [exact W|]. rewrite <- (er_len _ _ _ _ W). exact L.
Qed.
Lemma upd_same k (a : arrays) i x : Shape k a -> nth_error (cells a) i = Some x -> upd_cell a i x = a.
Proof.
  intros HS Hx. pose proof (sh_elems _ _ HS) as E. destruct a as [g m gr el ow]. cbn in *. unfold upd_cell. cbn [a_gsi a_mask a_groups a_owner].
  f_equal. rewrite E. f_equal. apply list_ext. intros j. rewrite set_nth_err by (apply nth_error_Some; congruence).
  destruct (Nat.eqb_spec j i) as [->|]; [|reflexivity]. cbn in *. congruence.
Qed.
Lemma erasedT_erase0 t t1 D i e n : Inv c t -> ErasedT t t1 D -> NoDup D -> (forall j, In j D -> In j (occ (arr t))) ->
  ~ In i D -> nth_error (cells (arr t)) i = Some (Live e) ->
  outcome (erase_at (i / 15) (i mod 15) t1 n) (fun _ t2 => ErasedT t t2 (D ++ [i])) (fun _ _ => False).
Proof.
  intros H ET ND HD Hni He. pose proof (erasedT_erase t t1 D i e (Live e) n H ET ND HD Hni He ltac:(discriminate)) as X.
  destruct ET as [_ _ _ (k & W & HS)]. destruct (er_out _ _ _ _ W i Hni) as [Ec _]. rewrite He in Ec.
  rewrite (upd_same k _ _ _ (er_shape _ _ _ _ W) Ec), set_arr_id in X. exact X.
Qed.

Lemma nodup_snoc {A} (D : list A) i : NoDup D -> ~ In i D -> NoDup (D ++ [i]).
Proof.
  intros ND Hni. induction ND as [|x D Hx ND IH]; [constructor; [intros []|constructor]|]. cbn. constructor.
  - intros C. apply in_app_or in C as [C|[C|[]]]; [auto|subst; apply Hni; now left].
  - apply IH. intros C. apply Hni. now right.
Qed.

(** ** erase_if *)
(** what remains, the predicate being asked about each element in turn *)
Fixpoint kept (pr : list (K * V) -> K * V -> bool) (log l : list (K * V)) : list (K * V) :=
  match l with
  | [] => []
  | e :: r => if pr log e then kept pr (log ++ [e]) r else e :: kept pr (log ++ [e]) r
  end.
Lemma kept_snoc pr : forall l log e, kept pr log (l ++ [e]) = kept pr log l ++ (if pr (log ++ l) e then [] else [e]).
Proof.
  induction l as [|x l IH]; intros log e; cbn [kept app].
  - rewrite app_nil_r. destruct (pr log e); reflexivity.
  - rewrite !IH, <- app_assoc. cbn [app]. destruct (pr log x); reflexivity.
Qed.
Lemma kept_le pr : forall l log, (length (kept pr log l) <= length l)%nat.
Proof. induction l as [|x l IH]; intros log; cbn; [lia|]. destruct (pr log x); cbn; specialize (IH (log ++ [x])); lia. Qed.

Lemma filter_app_ {A} (f : A -> bool) l l' : filter f (l ++ l') = filter f l ++ filter f l'.
Proof. induction l as [|x l IH]; [reflexivity|]. cbn. destruct (f x); cbn; congruence. Qed.

Lemma erase_if_ok pr (t : table) log n : Inv c t ->
  outcome (erase_if c pr (t, log) n)
    (fun r s => Inv c (fst s) /\ Ids t (fst s) /\ snd s = log ++ elems (arr t) /\ elems (arr (fst s)) = kept pr log (elems (arr t)) /\
                r = N.of_nat (length (elems (arr t)) - length (elems (arr (fst s)))) /\ capacity (arr (fst s)) = capacity (arr t))
    (fun kd s => kd = KEq /\ raised c KEq /\ Inv c (fst s) /\ Ids t (fst s) /\
       exists l1 e l2, elems (arr t) = l1 ++ e :: l2 /\ snd s = log ++ l1 ++ [e] /\ elems (arr (fst s)) = kept pr log l1 ++ e :: l2).
Proof.
  intros H. unfold erase_if. rewrite bind_get.
  destruct (i_arr _ _ H) as [E | (k & HG & Hk)].
  { unfold bind at 1. rewrite for_all_none by (cbn [fst]; rewrite E; reflexivity). rewrite bind_get. cbn [ret outcome fst snd].
    rewrite E. rewrite dummy_elems. cbn [kept length]. rewrite app_nil_r. split; [exact H|]. split; [apply Ids_refl|].
    repeat (split; [reflexivity|]). split; [|reflexivity]. rewrite usub_ok; [cbn; lia|lia|].
    pose proof (inv_bounds c t H). lia. }
  pose proof HG as [HS _]. pose proof (elems_occ c _ k _ HG) as EA.
  set (I := fun (done todo : list nat) (s : table * list (K * V)) => exists t' D, s = (t', log ++ at_slots (arr t) done) /\
     ErasedT t t' D /\ NoDup D /\ (forall j, In j D -> In j done) /\
     at_slots (arr t) (filter (fun i => negb (mem D i)) done) = kept pr log (at_slots (arr t) done)).
  set (Ex := fun (kd : kind) (s : table * list (K * V)) => kd = KEq /\ raised c KEq /\ Inv c (fst s) /\ Ids t (fst s) /\
       exists l1 e l2, elems (arr t) = l1 ++ e :: l2 /\ snd s = log ++ l1 ++ [e] /\ elems (arr (fst s)) = kept pr log l1 ++ e :: l2).
  eapply outcome_bind with (Q' := fun _ s => I (occ (arr t)) [] s).
  - apply (for_all_ok _ _ k (arr t) I Ex _ _ HS).
    + intros done i todo s n' Ho (t' & D & -> & ET & ND & HD & Ek).
      assert (In i (occ (arr t))) as Hi by (rewrite <- Ho; apply in_or_app; right; now left).
      assert (forall j, In j D -> In j (occ (arr t))) as HDo by (intros j Hj; rewrite <- Ho; apply in_or_app; left; auto).
      apply (good_occ c (hid t) k) in Hi as [e He]; [|exact HG].
      pose proof (occ_nodup (arr t)) as NDo. rewrite <- Ho in NDo. apply NoDup_remove_2 in NDo.
      assert (~ In i done) as Hnd by (intros C; apply NDo, in_or_app; now left).
      assert (~ In i D) as HnD by auto.
      destruct (erased_t_inv c t t' D H ET ND HDo) as (I' & P' & C').
      pose proof ET as [Hids _ _ (k' & W & HS')].
      pose proof (erased_k k k' [] (arr t) (arr t) HS HS' (erased_nil k _ HS)) as Ekk. subst k'.
      destruct (er_out _ _ _ _ W i HnD) as [Ec _]. rewrite He in Ec.
      rewrite bind_get, slot_of. cbn [fst snd]. unfold read_element. rewrite (get_cell_eq k), Ec by apply W. rewrite bind_ret, bind_modify.
      assert (forall D', (forall j, In j done -> mem D' j = mem D j) -> at_slots (arr t) (filter (fun j => negb (mem D' j)) done) = kept pr log (at_slots (arr t) done)) as EkD.
      { intros D' Hm. rewrite <- Ek. f_equal. apply filter_ext_in. intros j Hj. rewrite Hm by exact Hj. reflexivity. }
      apply tick_bind.
      * intros n1. cbn [fst snd]. destruct (pr (log ++ at_slots (arr t) done) e) eqn:Epr.
        -- unfold on_fst. apply outcome_lens. cbn [fst snd].
           eapply outcome_weaken; [apply (erasedT_erase0 t t' D i e n1 H ET ND HDo HnD He)| |intros ? ? []].
           intros u t2 ET2. cbv beta in ET2. exists t2, (D ++ [i]). split; [rewrite at_slots_app, (at_slots_one _ _ _ He), app_assoc; reflexivity|].
           split; [exact ET2|]. split; [apply nodup_snoc; assumption|]. split.
           { intros j Hj. apply in_app_or in Hj as [Hj|Hj]; apply in_or_app; auto. }
           rewrite filter_app_, !at_slots_app, (at_slots_one _ _ _ He), kept_snoc, Epr.
           rewrite EkD.
           ++ cbn [filter]. assert (mem (D ++ [i]) i = true) as -> by (apply mem_spec, in_or_app; right; now left). reflexivity.
           ++ intros j Hj. unfold mem. rewrite existsb_app. cbn [existsb]. assert (Nat.eqb j i = false) as -> by (apply Nat.eqb_neq; congruence).
              rewrite !orb_false_r. reflexivity.
        -- cbn [ret outcome]. exists t', D. split; [rewrite at_slots_app, (at_slots_one _ _ _ He), app_assoc; reflexivity|].
           split; [exact ET|]. split; [exact ND|]. split; [intros j Hj; apply in_or_app; auto|].
           rewrite filter_app_, !at_slots_app, (at_slots_one _ _ _ He), kept_snoc, Epr, Ek. cbn [filter].
           assert (mem D i = false) as -> by (destruct (mem D i) eqn:E; [apply mem_spec in E; contradiction|reflexivity]).
           cbn [negb]. rewrite (at_slots_one _ _ _ He). reflexivity.
      * intros R. split; [reflexivity|]. split; [exact R|]. cbn [fst snd]. split; [exact I'|]. split; [exact Hids|].
        exists (at_slots (arr t) done), e, (at_slots (arr t) todo). split; [|split].
        -- rewrite EA, <- Ho, at_slots_app. change (i :: todo) with ([i] ++ todo). rewrite at_slots_app, (at_slots_one _ _ _ He). reflexivity.
        -- rewrite app_assoc. reflexivity.
        -- rewrite (erased_order (hid t) k D (arr t) (arr t') HG W), <- Ho, filter_app_, at_slots_app, Ek. f_equal.
           assert (filter (fun j => negb (mem D j)) (i :: todo) = i :: todo) as ->.
           { assert (forall l, (forall j, In j l -> ~ In j D) -> filter (fun j => negb (mem D j)) l = l) as FA.
             { induction l as [|j l IH]; intros Hl; [reflexivity|]. cbn [filter]. destruct (mem D j) eqn:Ej.
               - exfalso. apply mem_spec in Ej. eapply Hl; [now left|exact Ej].
               - cbn [negb]. f_equal. apply IH. intros j' Hj'. apply Hl. now right. }
             apply FA. intros j Hj Cj. pose proof (occ_nodup (arr t)) as NDo2. rewrite <- Ho in NDo2.
             apply HD in Cj. clear - Hj Cj NDo2. induction done as [|d done IH]; [destruct Cj|].
             cbn in NDo2. inversion NDo2 as [|? ? N1 N2]; subst. destruct Cj as [->|Cj]; [apply N1, in_or_app; now right|auto]. }
           change (i :: todo) with ([i] ++ todo). rewrite at_slots_app, (at_slots_one _ _ _ He). reflexivity.
    + intros done todo s g Ho (t' & D & -> & ET & ND & HD & _) Hg Hgd. cbn [fst].
      destruct ET as [_ _ _ (k' & W & HS')].
      pose proof (erased_k k k' [] (arr t) (arr t) HS HS' (erased_nil k _ HS)) as Ekk. subst k'.
      rewrite (shape_get_group k) by (auto; apply W). f_equal. apply (er_grp _ _ _ _ W). intros j Hj. specialize (Hgd j (HD j Hj)). lia.
    + apply (sh_elems _ _ HS).
    + apply (sh_mask _ _ HS).
    + exists t, []. cbn [at_slots flat_map filter kept]. rewrite app_nil_r. split; [reflexivity|]. split; [eapply erasedT_nil; eauto|].
      split; [constructor|]. split; [intros j []|reflexivity].
  - intros _ s n1 (t' & D & -> & ET & ND & HD & Ek). rewrite bind_get. cbn [ret outcome fst snd].
    destruct (erased_t_inv c t t' D H ET ND HD) as (I' & P' & C').
    pose proof ET as [Hids _ _ (k' & W & HS')].
    pose proof (erased_k k k' [] (arr t) (arr t) HS HS' (erased_nil k _ HS)) as Ekk. subst k'.
    split; [exact I'|]. split; [exact Hids|]. split; [rewrite EA; reflexivity|].
    split; [rewrite (erased_order (hid t) k D (arr t) (arr t') HG W), Ek, <- EA; reflexivity|]. split; [|exact C'].
    pose proof (Permutation_length P') as PL. rewrite app_length in PL. pose proof (inv_bounds c t H).
    rewrite (i_sz _ _ I'), (i_sz _ _ H), usub_ok; [lia|lia|]. rewrite <- (i_sz _ _ H). lia.
Qed.

(** ** operator== *)
Definition Matches (eeq : K * V -> K * V -> bool) (y : table) (e : K * V) : Prop :=
  exists e', In e' (elems (arr y)) /\ keqf c (pid y) (fst e) (fst e') = true /\ eeq e e' = true.
Lemma equal_ok {St} eeq (x y : table) (s : St) n : Inv c x -> Inv c y ->
  outcome (equal_tables c eeq x y s n)
    (fun b s' => s' = s /\ (b = true <-> length (elems (arr x)) = length (elems (arr y)) /\ forall e, In e (elems (arr x)) -> Matches eeq y e))
    (fun kd s' => s' = s /\ (kd = KHash \/ kd = KEq) /\ raised c kd).
Proof.
  intros Hx Hy. unfold equal_tables. destruct (N.eqb_spec (sz x) (sz y)) as [Es|Ns].
  2:{ cbn [ret outcome]. split; [reflexivity|]. split; [discriminate|]. intros [L _]. rewrite (i_sz _ _ Hx), (i_sz _ _ Hy) in Ns. lia. }
  assert (length (elems (arr x)) = length (elems (arr y))) as El by (rewrite (i_sz _ _ Hx), (i_sz _ _ Hy) in Es; lia).
  destruct (i_arr _ _ Hx) as [E | (k & HG & Hk)].
  { rewrite for_all_while_none by (rewrite E; reflexivity). cbn [outcome]. split; [reflexivity|]. split; [|reflexivity]. intros _. split; [exact El|].
    rewrite E, dummy_elems. intros e []. }
  pose proof HG as [HS _]. pose proof (elems_occ c _ k _ HG) as EA.
  set (I := fun (done todo : list nat) (s' : St) => s' = s /\ forall e, In e (at_slots (arr x) done) -> Matches eeq y e).
  set (Stop := fun s' : St => s' = s /\ exists e, In e (elems (arr x)) /\ ~ Matches eeq y e).
  eapply outcome_weaken.
  - apply (for_all_while_ok _ _ k (arr x) I Stop (fun kd s' => s' = s /\ (kd = KHash \/ kd = KEq) /\ raised c kd) HS).
    + intros done i todo s' n' Ho (-> & Hm).
      assert (In i (occ (arr x))) as Hi by (rewrite <- Ho; apply in_or_app; right; now left).
      apply (good_occ c (hid x) k) in Hi as [e He]; [|exact HG].
      assert (In e (elems (arr x))) as Hie by (apply in_elems; eauto).
      rewrite slot_of. unfold read_element at 1. rewrite (get_cell_eq k), He by exact HS. rewrite bind_ret.
      eapply outcome_bind; [apply (find_ok c y (fst e) s n' Hy)|].
      intros r s1 n1 (-> & Hf). destruct r as [[g m]|]; cbn [found] in Hf.
      * destruct Hf as (L15 & e' & He' & Ek). unfold read_element.
        destruct (i_arr _ _ Hy) as [E | (ky & [HSy _] & _)].
        { exfalso. rewrite E in He'. destruct (slot_index g m); discriminate. }
        rewrite (get_cell_eq ky), He' by exact HSy. rewrite bind_ret. cbn [ret outcome].
        assert (In e' (elems (arr y))) as Hie' by (apply in_elems; eauto).
        destruct (eeq e e') eqn:Ee.
        -- split; [reflexivity|]. intros z Hz. rewrite at_slots_app, (at_slots_one _ _ _ He) in Hz.
           apply in_app_or in Hz as [Hz|[<-|[]]]; [auto|]. exists e'. auto.
        -- split; [reflexivity|]. exists e. split; [exact Hie|]. intros (e2 & H1 & H2 & H3).
           assert (e2 = e') as ->; [|congruence].
           destruct (i_compat _ _ Hy) as [[R [S T]] _]. eapply (uniq_in c (pid y)); [exact (conj R (conj S T))|apply Hy|exact H1|exact Hie'|].
           apply T with (fst e); [rewrite S; exact H2|exact Ek].
      * cbn [ret outcome]. split; [reflexivity|]. exists e. split; [exact Hie|]. intros (e2 & H1 & H2 & H3).
        rewrite (Hf e2 H1) in H2. discriminate.
    + intros done todo s' g _ _ Hg _. apply (shape_get_group k); auto.
    + apply (sh_elems _ _ HS).
    + apply (sh_mask _ _ HS).
    + split; [reflexivity|]. intros e [].
  - intros b s' Hb. destruct b.
    + destruct Hb as (-> & Hm). split; [reflexivity|]. split; [|reflexivity]. intros _. split; [exact El|]. rewrite EA. exact Hm.
    + destruct Hb as (-> & e & He & Hn). split; [reflexivity|]. split; [discriminate|]. intros [_ C]. exfalso. apply Hn, C, He.
  - auto.
Qed.

(** ** merge *)
Hypothesis HC : good_cfg c.
Record Merged (t x t' x' : table) (moved keptx : list (K * V)) : Prop := {
  mg_inv : Inv c t'; mg_invx : Inv c x'; mg_ids : Ids t t'; mg_idsx : Ids x x';
  mg_split : Permutation (elems (arr x)) (moved ++ keptx);
  mg_t : Permutation (elems (arr t')) (moved ++ elems (arr t));
  mg_x : elems (arr x') = keptx;
  mg_moved : forall e, In e moved -> Absent c t (fst e);
  mg_kept : forall e, In e keptx -> exists e', In e' (elems (arr t')) /\ keqf c (pid t) (fst e) (fst e') = true
}.
Lemma merge_ok (t x : table) n : Inv c t -> Inv c x ->
  outcome (merge c (t, x) n)
    (fun _ s => exists moved keptx, Merged t x (fst s) (snd s) moved keptx)
    (fun kd s => (kd = KAlloc \/ raised c kd) /\ Inv c (fst s) /\ Inv c (snd s) /\ Ids t (fst s) /\ Ids x (snd s) /\
       exists lost, Permutation (elems (arr t) ++ elems (arr x)) (elems (arr (fst s)) ++ elems (arr (snd s)) ++ lost) /\
         (moves c = false -> length lost = 1%nat)).
Proof.
  intros H Hx. unfold merge.
  destruct (i_arr _ _ Hx) as [E | (k & HG & Hk)].
  { rewrite for_all_none by (cbn [snd]; rewrite E; reflexivity). cbn [outcome fst snd]. exists [], [].
    constructor; auto; try apply Ids_refl; try (rewrite E; reflexivity); intros e []. }
  pose proof HG as [HS _]. pose proof (elems_occ c _ k _ HG) as EA.
  set (I := fun (done todo : list nat) (s : table * table) => exists t' x' D, s = (t', x') /\ Inv c t' /\ Ids t t' /\
     ErasedT x x' D /\ NoDup D /\ (forall j, In j D -> In j done) /\ Permutation (elems (arr t')) (at_slots (arr x) D ++ elems (arr t)) /\
     (forall e, In e (at_slots (arr x) D) -> Absent c t (fst e)) /\
     (forall j e, In j done -> ~ In j D -> nth_error (cells (arr x)) j = Some (Live e) ->
         exists e', In e' (elems (arr t')) /\ keqf c (pid t) (fst e) (fst e') = true)).
  eapply outcome_weaken.
  - apply (for_all_ok _ _ k (arr x) I (fun kd s => (kd = KAlloc \/ raised c kd) /\ Inv c (fst s) /\ Inv c (snd s) /\ Ids t (fst s) /\ Ids x (snd s) /\
       exists lost, Permutation (elems (arr t) ++ elems (arr x)) (elems (arr (fst s)) ++ elems (arr (snd s)) ++ lost) /\
         (moves c = false -> length lost = 1%nat)) _ _ HS).
    + intros done i todo s n' Ho (t' & x' & D & -> & It & [A1 A2 A3] & ET & ND & HD & P & HM & HKp).
      assert (In i (occ (arr x))) as Hi by (rewrite <- Ho; apply in_or_app; right; now left).
      assert (forall j, In j D -> In j (occ (arr x))) as HDo by (intros j Hj; rewrite <- Ho; apply in_or_app; left; auto).
      apply (good_occ c (hid x) k) in Hi as [e He]; [|exact HG].
      pose proof (occ_nodup (arr x)) as NDo. rewrite <- Ho in NDo. apply NoDup_remove_2 in NDo.
      assert (~ In i done) as Hnd by (intros C; apply NDo, in_or_app; now left).
      assert (~ In i D) as HnD by auto.
      destruct (erased_t_inv c x x' D Hx ET ND HDo) as (I' & P' & C').
      pose proof ET as [Hids _ _ (k' & W & HS')].
      pose proof (erased_k k k' [] (arr x) (arr x) HS HS' (erased_nil k _ HS)) as Ekk. subst k'.
      destruct (er_out _ _ _ _ W i HnD) as [Ec _]. rewrite He in Ec.
      unfold merge_step. rewrite slot_of. unfold read_element. cbn [snd]. rewrite (get_cell_eq k), Ec by apply W. cbn [ret].
      unfold on_fst, lens. cbn [fst snd].
      pose proof (emplace_impl_ok c KTransfer t' e n' HC It) as X.
      destruct (emplace_impl c KTransfer e t' n') as [[l ins] t2 n2|kd t2 n2|]; cbn [outcome] in X; [| |destruct X].
      * cbn [fst snd] in X. destruct X as [I2 [B1 B2 B3] _ Hf Ht _ _]. destruct ins.
        -- destruct (Ht eq_refl) as (HA & P2 & _ & _).
           unfold bind at 1, on_snd at 1, lens at 1. cbn [fst snd]. unfold on_arr, lens.
           rewrite (put_cell_eq k); [|apply W|rewrite (er_len _ _ _ _ W); apply nth_error_Some; congruence].
           unfold on_snd, lens. cbn [fst snd].
           pose proof (erasedT_erase x x' D i e Moved n2 Hx ET ND HDo HnD He ltac:(discriminate)) as Y.
           destruct (erase_at (i / 15) (i mod 15) (set_arr x' (upd_cell (arr x') i Moved)) n2) as [u x2 n3|kd x2 n3|]; cbn [outcome] in Y; [|destruct Y|destruct Y].
           cbn [outcome]. exists t2, x2, (D ++ [i]). split; [reflexivity|]. split; [exact I2|]. split; [constructor; congruence|].
           split; [exact Y|]. split; [apply nodup_snoc; assumption|].
           split; [intros j Hj; apply in_app_or in Hj as [Hj|Hj]; apply in_or_app; auto|].
           split; [rewrite P2, P, at_slots_app, (at_slots_one _ _ _ He), <- app_assoc; cbn [app]; apply Permutation_middle|].
           split.
           ++ intros z Hz. rewrite at_slots_app, (at_slots_one _ _ _ He) in Hz. apply in_app_or in Hz as [Hz|[<-|[]]]; [auto|].
              intros y Hy. specialize (HA y). rewrite A2 in HA. apply HA. eapply Permutation_in; [symmetry; exact P|]. apply in_or_app. now right.
           ++ intros j z Hj HnDj Hz. apply in_app_or in Hj as [Hj|[<-|[]]]; [|exfalso; apply HnDj, in_or_app; right; now left].
              destruct (HKp j z Hj) as (e' & E1 & E2); [intros C; apply HnDj, in_or_app; now left|exact Hz|].
              exists e'. split; [|exact E2]. eapply Permutation_in; [symmetry; exact P2|]. now right.
        -- destruct (Hf eq_refl) as (-> & e' & Hc' & Ek'). cbn [outcome].
           exists t', x', D. split; [reflexivity|]. split; [exact It|]. split; [constructor; congruence|].
           split; [exact ET|]. split; [exact ND|]. split; [intros j Hj; apply in_or_app; auto|]. split; [exact P|]. split; [exact HM|].
           intros j z Hj HnDj Hz. apply in_app_or in Hj as [Hj|[<-|[]]]; [eauto|].
           exists e'. rewrite He in Hz. injection Hz as <-. rewrite <- A2. split; [apply in_elems; eauto|exact Ek'].
      * destruct X as (I2 & [B1 B2 B3] & X). unfold on_snd, lens. cbn [fst snd].
        pose proof (erasedT_erase0 x x' D i e n2 Hx ET ND HDo HnD He) as Y.
        destruct (erase_at (i / 15) (i mod 15) x' n2) as [u x2 n3|kd' x2 n3|]; cbn [outcome] in Y; [|destruct Y|destruct Y].
        cbn [outcome fst snd].
        assert (forall j, In j (D ++ [i]) -> In j (occ (arr x))) as HDo2.
        { intros j Hj. apply in_app_or in Hj as [Hj|[<-|[]]]; [auto|]. rewrite <- Ho. apply in_or_app. right. now left. }
        destruct (erased_t_inv c x x2 (D ++ [i]) Hx Y (nodup_snoc D i ND HnD) HDo2) as (Ix2 & Px2 & Cx2).
        rewrite at_slots_app, (at_slots_one _ _ _ He) in Px2.
        assert (exists lt, Permutation (elems (arr t')) (lt ++ elems (arr t2)) /\ (moves c = false -> lt = [])) as (lt & Pl & Ml).
        { destruct X as [[[_ X] _] | (_ & _ & _ & F)].
          - exists []. rewrite (ext_elems _ _ X). auto.
          - destruct (failed_inv c t' t2 It F) as (_ & _ & _ & lost & Q1 & Q2 & _). eauto. }
        split; [destruct X as [[_ [[_ R] | [-> _]]] | (_ & R & _)]; auto|].
        split; [exact I2|]. split; [exact Ix2|]. split; [constructor; congruence|]. split; [apply Y|].
        exists (lt ++ [e]). split.
        -- transitivity ((at_slots (arr x) D ++ elems (arr t)) ++ [e] ++ elems (arr x2)).
           { rewrite Px2, <- app_assoc, !app_assoc. apply Permutation_app_tail, Permutation_app_tail, Permutation_app_comm. }
           rewrite <- P, Pl. generalize (elems (arr t2)) (elems (arr x2)). intros T2 X2.
           transitivity ((T2 ++ lt) ++ (X2 ++ [e])); [apply Permutation_app; apply Permutation_app_comm|].
           rewrite <- app_assoc. apply Permutation_app_head. rewrite !app_assoc. apply Permutation_app_tail, Permutation_app_comm.
        -- intros Em. rewrite (Ml Em). reflexivity.
    + intros done todo s g Ho (t' & x' & D & -> & _ & _ & ET & ND & HD & _) Hg Hgd. cbn [snd].
      destruct ET as [_ _ _ (k' & W & HS')].
      pose proof (erased_k k k' [] (arr x) (arr x) HS HS' (erased_nil k _ HS)) as Ekk. subst k'.
      rewrite (shape_get_group k) by (auto; apply W). f_equal. apply (er_grp _ _ _ _ W). intros j Hj. specialize (Hgd j (HD j Hj)). lia.
    + apply (sh_elems _ _ HS).
    + apply (sh_mask _ _ HS).
    + exists t, x, []. split; [reflexivity|]. split; [exact H|]. split; [apply Ids_refl|]. split; [eapply erasedT_nil; eauto|].
      split; [constructor|]. split; [intros j []|]. split; [reflexivity|]. split; [intros e []|]. intros j e [].
  - intros u s (t' & x' & D & -> & It & Id & ET & ND & HD & P & HM & HKp). cbn [fst snd].
    destruct (erased_t_inv c x x' D Hx ET ND HD) as (I' & P' & C').
    exists (at_slots (arr x) D), (elems (arr x')). constructor; auto.
    + apply ET.
    + intros e He. apply in_elems in He as [j Hj]. destruct ET as [_ _ _ (k' & W & HS')].
      assert (~ In j D) as HnD. { intros C. destruct (er_in _ _ _ _ W j C) as [E _]. congruence. }
      destruct (er_out _ _ _ _ W j HnD) as [E _]. rewrite E in Hj.
      apply (HKp j e); auto. eapply good_occ; eauto.
  - auto.
Qed.

(** merging a container into itself does nothing *)
Lemma merge_self_ok (t : table) n : Inv c t ->
  outcome (merge_self c t n) (fun _ t' => t' = t) (fun kd t' => t' = t /\ (kd = KHash \/ kd = KEq) /\ raised c kd).
Proof.
  intros H. unfold merge_self. destruct (i_arr _ _ H) as [E | (k & HG & Hk)].
  { rewrite for_all_none by (rewrite E; reflexivity). reflexivity. }
  pose proof HG as [HS _].
  apply (for_all_ok _ _ k (arr t) (fun _ _ t' => t' = t)); auto.
  - intros done i todo s n' Ho ->.
    assert (In i (occ (arr t))) as Hi by (rewrite <- Ho; apply in_or_app; right; now left).
    apply (good_occ c (hid t) k) in Hi as [e He]; [|exact HG].
    rewrite bind_get, slot_of. unfold read_element. rewrite (get_cell_eq k), He by exact HS. rewrite bind_ret.
    unfold emplace_impl. rewrite bind_bind, bind_get. unfold hash_for. rewrite !bind_bind.
    apply tick_bind; [|intros R; auto]. intros n1. rewrite !bind_ret, bind_bind.
    eapply outcome_bind; [eapply outcome_weaken; [apply (find_at_ok c t (fst e) t n1 H)| |]|].
    + intros r s' X. exact X.
    + intros kd s' (-> & -> & R). auto.
    + intros r s' n2 (-> & Hf). destruct r as [[g m]|]; cbn [found] in Hf.
      * rewrite bind_ret. reflexivity.
      * exfalso. assert (In e (elems (arr t))) as He' by (apply in_elems; eauto).
        specialize (Hf e He'). destruct (i_compat _ _ H) as [[Rf _] _]. rewrite Rf in Hf. discriminate.
  - intros done todo s g _ -> Hg _. apply (shape_get_group k); auto.
  - apply (sh_elems _ _ HS).
  - apply (sh_mask _ _ HS).
Qed.
End Merge.
