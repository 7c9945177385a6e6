(** C43: the history of the run of ConcWrap.v is not one of the atomic machine: two calls inserting key 5 cannot both insert it when it is never erased. *)
From Coq Require Import NArith Bool List Arith Lia Permutation.
From Verif Require Import SizeModel GroupModel FoaModel FoaArr FoaSpec FoaWorld FoaExamples ConcSpec ConcModel ConcVisit ConcExec ConcWrap.
Import ListNotations.
Local Open Scope N_scope.

Notation ev := (event N N).
Notation eqw := (keqf wcfg).
(** the calls of the history *)
Definition okc (ca : call N N) : Prop := (exists h p al n, ca = Whole (New h p al n)) \/ ca = OnC 0 (ins1 5) \/ ca = OnC 0 (ins1 7) \/ ca = OnC 0 (era1 7).
Definition okes (es : list ev) : Prop := forall t ca, In (ECall t ca) es -> okc ca.
Definition okst (st : nat -> status N N) : Prop := forall t ca done, st t = Pend ca done -> okc ca.
Definition has5 (w : world N N) : Prop := exists v e, nth_error w 0 = Some (Some v) /\ In e (v_elems v) /\ fst e = 5.
(** thread t returns "inserted" from its call in progress *)
Definition Bad (t : nat) (es : list ev) : Prop := exists es1 es2, es = es1 ++ ERet t (AnsC RIns) :: es2 /\ forall a, ~ In (ERet t a) es1.
Definition J (t : nat) (st : nat -> status N N) (es : list ev) : Prop :=
  (exists done, st t = Pend (OnC 0 (ins1 5)) done /\ done <> [APoint RIns] /\ Bad t es) \/
  (exists es1 es2, es = es1 ++ ECall t (OnC 0 (ins1 5)) :: es2 /\ Bad t es2).

Lemma set0 {X} (w : list X) x y : nth_error w 0 = Some y -> nth_error (set w 0 x) 0 = Some x.
Proof. destruct w; [discriminate|reflexivity]. Qed.
Lemma called_key p k x f e b (l l' : list (N * N)) : called eqw p k x f e b l l' -> (exists y, In y l /\ fst y = 5) -> exists y, In y l' /\ fst y = 5.
Proof.
  intros (v & rest & He & _ & P1 & P2) (y & Hy & E). apply (Permutation_in _ P1) in Hy. destruct Hy as [<-|Hy].
  - exists (fst e, if x then v else snd e). split; [apply (Permutation_in _ (Permutation_sym P2)); left; reflexivity|exact E].
  - exists y. split; [|exact E]. apply (Permutation_in _ (Permutation_sym P2)). right. exact Hy.
Qed.
(** the operations of the history never remove key 5 *)
Lemma keeps5 st t ca done a w w' : okc ca -> takes_effect eqw false st t ca done a w w' -> has5 w -> has5 w'.
Proof.
  intros O T (v & e & Hv & He & E5). assert (exists y, In y (v_elems v) /\ fst y = 5) as H5 by eauto.
  destruct O as [(h & p & al & n & ->)|[->|[->| ->]]]; cbn [takes_effect ins1 era1] in T.
  - destruct a as [| | |r]; try contradiction. destruct T as [_ T]. cbn [spec] in T. destruct r as [[]|k]; try contradiction.
    + subst w'. exists v, e. split; [|auto]. rewrite nth_error_app1; [exact Hv|]. apply nth_error_Some. congruence.
    + destruct T as [_ ->]. exists v, e. auto.
  - destruct a as [r| | |]; try contradiction. destruct T as (_ & v0 & l' & Hv0 & Hp & ->). rewrite Hv in Hv0. injection Hv0 as <-.
    assert (exists y, In y l' /\ fst y = 5) as (y & Hy & Ey); [|exists (View (v_hash v) (v_pred v) (v_alloc v) l'), y; split; [eapply set0; exact Hv|auto]].
    destruct r; cbn [pspec] in Hp; try contradiction.
    + destruct Hp as [b Hp]. eapply called_key; eassumption.
    + destruct Hp as (v' & b & _ & _ & P). exists e. split; [apply (Permutation_in _ (Permutation_sym P)); right; exact He|exact E5].
    + destruct Hp as [P|[(e1 & Hp)|[(v' & _ & Hp & _)|(lost & Hp & _)]]]; try discriminate Hp.
      * exists e. split; [apply (Permutation_in _ (Permutation_sym P)); exact He|exact E5].
      * eapply called_key; eassumption.
  - destruct a as [r| | |]; try contradiction. destruct T as (_ & v0 & l' & Hv0 & Hp & ->). rewrite Hv in Hv0. injection Hv0 as <-.
    assert (exists y, In y l' /\ fst y = 5) as (y & Hy & Ey); [|exists (View (v_hash v) (v_pred v) (v_alloc v) l'), y; split; [eapply set0; exact Hv|auto]].
    destruct r; cbn [pspec] in Hp; try contradiction.
    + destruct Hp as [b Hp]. eapply called_key; eassumption.
    + destruct Hp as (v' & b & _ & _ & P). exists e. split; [apply (Permutation_in _ (Permutation_sym P)); right; exact He|exact E5].
    + destruct Hp as [P|[(e1 & Hp)|[(v' & _ & Hp & _)|(lost & Hp & _)]]]; try discriminate Hp.
      * exists e. split; [apply (Permutation_in _ (Permutation_sym P)); exact He|exact E5].
      * eapply called_key; eassumption.
  - destruct a as [r| | |]; try contradiction. destruct T as (_ & v0 & l' & Hv0 & Hp & ->). rewrite Hv in Hv0. injection Hv0 as <-.
    assert (exists y, In y l' /\ fst y = 5) as (y & Hy & Ey); [|exists (View (v_hash v) (v_pred v) (v_alloc v) l'), y; split; [eapply set0; exact Hv|auto]].
    destruct r; cbn [pspec] in Hp; try contradiction.
    + destruct Hp as [_ P]. exists e. split; [apply (Permutation_in _ (Permutation_sym P)); exact He|exact E5].
    + destruct Hp as (v' & He0 & _ & P). apply (Permutation_in _ P) in He. destruct He as [->|He]; [rewrite E5 in He0; discriminate He0|]. exists e. auto.
    + eapply called_key; eassumption.
    + destruct Hp as [P|(e1 & Hp)]; [|eapply called_key; eassumption]. exists e. split; [apply (Permutation_in _ (Permutation_sym P)); exact He|exact E5].
Qed.
Lemma inserts5 st t done w w' : takes_effect eqw false st t (OnC 0 (ins1 5)) done (APoint RIns) w w' -> ~ has5 w /\ has5 w'.
Proof.
  cbn [takes_effect ins1 pspec]. intros (_ & v & l' & Hv & (v' & b & Ha & _ & P) & ->). split.
  - intros (v1 & e & H1 & He & E). rewrite Hv in H1. injection H1 as <-. specialize (Ha e He). cbn in Ha. rewrite E in Ha. discriminate.
  - exists (View (v_hash v) (v_pred v) (v_alloc v) l'), (5, v'). split; [eapply set0; exact Hv|]. split; [|reflexivity]. apply (Permutation_in _ (Permutation_sym P)). now left.
Qed.
Lemma order5 w w' : same_world w w' -> has5 w -> has5 w'.
Proof.
  intros S (v & e & Hv & He & E). destruct S as [|x y w w' Hxy S]; [discriminate|]. cbn in Hv. injection Hv as ->. destruct y as [v'|]; [|contradiction].
  destruct Hxy as (_ & _ & _ & P). exists v', e. split; [reflexivity|]. split; [eapply Permutation_in; eassumption|exact E].
Qed.
Lemma upd_same st t (x : status N N) : upd_st st t x t = x. Proof. unfold upd_st. rewrite Nat.eqb_refl. reflexivity. Qed.
Lemma upd_other st t (x : status N N) t' : t' <> t -> upd_st st t x t' = st t'. Proof. intros N. unfold upd_st. destruct (Nat.eqb_spec t' t); [contradiction|reflexivity]. Qed.
Lemma bad_cons t e es : Bad t (e :: es) -> (forall a, e <> ERet t a) -> Bad t es.
Proof.
  intros (es1 & es2 & E & H) N. destruct es1 as [|x es1]; [injection E as -> _; destruct (N _ eq_refl)|]. injection E as -> ->. exists es1, es2. split; [reflexivity|].
  intros a Ha. apply (H a). right. exact Ha.
Qed.
(** J goes from one state to the next, unless the event is the instant of t or t's return *)
Lemma j_step t st w e st1 w1 es : astep eqw false (AS st w) (Some e) (AS st1 w1) -> J t st (e :: es) -> okst st ->
  J t st1 es \/ (exists done, st t = Pend (OnC 0 (ins1 5)) done /\ e = ELin t (APoint RIns)).
Proof.
  intros S H O. inversion S as [st0 w0 t0 ca Hf|st0 w0 t0 ca done a w0' Hp Ht|st0 w0 t0 ca done a Hp Ha|]; subst.
  - left. destruct (Nat.eq_dec t t0) as [<-|N].
    + destruct H as [(dn & Hc & _)|(es1 & es2 & E & B)]; [congruence|]. destruct es1 as [|x es1]; [injection E as -> ->; left; exists []; rewrite upd_same; split; [reflexivity|]; split; [discriminate|exact B]|].
      injection E as _ ->. right. eauto.
    + destruct H as [(dn & Hc & Nd & B)|(es1 & es2 & E & B)]; [left; exists dn; rewrite upd_other by exact N; split; [exact Hc|]; split; [exact Nd|apply (bad_cons _ _ _ B); discriminate]|].
      destruct es1 as [|x es1]; [injection E as E _; congruence|]. injection E as _ ->. right. eauto.
  - destruct H as [(dn & Hc & Nd & B)|(es1 & es2 & E & B)].
    2:{ left. destruct es1 as [|x es1]; [discriminate E|]. injection E as _ ->. right. eauto. }
    apply bad_cons in B; [|discriminate]. destruct (Nat.eq_dec t t0) as [<-|N]; [|left; left; exists dn; rewrite upd_other by exact N; auto].
    rewrite Hc in Hp. injection Hp as <- <-. destruct a as [r| | |]; cbn [takes_effect ins1] in Ht; try contradiction. destruct Ht as (-> & _).
    assert (r = RIns \/ r <> RIns) as [->|Nr] by (destruct r; auto; right; discriminate); [right; eauto|].
    left. left. exists [APoint r]. rewrite upd_same. split; [reflexivity|]. split; [congruence|exact B].
  - left. destruct H as [(dn & Hc & Nd & B)|(es1 & es2 & E & B)].
    2:{ destruct es1 as [|x es1]; [discriminate E|]. injection E as _ ->. right. eauto. }
    destruct (Nat.eq_dec t t0) as [<-|N].
    + exfalso. rewrite Hc in Hp. injection Hp as <- <-. destruct B as (es1 & es2 & E & Hn). destruct es1 as [|x es1]; [|injection E as <- _; apply (Hn a); now left].
      injection E as -> _. cbn [answers ins1] in Ha. congruence.
    + left. exists dn. rewrite upd_other by exact N. split; [exact Hc|]. split; [exact Nd|]. apply (bad_cons _ _ _ B). intros a0 E. congruence.
Qed.
Lemma ok_step st w e st1 w1 es : astep eqw false (AS st w) (Some e) (AS st1 w1) -> okst st -> okes (e :: es) -> okst st1 /\ okes es.
Proof.
  intros S O E. split; [|intros t ca H; apply (E t ca); right; exact H]. intros t ca done H.
  inversion S as [st0 w0 t0 ca0 Hf|st0 w0 t0 ca0 done0 a w0' Hp Ht|st0 w0 t0 ca0 done0 a Hp Ha|]; subst; (destruct (Nat.eq_dec t t0) as [->|N]; [rewrite upd_same in H|rewrite upd_other in H by exact N; eapply O; exact H]).
  - injection H as <- <-. apply (E t0 ca0). now left.
  - injection H as <- <-. eapply O; exact Hp.
  - discriminate.
Qed.
Lemma effect_step st w e st1 w1 : astep eqw false (AS st w) (Some e) (AS st1 w1) -> okst st -> has5 w -> has5 w1.
Proof.
  intros S O H5. inversion S as [st0 w0 t0 ca0 Hf|st0 w0 t0 ca0 done0 a w0' Hp Ht|st0 w0 t0 ca0 done0 a Hp Ha|]; subst; auto.
  eapply keeps5; [eapply O; exact Hp|exact Ht|exact H5].
Qed.
Lemma claimB s es s2 : aruns eqw false s es s2 -> okst (as_st s) -> okes es -> has5 (as_w s) -> forall t, ~ J t (as_st s) es.
Proof.
  intros R. induction R as [s|[st w] e [st1 w1] es s2 S R IH|[st w] [st1 w1] es s2 S R IH]; intros O E H5 t HJ; cbn [as_st as_w] in *.
  - destruct HJ as [(dn & _ & _ & es1 & es2 & X & _)|(es1 & es2 & X & _)]; destruct es1; discriminate X.
  - destruct (ok_step _ _ _ _ _ _ S O E) as [O1 E1]. destruct (j_step _ _ _ _ _ _ _ S HJ O) as [HJ1|(dn & Hc & ->)].
    + exact (IH O1 E1 (effect_step _ _ _ _ _ S O H5) t HJ1).
    + inversion S as [|st0 w0 t0 ca0 done0 a w0' Hp Ht| |]; subst. rewrite Hc in Hp. injection Hp as <- <-. exact (proj1 (inserts5 _ _ _ _ _ Ht) H5).
  - inversion S; subst. apply (IH O E) with t; [eapply order5; eassumption|exact HJ].
Qed.
Lemma claimA s es s2 t t' : t <> t' -> aruns eqw false s es s2 -> okst (as_st s) -> okes es -> J t (as_st s) es -> J t' (as_st s) es -> False.
Proof.
  intros N R. induction R as [s|[st w] e [st1 w1] es s2 S R IH|[st w] [st1 w1] es s2 S R IH]; intros O E HJ HJ'; cbn [as_st as_w] in *.
  - destruct HJ as [(dn & _ & _ & es1 & es2 & X & _)|(es1 & es2 & X & _)]; destruct es1; discriminate X.
  - destruct (ok_step _ _ _ _ _ _ S O E) as [O1 E1]. destruct (j_step _ _ _ _ _ _ _ S HJ O) as [HJ1|(dn & Hc & ->)].
    + destruct (j_step _ _ _ _ _ _ _ S HJ' O) as [HJ2|(dn & Hc & ->)]; [exact (IH O1 E1 HJ1 HJ2)|].
      apply (claimB _ _ _ R O1 E1) with t; [|exact HJ1]. cbn [as_w]. inversion S as [|st0 w0 t0 ca0 done0 a w0' Hp Ht| |]; subst. rewrite Hc in Hp. injection Hp as <- <-. exact (proj2 (inserts5 _ _ _ _ _ Ht)).
    + destruct (j_step _ _ _ _ _ _ _ S HJ' O) as [HJ2|(dn' & Hc' & E')]; [|injection E' as E'; contradiction].
      apply (claimB _ _ _ R O1 E1) with t'; [|exact HJ2]. cbn [as_w]. inversion S as [|st0 w0 t0 ca0 done0 a w0' Hp Ht| |]; subst. rewrite Hc in Hp. injection Hp as <- <-. exact (proj2 (inserts5 _ _ _ _ _ Ht)).
  - inversion S; subst. exact (IH O E HJ HJ').
Qed.

(** from the visible history to all events *)
Lemma filter_split {X} (f : X -> bool) es h1 x h2 : filter f es = h1 ++ x :: h2 -> exists es1 es2, es = es1 ++ x :: es2 /\ filter f es1 = h1 /\ filter f es2 = h2.
Proof.
  revert h1. induction es as [|y es IH]; intros h1 H; cbn in H; [destruct h1; discriminate|]. destruct (f y) eqn:Fy.
  - destruct h1 as [|z h1].
    + injection H as -> <-. exists [], es. auto.
    + injection H as -> H. destruct (IH _ H) as (es1 & es2 & -> & E1 & E2). exists (z :: es1), es2. cbn. rewrite Fy, E1. auto.
  - destruct (IH _ H) as (es1 & es2 & -> & E1 & E2). exists (y :: es1), es2. cbn. rewrite Fy. auto.
Qed.
Lemma j_visible t es h1 h2 h3 : filter visible es = h1 ++ ECall t (OnC 0 (ins1 5)) :: h2 ++ ERet t (AnsC RIns) :: h3 -> (forall a, ~ In (ERet t a) h2) ->
  forall st, J t st es.
Proof.
  intros H N st. destruct (filter_split _ _ _ _ _ H) as (es1 & es2 & -> & _ & E2). right. exists es1, es2. split; [reflexivity|].
  destruct (filter_split _ _ _ _ _ E2) as (es3 & es4 & -> & E3 & _). exists es3, es4. split; [reflexivity|]. intros a Ha. apply (N a). rewrite <- E3. apply filter_In. auto.
Qed.
Lemma not_atomic h t t' h1 h2 h3 h1' h2' h3' : t <> t' -> (forall t0 ca, In (ECall t0 ca) h -> okc ca) ->
  h = h1 ++ ECall t (OnC 0 (ins1 5)) :: h2 ++ ERet t (AnsC RIns) :: h3 -> (forall a, ~ In (ERet t a) h2) ->
  h = h1' ++ ECall t' (OnC 0 (ins1 5)) :: h2' ++ ERet t' (AnsC RIns) :: h3' -> (forall a, ~ In (ERet t' a) h2') ->
  ~ atomic_history eqw false h.
Proof.
  intros N O E1 N1 E2 N2 (es & s & R & Eh). apply (claimA _ _ _ t t' N R).
  - intros t0 ca done H. discriminate H.
  - intros t0 ca H. apply (O t0 ca). rewrite Eh. apply filter_In. auto.
  - eapply j_visible; [rewrite <- Eh; exact E1|exact N1].
  - eapply j_visible; [rewrite <- Eh; exact E2|exact N2].
Qed.
(** the run of ConcWrap.v *)
Lemma wrapped_not_atomic : exists es, runs_with wcfg any 2 es c5 /\ ~ atomic_history eqw (moves wcfg) (filter visible es).
Proof.
  pose proof (play_runs nothrow false _ any any_ok m0 2 [] _ _ _ (r_nil wcfg any 2 I) first_phase) as R0.
  destruct (cyc_rounds 2 _ 1 (N.to_nat (2 ^ 32 - 1)) R0) as (es1 & R1 & H1). rewrite N2Nat.id in R1. change (1 + (2 ^ 32 - 1)) with (2 ^ 32) in R1.
  pose proof (play_runs nothrow false _ any any_ok m4 2 _ _ _ _ R1 last_phase) as R2. eexists. split; [exact R2|]. cbn [app] in *.
  rewrite !filter_app. set (h := filter visible es1) in *.
  assert (forall x, In x h -> In x (ECall 1 (OnC 0 (ins1 7)) :: e2)) as Hh by (intros x Hx; apply filter_In in Hx as [Hx _]; auto).
  clearbody h. clear - Hh.
  apply (not_atomic _ 0 1 [ECall 0 (Whole (New 1 0 0 10)); ERet 0 (AnsW (Done VUnit))] (ECall 1 (OnC 0 (ins1 5)) :: ERet 1 (AnsC RIns) :: h) []
     [ECall 0 (Whole (New 1 0 0 10)); ERet 0 (AnsW (Done VUnit)); ECall 0 (OnC 0 (ins1 5))] [] (h ++ [ERet 0 (AnsC RIns)])).
  - discriminate.
  - intros t ca H. apply in_app_or in H as [H|H]; [apply in_app_or in H as [H|H]|].
    + vm_compute in H. repeat destruct H as [H|H]; try discriminate H; try contradiction; injection H as <- <-; unfold okc; [left; eauto|right; left; reflexivity|right; left; reflexivity].
    + apply Hh in H. unfold e2 in H. cbn [In] in H. repeat destruct H as [H|H]; try discriminate H; try contradiction; injection H as <- <-; unfold okc; auto.
    + cbn in H. destruct H as [H|[]]. discriminate H.
  - reflexivity.
  - intros a [H|[H|H]]; try discriminate H. apply Hh in H. unfold e2 in H. cbn [In] in H. repeat destruct H as [H|H]; try discriminate H; contradiction.
  - reflexivity.
  - intros a [].
Qed.
