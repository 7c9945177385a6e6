(** Lookups of single keys: an element present throughout the call is found. *)
From Coq Require Import NArith Bool List Arith Lia ZifyBool ZifyNat ZifyN Permutation.
From Verif Require Import FloatModel SizeModel SizeProofs GroupModel GroupSpec FoaModel FoaGroup FoaBase FoaFind FoaArr FoaInv FoaRehash FoaSpec FoaWorld FoaRun
  ConcSpec ConcModel ConcInv ConcStep ConcStep2 ConcStep3 ConcSys ConcSys2 ConcLin1 ConcLin2 ConcLin3 ConcVisit ConcProps ConcLog.
Import ListNotations.
Local Open Scope N_scope.
Notation set_nth := FoaModel.set_nth.


Section Found.
Context {K V : Type} (c : Cfg K V).
Hypothesis HC : good_cfg c.
Notation Sh := (@Sh K V).
Notation pop := (pop K V). Notation cop := (cop K V). Notation loc := (@loc K V). Notation cres := (cres K V).
Notation conf := (@conf K V). Notation pc := (@pc K V).
Notation GInv := (GInv c).
Notation event := (event K V).
Notation present := (present c).
Notation steps := (steps c).

Definition FInv (C : conf) (t d : nat) (o : pop) (p : N) : Prop := exists l, nth_error (th C) t = Some (At d (Point o) l) /\
  forall s i e k, box C d = Some s -> nth_error (cells (A s)) i = Some (Live e) -> keqf c p (pkey o) (fst e) = true -> Fr c k (A s) -> Ahead k l i.
Lemma finv_other C C' t d o p : FInv C t d o p -> nth_error (th C') t = nth_error (th C) t -> (box C' d = box C d) -> FInv C' t d o p.
Proof. intros (l & H1 & H2) Et Eb. exists l. rewrite Et, Eb. auto. Qed.
Lemma finv_out k s C C' t d o p : FInv C t d o p -> emplaces o = false -> box C d = Some s -> CInv c k s (views C d) -> present C d p (pkey o) ->
  nth_error (th C') t = nth_error (th C) t -> Out (views C d) -> FInv C' t d o p.
Proof.
  intros (l & H1 & H2) Em Hb Hk (s0 & i0 & e0 & Hb0 & Hp & Hi & Hq) Et Ho. exists l. rewrite Et. split; [exact H1|]. intros s1 i e k1 _ _ _ _.
  pose proof (proj2 (view_at C d t _ l) H1) as Hv. specialize (Ho _ _ _ Hv). rewrite Hb in Hb0. injection Hb0 as <-.
  assert (nth_error (cells (A s)) i0 = Some (Live e0)) as Hi' by (unfold get_cell in Hi; unfold cells, A; destruct (a_elems (arr (tb s))); [exact Hi|discriminate]).
  specialize (H2 s i0 e0 k Hb Hi' Hq (cb_fr _ _ _ _ (proj1 Hk))). pose proof (proj1 (cb_ti _ _ _ _ (proj1 Hk) _ _ _ Hv)) as W. destruct l; try discriminate Ho; cbn [wf] in W; try (rewrite W in Em; discriminate Em); cbn in *; auto.
Qed.
Lemma finv_step C e C' t d o0 p : GInv C -> gstep c C e C' -> emplaces o0 = false -> (forall a, e <> Some (ERet t a)) -> present C d p (pkey o0) ->
  FInv C t d o0 p -> FInv C' t d o0 p.
Proof.
  intros G St Em Ne Hpr HV. pose proof HV as (l0 & Ht0 & H0).
  destruct St as [C t1 d1 o s Ht Hb|C t1 d1 o l s i thr e l' a s' Ht Hb Hs Ha|C t1 d1 o s n t' n' cn Ht Hb Hal Hr Hc|
    C t1 d1 o s n kd t' n' cn Ht Hb Hal Hr Hc|C t1 d1 o r Ht|C t1 o Ht|C t1 o n r w bs Ht Hp He Hbk|C t1 r Ht].
  - assert (t <> t1) as N by (intros ->; congruence). eapply finv_other; [exact HV|apply others_err, N|reflexivity].
  - assert (box (set_box (set_th C t1 (At d1 o l')) d1 s') d = if Nat.eqb d d1 then Some s' else box C d) as Eb by (apply (box_set (set_th C t1 (At d1 o l')) d1 s' s); exact Hb).
    destruct (Nat.eqb_spec d d1) as [<-|Nd].
    2:{ assert (t <> t1) as N by (intros ->; congruence). eapply finv_other; [exact HV|apply others_err, N|exact Eb]. }
    destruct Hpr as (s0 & i0 & e0 & Hb0 & Hp0 & Hi0 & Hq0). assert (s0 = s) by congruence. subst s0.
    assert (nth_error (cells (A s)) i0 = Some (Live e0)) as Hi0' by (unfold get_cell in Hi0; unfold cells, A; destruct (a_elems (arr (tb s))); [exact Hi0|discriminate]).
    destruct (gi_box _ _ G d s Hb) as [k Hk]. pose proof Hk as [B U]. pose proof (proj2 (view_at C d t1 o l) Ht) as Hv.
    pose proof (lin_ok c k s (views C d) t1 o l (free_for C t1 d) i thr Hk Hv) as X. rewrite Hs in X. cbn [lin_good] in X. destruct X as (_ & _ & X3). specialize (X3 s' Ha).
    assert (forall i1 e1, nth_error (cells (A s')) i1 = Some (Live e1) -> keqf c p (pkey o0) (fst e1) = true -> i0 = i1) as Same.
    { intros i1 e1 H1 Hq1. apply (cu_uniq _ _ _ _ U i0 i1 (fst e0) (fst e1)); [left; eauto| |].
      - destruct (X3 i1 e1 H1) as [(e2 & E1 & E2)|(p2 & x2 & n2 & -> & -> & E1 & E2)]; [left; exists e2; auto|right; exists t1, p2, x2, n2; auto].
      - rewrite Hp0. apply (equiv_same c p (pkey o0)); [rewrite <- Hp0; apply (cb_compat _ _ _ _ B)|exact Hq0|exact Hq1]. }
    destruct (Nat.eq_dec t t1) as [<-|N].
    + rewrite Ht0 in Ht. injection Ht as <- <-. exists l'. split; [apply (self_err _ _ _ _ Ht0)|]. intros s1 i1 e1 k1 Hb1 Hi1 Hq1 Hf1. rewrite Eb in Hb1. injection Hb1 as <-.
      assert (k1 = k) as -> by (eapply fr_inj; [exact (cb_fr _ _ _ _ B)|exact Hf1|eapply ap_gsi; exact Ha]).
      rewrite <- (Same i1 e1 Hi1 Hq1). eapply (ahead_ok c k s (views C d) t o0 l0); [exact B|exact Hv|exact Hs|left; eauto|rewrite Hp0; exact Hq0|].
      eapply H0; [exact Hb|exact Hi0'|exact Hq0|exact (cb_fr _ _ _ _ B)].
    + exists l0. split; [cbn [set_box set_th th]; rewrite others_err by exact N; exact Ht0|]. intros s1 i1 e1 k1 Hb1 Hi1 Hq1 Hf1. rewrite Eb in Hb1. injection Hb1 as <-.
      assert (k1 = k) as -> by (eapply fr_inj; [exact (cb_fr _ _ _ _ B)|exact Hf1|eapply ap_gsi; exact Ha]).
      rewrite <- (Same i1 e1 Hi1 Hq1). eapply H0; [exact Hb|exact Hi0'|exact Hq0|exact (cb_fr _ _ _ _ B)].
  - assert (t <> t1) as N.
    { intros <-. destruct (gi_box _ _ G d1 s Hb) as [k Hk]. pose proof (proj2 (view_at C d1 t o _) Ht) as Hv. pose proof (proj1 (cb_ti _ _ _ _ (proj1 Hk) _ _ _ Hv)) as W.
      rewrite Ht0 in Ht. injection Ht as _ <- _. cbn [wf] in W. congruence. }
    destruct (Nat.eq_dec d d1) as [<-|Nd].
    + destruct (gi_box _ _ G d s Hb) as [k Hk]. eapply finv_out; [exact HV|exact Em|exact Hb|exact Hk|exact Hpr|apply others_err, N|].
      exact (alone_out C t1 d o LFull Ht eq_refl Hal).
    + eapply finv_other; [exact HV|apply others_err, N|]. rewrite (box_set (set_th C t1 (At d1 o LEnter)) d1 _ s) by exact Hb. destruct (Nat.eqb_spec d d1); [contradiction|reflexivity].
  - assert (t <> t1) as N.
    { intros <-. destruct (gi_box _ _ G d1 s Hb) as [k Hk]. pose proof (proj2 (view_at C d1 t o _) Ht) as Hv. pose proof (proj1 (cb_ti _ _ _ _ (proj1 Hk) _ _ _ Hv)) as W.
      rewrite Ht0 in Ht. injection Ht as _ <- _. cbn [wf] in W. congruence. }
    destruct (Nat.eq_dec d d1) as [<-|Nd].
    + destruct (gi_box _ _ G d s Hb) as [k Hk]. eapply finv_out; [exact HV|exact Em|exact Hb|exact Hk|exact Hpr|apply others_err, N|].
      exact (alone_out C t1 d o LFull Ht eq_refl Hal).
    + eapply finv_other; [exact HV|apply others_err, N|]. rewrite (box_set (set_th C t1 (At d1 o (LRet RThrew))) d1 _ s) by exact Hb. destruct (Nat.eqb_spec d d1); [contradiction|reflexivity].
  - assert (t <> t1) as N by (intros <-; exact (Ne _ eq_refl)). eapply finv_other; [exact HV|apply others_err, N|reflexivity].
  - assert (t <> t1) as N by (intros ->; congruence). eapply finv_other; [exact HV|apply others_err, N|reflexivity].
  - assert (t <> t1) as N by (intros ->; congruence). destruct (whole_cases c HC C o n r w bs G Hp He Hbk) as [_ Hw].
    destruct (Hw d) as [(s1 & E1 & _ & E2)|(E & _)].
    + eapply finv_other; [exact HV|apply others_err, N|]. unfold box at 1. cbn [boxes]. congruence.
    + destruct (gi_at _ _ G _ _ _ _ Ht0) as [s Hb]. destruct (gi_box _ _ G d s Hb) as [k Hk]. eapply finv_out; [exact HV|exact Em|exact Hb|exact Hk|exact Hpr|apply others_err, N|exact E].
  - assert (t <> t1) as N by (intros ->; congruence). eapply finv_other; [exact HV|apply others_err, N|reflexivity].
Qed.

Lemma finv_not_none C t d o p : GInv C -> FInv C t d o p -> present C d p (pkey o) -> forall l, nth_error (th C) t = Some (At d (Point o) l) -> l <> LDone RNone /\ l <> LRet RNone.
Proof.
  intros G (l0 & E & HV) (s & i & e & Hb & Hp & Hi & Hq) l Ht. rewrite Ht in E. injection E as <-. destruct (gi_box _ _ G d s Hb) as [k Hk].
  assert (nth_error (cells (A s)) i = Some (Live e)) as Hi' by (unfold get_cell in Hi; unfold cells, A; destruct (a_elems (arr (tb s))); [exact Hi|discriminate]).
  specialize (HV s i e k Hb Hi' Hq (cb_fr _ _ _ _ (proj1 Hk))). split; intros ->; exact HV.
Qed.
Lemma present_found n es0 C0 t d o p es C : runs_with c counters_fit n es0 C0 -> nth_error (th C0) t = Some (At d (Point o) LEnter) -> emplaces o = false ->
  steps (fun C => counters_fit C /\ present C d p (pkey o)) C0 es C -> (forall a, ~ In (ERet t a) es) ->
  nth_error (th C) t <> Some (At d (Point o) (LRet RNone)).
Proof.
  intros R Ht0 Em H Ne.
  assert (GInv C /\ FInv C t d o p /\ present C d p (pkey o)) as (G & F & P).
  { split; [eapply reach_ginv; [exact HC| |eapply steps_run; [exact R| |exact H]]; [auto|]; intros C1 [X _]; exact X|].
    induction H as [[_ H]|es C1 e C2 H IH St [H2 H3]].
    - split; [|exact H]. exists LEnter. split; [exact Ht0|]. intros; exact I.
    - split; [|exact H3]. destruct IH as [IH1 IH2]; [intros a Ha; apply (Ne a), in_or_app; left; exact Ha|].
      eapply finv_step; [|exact St|exact Em| |exact IH2|exact IH1].
      + eapply reach_ginv; [exact HC| |eapply steps_run; [exact R| |exact H]]; [auto|]. intros C [X _]. exact X.
      + intros a ->. apply (Ne a), in_or_app. right. now left. }
  intros Ht. exact (proj2 (finv_not_none C t d o p G F P _ Ht) eq_refl).
Qed.
End Found.
