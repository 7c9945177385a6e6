(** Happens-before in the executions of RwWeakModel: every unlocking happens before every later locking. *)
From Coq Require Import NArith ZArith Bool List Arith Lia ZifyBool ZifyNat ZifyN.
From Verif Require Import RwSpinlockModel RwSpinlockProofs RwWeakModel RwWeakProofs.
Import ListNotations.

(** *** logs only grow *)
Lemma nth_grow {A} (l l' : list A) i x : nth_error l i = Some x -> nth_error (l ++ l') i = Some x.
Proof. intros H. rewrite nth_error_app1; [exact H|]. apply nth_error_Some. congruence. Qed.
Lemma nth_snoc {A} (l : list A) x i y : nth_error (l ++ [x]) i = Some y -> (i < length l /\ nth_error l i = Some y) \/ (i = length l /\ y = x).
Proof.
  intros H. destruct (Nat.lt_ge_cases i (length l)) as [L|G]; [left; split; [exact L|now rewrite nth_error_app1 in H by exact L]|right].
  rewrite nth_error_app2 in H by exact G. destruct (i - length l) as [|k] eqn:E; [|destruct k; discriminate]. injection H as <-. split; [lia|reflexivity].
Qed.
Lemma nth_last {A} (l : list A) x : nth_error (l ++ [x]) (length l) = Some x.
Proof. rewrite nth_error_app2, Nat.sub_diag by lia. reflexivity. Qed.
Lemma nth_lt {A} (l : list A) i x : nth_error l i = Some x -> i < length l.
Proof. intros H. apply nth_error_Some. congruence. Qed.
Lemma rs_grow log l' i k : release_sequence log i k -> release_sequence (log ++ l') i k.
Proof. induction 1; [eapply rs_head; [eapply nth_grow; eauto|auto]|eapply rs_next; [eauto|eapply nth_grow; eauto|auto|auto]]. Qed.
Lemma hb_grow log l' i j : happens_before log i j -> happens_before (log ++ l') i j.
Proof.
  unfold happens_before. induction 1 as [i j [(L & e & f & E1 & E2 & E3)|(e & k & E1 & E2 & E3 & E4)]|i j k _ I1 _ I2].
  - apply t_step. left. split; [exact L|]. exists e, f. split; [now apply nth_grow|]. split; [now apply nth_grow|exact E3].
  - apply t_step. right. exists e, k. split; [now apply nth_grow|]. split; [exact E2|]. split; [exact E3|]. now apply rs_grow.
  - eapply t_trans; eauto.
Qed.

Definition owning (q : pc) : bool := isX q || isS q.
Definition conflicting (q q' : pc) : Prop := owning q = true /\ owning q' = true /\ (q = OwnsExclusive \/ q' = OwnsExclusive).
Lemma owning_cases q : owning q = true -> q = OwnsExclusive \/ q = OwnsShared.
Proof. destruct q; cbn; intros; try discriminate; auto. Qed.
(** which accesses unlock and lock *)
Lemma unlocks_iff q a q' t rf : lstep q a q' -> (released (mkEv t q a q' rf) <-> owning q = true /\ owning q' = false).
Proof. intros T. unfold released. cbn. destruct T; cbn; split; try tauto; intuition discriminate. Qed.
Lemma locks_iff q a q' t rf : lstep q a q' -> (acquired (mkEv t q a q' rf) <-> owning q = false /\ owning q' = true).
Proof. intros T. unfold acquired. cbn. destruct T; cbn; split; try tauto; intuition discriminate. Qed.

Record HInv (w : wconf) : Prop := {
  hi_steps : forall i e, nth_error (w_log w) i = Some e -> lstep (e_from e) (e_act e) (e_to e);
  (* the latest write of state_ carries on from every unlocking *)
  hi_last : forall i e, nth_error (w_log w) i = Some e -> released e ->
    exists i' k, last_id (w_mo w) = Some k /\ release_sequence (w_log w) i' k /\ (i = i' \/ happens_before (w_log w) i i');
  hi_excl : forall t i e, nth_error (w_pcs w) t = Some OwnsExclusive -> nth_error (w_log w) i = Some e -> released e ->
    exists x f, nth_error (w_log w) x = Some f /\ e_thread f = t /\ happens_before (w_log w) i x;
  hi_acq : forall i j e f, nth_error (w_log w) i = Some e -> nth_error (w_log w) j = Some f -> released e -> acquired f -> (i < j)%nat -> happens_before (w_log w) i j;
  (* critical sections *)
  hi_open : forall i e, nth_error (w_log w) i = Some e -> owning (e_from e) = true ->
    nth_error (w_pcs w) (e_thread e) = Some (e_from e) \/
    exists r f, nth_error (w_log w) r = Some f /\ e_thread f = e_thread e /\ released f /\ (i <= r)%nat;
  hi_cs : forall i e t q, nth_error (w_log w) i = Some e -> nth_error (w_pcs w) t = Some q -> t <> e_thread e -> conflicting (e_from e) q ->
    exists x f, nth_error (w_log w) x = Some f /\ e_thread f = t /\ happens_before (w_log w) i x;
  hi_order : forall i j e f, nth_error (w_log w) i = Some e -> nth_error (w_log w) j = Some f -> (i < j)%nat -> e_thread e <> e_thread f ->
    conflicting (e_from e) (e_from f) -> happens_before (w_log w) i j
}.

Lemma init_hinv n : HInv (mkW (repeat Idle n) (repeat None n) [mkMsg None 0%N false] []).
Proof. constructor; cbn [w_pcs w_log w_mo]; intros; match goal with H : nth_error [] ?i = Some _ |- _ => destruct i; discriminate end. Qed.

Lemma conflict_now ts w s t p q : Inv (ts, w) -> nth_error ts s = Some p -> nth_error ts t = Some q -> s <> t -> conflicting p q -> False.
Proof.
  intros V Hs Ht Ne (O1 & O2 & X). apply owning_cases in O1, O2. destruct O1 as [-> | ->], O2 as [-> | ->].
  - apply Ne. exact (inv_x_uniq _ _ _ _ V Hs Ht).
  - exact (inv_x_no_s _ _ _ _ V Hs Ht).
  - exact (inv_x_no_s _ _ _ _ V Ht Hs).
  - destruct X; discriminate.
Qed.

Lemma last_app_id (mo : list msg) x : last_id (mo ++ [x]) = m_id x.
Proof. unfold last_id. now rewrite last_snoc. Qed.

Lemma step_hinv ts vs mo log t q a q' s rf mo' s' : MInv (mkW ts vs mo log) -> HInv (mkW ts vs mo log) ->
  nth_error ts t = Some q -> lstep q a q' -> nth_error vs t = Some s -> mem (length log) s mo a rf mo' s' ->
  HInv (mkW (upd ts t q') (setn vs t s') mo' (log ++ [mkEv t q a q' rf])).
Proof.
  intros MI HI Hq T Hs M. destruct (step_minv _ _ _ _ _ _ _ _ _ _ _ _ MI Hq T Hs M) as [MI' MS].
  pose proof (mi_inv _ MI) as V. pose proof (mi_inv _ MI') as V'. cbn [w_pcs w_mo] in V, V'. clear M Hs.
  set (e0 := mkEv t q a q' rf) in *. set (log' := log ++ [e0]).
  assert (forall i e, nth_error log i = Some e -> nth_error log' i = Some e) as GR by (intros; now apply nth_grow).
  assert (nth_error log' (length log) = Some e0) as NL by apply nth_last.
  assert (forall i j, happens_before log i j -> happens_before log' i j) as HG by (intros; now apply hb_grow).
  pose proof (fun j => nth_upd ts t q q' j Hq) as NU.
  pose proof (unlocks_iff q a q' t rf T) as UI. pose proof (locks_iff q a q' t rf T) as LI. fold e0 in UI, LI.
  (* an earlier event of t happens before the new one *)
  assert (forall x f, nth_error log x = Some f -> e_thread f = t -> happens_before log' x (length log)) as SB.
  { intros x f Hx Et. apply t_step. left. split; [now apply nth_lt in Hx|]. exists f, e0. auto. }
  (* the new event, if it locks, comes after every unlocking *)
  assert (forall i e, acquired e0 -> nth_error log i = Some e -> released e -> happens_before log' i (length log)) as ACQ.
  { intros i e A Hi R. destruct (hi_last _ HI i e Hi R) as (i' & k & E1 & E2 & E3). cbn [w_mo w_log] in *.
    assert (happens_before log' i' (length log)) as H'.
    { apply t_step. right. exists e0, k. split; [exact NL|]. split; [exact A|]. split; [|now apply rs_grow].
      unfold acquired in A. cbn in A. destruct MS as [a rf Qa|acq rel v|rel v Ex]; cbn in A |- *; [destruct a; cbn in Qa; tauto|exact E1|tauto]. }
    destruct E3 as [->|E3]; [exact H'|]. eapply t_trans; [apply HG; exact E3|exact H']. }
  (* an unlocking by t while another thread owns: only between shared owners *)
  assert (released e0 -> forall j, j <> t -> nth_error ts j = Some OwnsExclusive -> False) as RX.
  { intros R j Ne Hj. apply UI in R as [R _]. apply (conflict_now _ _ j t OwnsExclusive q V Hj Hq Ne). split; [reflexivity|]. split; [exact R|now left]. }
  (* exclusive owners after the step *)
  assert (forall i e, nth_error log i = Some e -> released e -> q = OwnsExclusive -> happens_before log' i (length log)) as XHB.
  { intros i e Hi R ->. destruct (hi_excl _ HI t i e Hq Hi R) as (x & f & Hx & Ef & H). cbn [w_log] in *. eapply t_trans; [apply HG; exact H|]. exact (SB x f Hx Ef). }
  constructor; cbn [w_pcs w_mo w_log]; fold log'.
  - intros i e Hi. apply nth_snoc in Hi as [[_ Hi]|[-> ->]]; [exact (hi_steps _ HI i e Hi)|exact T].
  - intros i e Hi R.
    assert (i < length log /\ nth_error log i = Some e \/ i = length log /\ e = e0) as Ci by (apply nth_snoc; exact Hi).
    destruct MS as [a rf Qa|acq rel v|rel v Ex].
    + destruct Ci as [[_ Hi']|[-> ->]]; [|exfalso; unfold released in R; cbn in R; destruct a; cbn in Qa; tauto].
      destruct (hi_last _ HI i e Hi' R) as (i' & k & E1 & E2 & E3). exists i', k. split; [exact E1|]. split; [now apply rs_grow|].
      destruct E3 as [->|E3]; [now left|right; now apply HG].
    + rewrite last_app_id. cbn [m_id]. destruct Ci as [[_ Hi']|[-> ->]].
      * destruct (hi_last _ HI i e Hi' R) as (i' & k & E1 & E2 & E3). cbn [w_mo w_log] in *. exists i', (length log). split; [reflexivity|]. split.
        { apply (rs_next log' i' k (length log) e0); [now apply rs_grow|exact NL|exact Logic.I|exact E1]. }
        destruct E3 as [->|E3]; [now left|right; now apply HG].
      * exists (length log), (length log). split; [reflexivity|]. split; [exact (rs_head log' _ e0 NL R)|now left].
    + rewrite last_app_id. cbn [m_id]. inversion T; subst.
      exists (length log), (length log). split; [reflexivity|]. split; [exact (rs_head log' _ e0 NL Logic.I)|].
      destruct Ci as [[_ Hi']|[-> ->]]; [right|now left]. exact (XHB i e Hi' R eq_refl).
  - intros j i e Hj Hi R. rewrite NU in Hj. apply nth_snoc in Hi as [[_ Hi]|[-> ->]].
    + destruct (Nat.eqb_spec j t) as [->|Ne].
      * injection Hj as ->. exists (length log), e0. split; [exact NL|]. split; [reflexivity|].
        destruct (owning q) eqn:O; [|apply (ACQ i e); auto; apply LI; auto].
        apply owning_cases in O as [O|O]; [exact (XHB i e Hi R O)|]. exfalso. subst q. inversion T.
      * destruct (hi_excl _ HI j i e Hj Hi R) as (x & f & Hx & Ef & H). exists x, f. split; [now apply GR|]. split; [exact Ef|now apply HG].
    + destruct (Nat.eqb_spec j t) as [Ej|Ne]; [|exfalso; exact (RX R j Ne Hj)].
      exfalso. injection Hj as E'. subst q'. apply UI in R as [_ R]. discriminate.
  - intros i j e f Hi Hj R A L. apply nth_snoc in Hj as [[Lj Hj]|[-> ->]].
    + apply nth_snoc in Hi as [[_ Hi]|[-> _]]; [|lia]. apply HG. exact (hi_acq _ HI i j e f Hi Hj R A L).
    + apply nth_snoc in Hi as [[_ Hi]|[-> _]]; [|lia]. exact (ACQ i e A Hi R).
  - intros i e Hi O. rewrite NU. apply nth_snoc in Hi as [[Li Hi]|[-> ->]].
    + destruct (hi_open _ HI i e Hi O) as [C|(r & f & E1 & E2 & E3 & E4)].
      * destruct (Nat.eqb_spec (e_thread e) t) as [Et|Ne]; [|left; exact C].
        cbn [w_pcs] in C. rewrite Et in C. rewrite Hq in C. injection C as Eq.
        destruct (owning q') eqn:O'; [left|right].
        { rewrite <- Eq in O |- *. destruct T; try discriminate; reflexivity. }
        exists (length log), e0. split; [exact NL|]. split; [symmetry; exact Et|]. split; [apply UI; split; [rewrite Eq; exact O|reflexivity]|lia].
      * right. exists r, f. split; [now apply GR|auto].
    + cbn [e_thread e_from] in *. change (e_thread e0) with t. change (e_from e0) with q in *. rewrite Nat.eqb_refl. destruct (owning q') eqn:O'; [left|right].
      * destruct T; try discriminate; reflexivity.
      * exists (length log), e0. split; [exact NL|]. split; [reflexivity|]. split; [apply UI; auto|lia].
  - intros i e j p Hi Hj Ne C. rewrite NU in Hj. destruct (Nat.eqb_spec j t) as [->|Nt].
    + injection Hj as <-. apply nth_snoc in Hi as [[Li Hi]|[-> ->]]; [|exfalso; now apply Ne].
      destruct (owning q) eqn:O.
      * assert (q = q') as <-. { destruct C as (_ & C & _). destruct T; try discriminate; reflexivity. }
        destruct (hi_cs _ HI i e t q Hi Hq Ne C) as (x & f & Hx & Ef & H). exists x, f. split; [now apply GR|]. split; [exact Ef|now apply HG].
      * assert (acquired e0) as A by (apply LI; split; [reflexivity|destruct C as (_ & C & _); exact C]).
        exists (length log), e0. split; [exact NL|]. split; [reflexivity|].
        destruct (hi_open _ HI i e Hi (proj1 C)) as [Cu|(r & f & E1 & E2 & E3 & E4)].
        { exfalso. cbn [w_pcs] in Cu. apply (conflict_now _ _ (e_thread e) t (e_from e) q' V'); auto.
          - rewrite NU. destruct (Nat.eqb_spec (e_thread e) t); [congruence|exact Cu].
          - rewrite NU, Nat.eqb_refl. reflexivity. }
        cbn [w_log] in *. pose proof (ACQ r f A E1 E3) as H.
        destruct (Nat.eq_dec i r) as [->|Nr]; [exact H|]. eapply t_trans; [|exact H]. apply t_step. left. split; [lia|]. exists e, f. split; [now apply GR|]. split; [now apply GR|auto].
    + apply nth_snoc in Hi as [[Li Hi]|[-> ->]].
      * destruct (hi_cs _ HI i e j p Hi Hj Ne C) as (x & f & Hx & Ef & H). exists x, f. split; [now apply GR|]. split; [exact Ef|now apply HG].
      * exfalso. exact (conflict_now _ _ t j q p V Hq Hj (fun E => Nt (eq_sym E)) C).
  - intros i j e f Hi Hj L Ne C. apply nth_snoc in Hj as [[Lj Hj]|[-> ->]].
    + apply nth_snoc in Hi as [[_ Hi]|[-> _]]; [|lia]. apply HG. exact (hi_order _ HI i j e f Hi Hj L Ne C).
    + apply nth_snoc in Hi as [[_ Hi]|[-> _]]; [|lia].
      destruct (hi_cs _ HI i e t q Hi Hq (fun E => Ne (eq_sym E)) C) as (x & f & Hx & Ef & H).
      eapply t_trans; [apply HG; exact H|exact (SB x f Hx Ef)].
Qed.
Lemma exec_hinv n w : exec n w -> HInv w.
Proof.
  intros X. assert (MInv w /\ HInv w) as [_ H]; [|exact H].
  induction X as [|ts vs mo log t q a q' s rf mo' s' X [IM IH] Hq T Hs M]; [split; [apply init_minv|apply init_hinv]|].
  split; [exact (proj1 (step_minv _ _ _ _ _ _ _ _ _ _ _ _ IM Hq T Hs M))|exact (step_hinv _ _ _ _ _ _ _ _ _ _ _ _ IM IH Hq T Hs M)].
Qed.
