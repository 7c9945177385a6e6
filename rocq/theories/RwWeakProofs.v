(** Invariant of the executions of RwWeakModel. *)
From Coq Require Import NArith ZArith Bool List Arith Lia ZifyBool ZifyNat ZifyN.
From Verif Require Import RwSpinlockModel RwSpinlockProofs RwWeakModel.
Import ListNotations.
Local Open Scope N_scope.
Notation EXCL := locked_exclusive_mask.

Lemma nth_setn {A} (l : list A) i p x j : nth_error l i = Some p -> nth_error (setn l i x) j = if Nat.eqb j i then Some x else nth_error l j.
Proof.
  intros H. unfold setn. destruct (nth_error_split _ _ H) as (l1 & l2 & -> & <-).
  rewrite firstn_app, Nat.sub_diag, firstn_all. cbn [firstn]. rewrite app_nil_r.
  replace (skipn (S (length l1)) (l1 ++ p :: l2)) with l2.
  2:{ rewrite skipn_app, skipn_all2 by lia. replace (S (length l1) - length l1)%nat with 1%nat by lia. reflexivity. }
  destruct (Nat.eqb_spec j (length l1)) as [->|Ne].
  - rewrite nth_error_app2, Nat.sub_diag by lia. reflexivity.
  - destruct (Nat.lt_ge_cases j (length l1)); [rewrite !nth_error_app1 by lia; reflexivity|]. rewrite !nth_error_app2 by lia.
    destruct (j - length l1)%nat eqn:E; [lia|]. reflexivity.
Qed.

(** the step without its memory order is a step of RwSpinlockModel on the value it replaces *)
Lemma rmw_tstep q acq rel old new q' : lstep q (ARmw acq rel old new) q' -> tstep q old q' new.
Proof. intros H. inversion H; subst; constructor. Qed.
Lemma store_tstep q rel v q' w : lstep q (AStore rel v) q' -> tstep q w q' v.
Proof. intros H. inversion H; subst; constructor. Qed.
Definition quiet (a : act) : Prop := match a with ARmw _ _ _ _ | AStore _ _ => False | _ => True end.

Lemma quiet_inv ts w i q a q' : Inv (ts, w) -> nth_error ts i = Some q -> lstep q a q' -> quiet a -> Inv (upd ts i q', w).
Proof.
  intros [(p & Hp & Hw & Hpw) Hx Hxs Hs Hc Hl Hpc] Hi T Q. cbn [fst snd] in *.
  pose proof (count_upd isX ts i q q' Hi) as CX. pose proof (count_upd isS ts i q q' Hi) as CS. pose proof (count_upd isW ts i q q' Hi) as CW.
  pose proof (fun j => nth_upd ts i q q' j Hi) as NU.
  assert (isX q = isX q' /\ isS q = isS q' /\ (isW q = true -> isW q' = true)) as (E1 & E2 & E3) by (destruct T; try (destruct Q); cbn; auto; repeat split; congruence).
  rewrite E1 in CX. rewrite E2 in CS.
  constructor; cbn [fst snd].
  - exists p. replace (count isX (upd ts i q')) with (count isX ts) by lia. replace (count isS (upd ts i q')) with (count isS ts) by lia.
    split; [exact Hp|]. split; [exact Hw|]. intros Ep. destruct (Hpw Ep) as [P1 P2]. split; [|exact P2].
    destruct (isW q) eqn:F; [rewrite (E3 eq_refl) in CW; lia|]. cbn [b2n] in CW. lia.
  - lia.
  - intros H. replace (count isS (upd ts i q')) with (count isS ts) by lia. apply Hxs. lia.
  - lia.
  - intros j st. rewrite NU. destruct (Nat.eqb_spec j i) as [->|Ne]; [|apply Hc].
    destruct T; try (destruct Q); intros [E|E]; try discriminate; injection E as <-; assumption.
  - intros j st. rewrite NU. destruct (Nat.eqb_spec j i) as [->|Ne]; [|apply Hl].
    destruct T; try (destruct Q); intros [E|E]; try discriminate; injection E as <-; auto.
  - intros j st. rewrite NU. destruct (Nat.eqb_spec j i) as [->|Ne]; [|apply Hpc].
    destruct T; try (destruct Q); intros E; try discriminate; injection E as <-; auto.
Qed.

(** *** what Inv says about owners and the word *)
Lemma inv_x_uniq ts w i j : Inv (ts, w) -> nth_error ts i = Some OwnsExclusive -> nth_error ts j = Some OwnsExclusive -> i = j.
Proof.
  intros I Hi Hj. pose proof (v_x _ I) as B. cbn [fst] in B. destruct (Nat.eq_dec i j) as [E|Ne]; [exact E|exfalso].
  pose proof (count_upd isX ts i _ Idle Hi) as C. cbn [isX b2n] in C.
  assert (0 < count isX (upd ts i Idle)); [|lia]. apply count_pos. exists j, OwnsExclusive. split; [|reflexivity]. rewrite (nth_upd _ _ _ _ _ Hi).
  destruct (Nat.eqb_spec j i); [congruence|exact Hj].
Qed.
Lemma inv_x_no_s ts w i j : Inv (ts, w) -> nth_error ts i = Some OwnsExclusive -> nth_error ts j = Some OwnsShared -> False.
Proof.
  intros I Hi Hj. pose proof (v_x _ I) as B. pose proof (v_xs _ I) as C. cbn [fst] in B, C.
  assert (0 < count isX ts) by (apply count_pos; exists i, OwnsExclusive; auto).
  assert (0 < count isS ts) by (apply count_pos; exists j, OwnsShared; auto).
  assert (count isS ts = 0) by (apply C; lia). lia.
Qed.
Lemma inv_s_word ts w i : Inv (ts, w) -> nth_error ts i = Some OwnsShared -> w <> EXCL.
Proof.
  intros I Hi E. destruct (v_word _ I) as (p & Hp & Hw & Hpw). pose proof (v_x _ I) as B. pose proof (v_xs _ I) as C. cbn [fst snd] in *.
  assert (0 < count isS ts) as Pos by (apply count_pos; exists i, OwnsShared; auto).
  pose proof (v_s _ I) as D. cbn [fst] in D. change (2 ^ 30) with 1073741824 in D.
  assert (count isX ts = 0) as X0. { assert (count isX ts = 0 \/ count isX ts = 1) as [Z|Z] by lia; [exact Z|specialize (C Z); lia]. }
  rewrite X0 in *. rewrite Hw in E. unfold word in E. change EXCL with 2147483648 in E. lia.
Qed.
Lemma inv_x_word ts w i : Inv (ts, w) -> nth_error ts i = Some OwnsExclusive -> w = EXCL.
Proof.
  intros I Hi. destruct (v_word _ I) as (p & Hp & Hw & Hpw). pose proof (v_x _ I) as B. pose proof (v_xs _ I) as C. cbn [fst snd] in *.
  assert (0 < count isX ts) as Pos by (apply count_pos; exists i, OwnsExclusive; auto).
  assert (count isX ts = 1) as X1 by lia. specialize (C X1). rewrite X1, C in *.
  assert (p = 0) as -> by (assert (p = 0 \/ p = 1) as [Z|Z] by lia; [exact Z|destruct (Hpw Z); lia]).
  rewrite Hw. reflexivity.
Qed.

(** *** the memory *)
Definition last_val (mo : list msg) : N := m_val (last mo (mkMsg None 0 false)).
Definition last_id (mo : list msg) : option nat := m_id (last mo (mkMsg None 0 false)).
Record MInv (w : wconf) : Prop := {
  mi_len : length (w_seen w) = length (w_pcs w);
  mi_inv : Inv (w_pcs w, last_val (w_mo w));
  mi_ne : w_mo w <> [];
  mi_chain : forall l1 m m' l2, w_mo w = l1 ++ m :: m' :: l2 -> m_rmw m' = true \/ m_val m = EXCL;
  mi_ids : forall m k, In m (w_mo w) -> m_id m = Some k -> (k < length (w_log w))%nat;
  mi_shared : forall t s l1 m l2, nth_error (w_pcs w) t = Some OwnsShared -> nth_error (w_seen w) t = Some s ->
     w_mo w = l1 ++ m :: l2 -> current_for s l2 -> m_val m <> EXCL;
  mi_excl : forall t s, nth_error (w_pcs w) t = Some OwnsExclusive -> nth_error (w_seen w) t = Some s -> s = last_id (w_mo w)
}.

Lemma mask_self : N.land EXCL EXCL <> 0.
Proof. discriminate. Qed.
Lemma excl_not_small : EXCL < reader_lock_count_mask -> False.
Proof. destruct masks as (E1 & _ & E3). rewrite E1, E3. lia. Qed.

Lemma last_snoc {A} (l : list A) x d : last (l ++ [x]) d = x.
Proof. apply last_last. Qed.
Lemma last_in_tail {A} (l1 l2 : list A) m d : l2 <> [] -> In (last (l1 ++ m :: l2) d) l2.
Proof.
  intros Ne. destruct (exists_last Ne) as (l & x & ->). change (m :: l ++ [x]) with ((m :: l) ++ [x]). rewrite app_assoc, last_snoc.
  apply in_or_app. right. now left.
Qed.

(** a write always comes last in the modification order *)
Lemma rmw_last w t q acq rel v q' s l1 m l2 : MInv w -> nth_error (w_pcs w) t = Some q -> lstep q (ARmw acq rel (m_val m) v) q' ->
  nth_error (w_seen w) t = Some s -> w_mo w = l1 ++ m :: l2 -> current_for s l2 -> splittable l2 -> l2 = [].
Proof.
  intros I Hq T Hs E C Sp. destruct l2 as [|m' r]; [reflexivity|exfalso]. cbn in Sp.
  destruct (mi_chain _ I _ _ _ _ E) as [F|F]; [congruence|].
  pose proof (mi_inv _ I) as V.
  inversion T; subst.
  - apply excl_not_small. rewrite <- F. exact (v_cas _ V t _ (or_introl Hq)).
  - apply excl_not_small. rewrite <- F. exact (v_cas _ V t _ (or_intror Hq)).
  - exact (mi_shared _ I t s l1 m (m' :: r) Hq Hs E C F).
  - apply mask_self. rewrite <- F at 1. exact (proj1 (v_lcas _ V t _ (or_introl Hq))).
  - apply mask_self. rewrite <- F at 1. exact (proj1 (v_lcas _ V t _ (or_intror Hq))).
  - apply mask_self. rewrite <- F at 1. exact (proj1 (v_pcas _ V t _ Hq)).
Qed.
Lemma store_last w t rel v q q' s l1 m l2 : MInv w -> nth_error (w_pcs w) t = Some q -> lstep q (AStore rel v) q' ->
  nth_error (w_seen w) t = Some s -> w_mo w = l1 ++ m :: l2 -> current_for s l2 -> l2 = [].
Proof.
  intros I Hq T Hs E C. destruct l2 as [|m' r]; [reflexivity|exfalso]. inversion T; subst.
  pose proof (mi_excl _ I t s Hq Hs) as F. apply C. rewrite F. unfold last_id. apply in_map. rewrite E. apply last_in_tail. discriminate.
Qed.

Lemma app_split_last {A} (a : list A) x l1 m l2 : a ++ [x] = l1 ++ m :: l2 -> (l2 = [] /\ m = x /\ l1 = a) \/ exists l2', l2 = l2' ++ [x] /\ a = l1 ++ m :: l2'.
Proof.
  intros E. destruct l2 as [|y r] using rev_ind.
  - left. apply app_inj_tail in E as [-> ->]. auto.
  - right. exists r. change (m :: r ++ [y]) with ((m :: r) ++ [y]) in E. rewrite app_assoc in E. apply app_inj_tail in E as [-> ->]. auto.
Qed.

Lemma init_minv n : MInv (mkW (repeat Idle n) (repeat None n) [mkMsg None 0 false] []).
Proof.
  assert (forall i p, nth_error (repeat Idle n) i = Some p -> p = Idle) as R by (intros i p H; apply nth_error_In, repeat_spec in H; exact H).
  constructor; cbn [w_pcs w_seen w_mo w_log].
  - now rewrite !repeat_length.
  - exact (init_inv n).
  - discriminate.
  - intros [|a [|b l1]] m m' l2 E; discriminate.
  - intros m k [<-|[]] E. discriminate.
  - intros t s l1 m l2 H. apply R in H. discriminate.
  - intros t s H. apply R in H. discriminate.
Qed.

(** a thread that appends a write *)
Lemma append_minv ts vs mo log t q q' s x e :
  MInv (mkW ts vs mo log) -> nth_error ts t = Some q -> nth_error vs t = Some s -> m_id x = Some (length log) ->
  Inv (upd ts t q', m_val x) -> (m_rmw x = true \/ last_val mo = EXCL) ->
  (forall j, j <> t -> nth_error ts j = Some OwnsExclusive -> False) ->
  MInv (mkW (upd ts t q') (setn vs t (Some (length log))) (mo ++ [x]) (log ++ [e])).
Proof.
  intros I Hq Hs Hx V' Ch NX. pose proof (mi_len _ I) as L. cbn [w_pcs w_seen w_mo w_log] in L.
  constructor; cbn [w_pcs w_seen w_mo w_log].
  - unfold upd, setn. assert (t < length ts)%nat by (apply nth_error_Some; congruence).
    rewrite !app_length. cbn [length]. rewrite !firstn_length, !skipn_length. lia.
  - unfold last_val. rewrite last_snoc. exact V'.
  - intros E. apply app_eq_nil in E as [_ E]. discriminate.
  - intros l1 m m' l2 E. apply app_split_last in E as [(E & _)|(l2' & E & E2)]; [discriminate|].
    destruct l2' as [|y r].
    + cbn in E. injection E as -> ->. destruct Ch as [Ch|Ch]; [now left|right]. rewrite <- Ch. unfold last_val. rewrite E2, last_snoc. reflexivity.
    + cbn in E. injection E as -> ->. exact (mi_chain _ I _ _ _ _ E2).
  - intros m k Hin Hk. rewrite app_length. cbn [length]. apply in_app_or in Hin as [Hin|[<-|[]]].
    + pose proof (mi_ids _ I m k Hin Hk). cbn [w_log] in *. lia.
    + rewrite Hx in Hk. injection Hk as <-. lia.
  - intros j s' l1 m l2 Hj Hsj E C. rewrite (nth_upd _ _ _ _ _ Hq) in Hj. rewrite (nth_setn _ _ _ _ _ Hs) in Hsj.
    destruct (Nat.eqb_spec j t) as [->|Ne].
    + injection Hj as ->. injection Hsj as <-. apply app_split_last in E as [(-> & -> & ->)|(l2' & -> & ->)].
      * apply (inv_s_word (upd ts t OwnsShared) _ t V'). rewrite (nth_upd _ _ _ _ _ Hq), Nat.eqb_refl. reflexivity.
      * exfalso. apply C. rewrite map_app. apply in_or_app. right. now left.
    + apply app_split_last in E as [(-> & -> & ->)|(l2' & -> & ->)].
      * apply (inv_s_word (upd ts t q') _ j V'). rewrite (nth_upd _ _ _ _ _ Hq). destruct (Nat.eqb_spec j t); [congruence|exact Hj].
      * apply (mi_shared _ I j s' l1 m l2' Hj Hsj eq_refl). intros F. apply C. rewrite map_app. apply in_or_app. now left.
  - intros j s' Hj Hsj. rewrite (nth_upd _ _ _ _ _ Hq) in Hj. rewrite (nth_setn _ _ _ _ _ Hs) in Hsj. unfold last_id. rewrite last_snoc, Hx.
    destruct (Nat.eqb_spec j t) as [->|Ne]; [now injection Hsj|]. exfalso. exact (NX j Ne Hj).
Qed.
Lemma quiet_minv ts vs mo log t q a q' s s' e :
  MInv (mkW ts vs mo log) -> nth_error ts t = Some q -> nth_error vs t = Some s -> lstep q a q' -> quiet a ->
  (s' = s \/ isX q = false /\ isS q = false) ->
  MInv (mkW (upd ts t q') (setn vs t s') mo (log ++ [e])).
Proof.
  intros I Hq Hs T Q Sv. pose proof (mi_len _ I) as L. cbn [w_pcs w_seen w_mo w_log] in L.
  assert (isX q = isX q' /\ isS q = isS q') as (EX & ES) by (destruct T; try (destruct Q); auto).
  constructor; cbn [w_pcs w_seen w_mo w_log].
  - unfold upd, setn. assert (t < length ts)%nat by (apply nth_error_Some; congruence).
    rewrite !app_length. cbn [length]. rewrite !firstn_length, !skipn_length. lia.
  - exact (quiet_inv _ _ _ _ _ _ (mi_inv _ I) Hq T Q).
  - exact (mi_ne _ I).
  - exact (mi_chain _ I).
  - intros m k Hin Hk. rewrite app_length. pose proof (mi_ids _ I m k Hin Hk). cbn [w_log] in *. lia.
  - intros j s2 l1 m l2 Hj Hsj E C. rewrite (nth_upd _ _ _ _ _ Hq) in Hj. rewrite (nth_setn _ _ _ _ _ Hs) in Hsj.
    destruct (Nat.eqb_spec j t) as [->|Ne]; [|exact (mi_shared _ I j s2 l1 m l2 Hj Hsj E C)].
    injection Hj as ->. injection Hsj as <-. cbn in ES. destruct Sv as [->|[_ F]]; [|congruence].
    apply (mi_shared _ I t s l1 m l2); auto. cbn [w_pcs]. rewrite Hq. destruct q; cbn in ES; try discriminate. reflexivity.
  - intros j s2 Hj Hsj. rewrite (nth_upd _ _ _ _ _ Hq) in Hj. rewrite (nth_setn _ _ _ _ _ Hs) in Hsj.
    destruct (Nat.eqb_spec j t) as [->|Ne]; [|exact (mi_excl _ I j s2 Hj Hsj)].
    injection Hj as ->. injection Hsj as <-. cbn in EX. destruct Sv as [->|[F _]]; [|congruence].
    apply (mi_excl _ I t s); auto. cbn [w_pcs]. rewrite Hq. destruct q; cbn in EX; try discriminate. reflexivity.
Qed.

(** how a step changes the modification order *)
Inductive mo_step (log : list ev) (mo : list msg) (t : nat) : act -> option nat -> list msg -> Prop :=
| ms_quiet a rf : quiet a -> mo_step log mo t a rf mo
| ms_rmw acq rel v : mo_step log mo t (ARmw acq rel (last_val mo) v) (last_id mo) (mo ++ [mkMsg (Some (length log)) v true])
| ms_store rel v : last_val mo = EXCL -> mo_step log mo t (AStore rel v) None (mo ++ [mkMsg (Some (length log)) v false]).

Lemma excl_alone ts w t q a q' : Inv (ts, w) -> nth_error ts t = Some q -> lstep q a q' -> ~ quiet a ->
  (forall acq rel old v, a = ARmw acq rel old v -> old = w) -> forall j, j <> t -> nth_error ts j = Some OwnsExclusive -> False.
Proof.
  intros V Hq T NQ RW j Ne Hj. pose proof (inv_x_word _ _ _ V Hj) as Ew.
  inversion T; subst; try (apply NQ; exact I); try (specialize (RW _ _ _ _ eq_refl)); subst.
  - apply excl_not_small. exact (v_cas _ V t _ (or_introl Hq)).
  - apply excl_not_small. exact (v_cas _ V t _ (or_intror Hq)).
  - exact (inv_x_no_s _ _ _ _ V Hj Hq).
  - apply mask_self. exact (proj1 (v_lcas _ V t _ (or_introl Hq))).
  - apply mask_self. exact (proj1 (v_lcas _ V t _ (or_intror Hq))).
  - apply mask_self. exact (proj1 (v_pcas _ V t _ Hq)).
  - apply Ne. exact (inv_x_uniq _ _ _ _ V Hj Hq).
Qed.

Lemma step_minv ts vs mo log t q a q' s rf mo' s' : MInv (mkW ts vs mo log) ->
  nth_error ts t = Some q -> lstep q a q' -> nth_error vs t = Some s -> mem (length log) s mo a rf mo' s' ->
  MInv (mkW (upd ts t q') (setn vs t s') mo' (log ++ [mkEv t q a q' rf])) /\ mo_step log mo t a rf mo'.
Proof.
  intros I Hq T Hs M. pose proof (mi_inv _ I) as V. cbn [w_pcs w_mo] in V.
  destruct M as [mo|mo|l1 m l2 C|l1 m l2 acq rel v C Sp|l1 m l2 rel v C Sp].
  - split; [|constructor; exact Logic.I]. eapply quiet_minv; eauto; exact Logic.I.
  - split; [|constructor; exact Logic.I]. eapply quiet_minv; eauto; exact Logic.I.
  - split; [|constructor; exact Logic.I]. eapply quiet_minv; eauto; [exact Logic.I|]. right. inversion T; subst; split; reflexivity.
  - pose proof (rmw_last _ _ _ _ _ _ _ _ _ _ _ I Hq T Hs eq_refl C Sp) as ->.
    assert (m_val m = last_val (l1 ++ [m])) as Ev by (unfold last_val; now rewrite last_snoc).
    assert (m_id m = last_id (l1 ++ [m])) as Ei by (unfold last_id; now rewrite last_snoc).
    replace (l1 ++ [m; mkMsg (Some (length log)) v true]) with ((l1 ++ [m]) ++ [mkMsg (Some (length log)) v true]) by (now rewrite <- app_assoc).
    split; [|rewrite Ev, Ei; constructor].
    apply (append_minv _ _ _ _ _ q _ s); auto.
    + apply (step_inv _ t _ V). apply (step_at ts _ t q q' v Hq). rewrite <- Ev. exact (rmw_tstep _ _ _ _ _ _ T).
    + apply (excl_alone _ _ _ _ _ _ V Hq T); [cbn; tauto|]. intros ? ? ? ? E. injection E as <- <- <- <-. exact Ev.
  - pose proof (store_last _ _ _ _ _ _ _ _ _ _ I Hq T Hs eq_refl C) as ->.
    assert (last_val (l1 ++ [m]) = EXCL) as Ex by (inversion T; subst; exact (inv_x_word _ _ _ V Hq)).
    replace (l1 ++ [m; mkMsg (Some (length log)) v false]) with ((l1 ++ [m]) ++ [mkMsg (Some (length log)) v false]) by (now rewrite <- app_assoc).
    split; [|now constructor].
    apply (append_minv _ _ _ _ _ q _ s); auto.
    + apply (step_inv _ t _ V). apply (step_at ts _ t q q' v Hq). exact (store_tstep _ _ _ _ _ T).
    + apply (excl_alone _ _ _ _ _ _ V Hq T); [cbn; tauto|]. intros ? ? ? ? E. discriminate.
Qed.
Lemma exec_minv n w : exec n w -> MInv w.
Proof. induction 1 as [|ts vs mo log t q a q' s rf mo' s' X IH Hq T Hs M]; [apply init_minv|]. exact (proj1 (step_minv _ _ _ _ _ _ _ _ _ _ _ _ IH Hq T Hs M)). Qed.
