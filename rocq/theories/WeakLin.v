(** Histories of executions of WeakModel.v. *)
From Coq Require Import NArith Bool List Arith Lia ZifyBool ZifyNat ZifyN Permutation.
From Verif Require Import FloatModel SizeModel SizeProofs GroupModel GroupProofs GroupSpec FoaModel FoaGroup FoaBase FoaFind FoaArr FoaInv FoaRehash FoaSpec FoaWorld FoaRun ConcSpec ConcModel ConcInv ConcStep ConcStep2 ConcStep3 ConcSys ConcSys2 ConcLin1 ConcLin2 ConcLin3 ConcProps
  WeakSpec WeakModel WeakHb WeakStep WeakEff WeakInv WeakInv2 WeakInv3 WeakDep WeakSee WeakSys WeakSys2.
Import ListNotations.
Local Open Scope N_scope.
Notation set_nth := FoaModel.set_nth.

(** calls and returns of an execution *)
Definition calls {K V} (ev : @wev K V) : list (event K V) :=
  match ev with
  | (t, WCall d o) => [ECall t (OnC d o)]
  | (t, WRet d r) => [ERet t (AnsC r)]
  | (t, WBegin o) => [ECall t (Whole o)]
  | (t, WEnd r) => [ERet t (AnsW r)]
  | _ => [] end.
Definition history {K V} (log : list (@wev K V)) : list (event K V) := flat_map calls log.

Section WLin.
Context {K V : Type} (c : Cfg K V) (st : bool).
Hypothesis HC : good_cfg c.
Notation Sh := (@Sh K V).
Notation pop := (pop K V). Notation cop := (cop K V). Notation loc := (@loc K V). Notation cres := (cres K V). Notation eff := (@eff K V).
Notation CBase := (CBase c). Notation CInv := (CInv c).
Notation wact := (@wact K V). Notation wev := (@wev K V). Notation W := (@W K V). Notation conf := (@conf K V). Notation pc := (@pc K V).
Notation sees := (@sees K V st).
Notation DInv := (DInv c st). Notation WI := (WI c st). Notation wstep := (@wstep K V c st). Notation wruns := (@wruns K V c st).
Notation mruns := (@mruns K V (keqf c) (moves c)). Notation mstep := (@mstep K V (keqf c) (moves c)). Notation astep := (@astep K V (keqf c) (moves c)).
Implicit Type w : W.

(** a step that reads without a lock changes nothing and takes no effect, unless the lookup is given up *)
Lemma unlocked_lin Wt (s so : Sh) free p l i thr e l' a : unlocked l = true -> pstep c free so p l i thr = Step e l' a -> e = ENone /\ lin_good c Wt s (Point p) l (Step e l' a).
Proof.
  intros U H. destruct l; try discriminate U; cbn [pstep] in H.
  - destruct (nth_error (cnt so) _) as [n|]; [|discriminate]. unfold go in H. injection H as <- <- <-. split; [reflexivity|]. apply lg_quiet; [discriminate|reflexivity].
  - destruct (thr && gives_up p) eqn:Et.
    + injection H as <- <- <-. split; [reflexivity|]. apply lg_act; [discriminate|reflexivity|]. cbn [effect lins length]. split; [reflexivity|].
      apply andb_true_iff in Et as [_ Et]. destruct p; try discriminate Et. cbn [pspec]. left. apply Permutation_refl.
    + destruct u as [|u0 u].
      * destruct m; unfold go in H; injection H as <- <- <-; (split; [reflexivity|]); apply lg_quiet; try discriminate; reflexivity.
      * destruct (memb i (u0 :: u)); [|discriminate]. destruct (get_group _ _) as [b|]; [|discriminate]. unfold go in H; injection H as <- <- <-. split; [reflexivity|]. apply lg_quiet; [discriminate|reflexivity].
  - destruct (get_group _ _) as [b|]; [|discriminate]. assert (forall r, not_found p x = r -> forall e l' a, r = Step e l' a -> e = ENone /\ lin_good c Wt s (Point p) (LOvf x) (Step e l' a)) as Nf.
    { intros r <- e1 l1 a1 E1. destruct p; cbn [not_found] in E1; unfold go in E1; injection E1 as <- <- <-; (split; [reflexivity|]); apply lg_quiet; try discriminate; reflexivity. }
    destruct (b_is_not_overflowed b (x_h x)); [eapply Nf; [reflexivity|exact H]|]. destruct (pb_next (x_pb x) (a_mask (arr (tb so)))) as [pb more]. destruct more; [|eapply Nf; [reflexivity|exact H]].
    unfold go in H; injection H as <- <- <-. split; [reflexivity|]. apply lg_quiet; [discriminate|reflexivity].
Qed.
Lemma weak_lin w t d o l s so i thr e l' a : WI w -> nth_error (th (w_now w)) t = Some (At d o l) -> box (w_now w) d = Some s ->
  sees w t d so -> sz (tb so) = sz (tb s) -> ml (tb so) = ml (tb s) -> (forall x n, l = LCnt x n -> cnt so = cnt s) ->
  lstep c (free_for (w_now w) t d) so o l i thr = Step e l' a -> lin_good c (wsum wt (views (w_now w) d)) s o l (Step e l' a).
Proof.
  intros I Ht Hb Se Es Em Ec Hs. destruct (wi_box _ _ _ I d s Hb) as (k & ep & D). pose proof (proj2 (view_at (w_now w) d t o l) Ht) as Hv.
  pose proof (d_inv _ _ _ _ _ _ _ _ _ D) as CI. destruct (unlocked l) eqn:U.
  - destruct (cb_ti _ _ _ _ (proj1 CI) _ _ _ Hv) as [Wf _]. assert (exists p, o = Point p) as (p & ->).
    { destruct o as [p| |]; [eauto| |]; destruct l; try discriminate U; destruct Wf. }
    eapply unlocked_lin; [exact U|exact Hs].
  - pose proof (reads_current c st w t d o l s so k ep (free_for (w_now w) t d) i thr (wi_len _ _ _ I) D Hv Se Es Em Ec U) as R. rewrite R in Hs. rewrite <- Hs.
    exact (lin_ok c k s (views (w_now w) d) t o l (free_for (w_now w) t d) i thr CI Hv).
Qed.

Lemma mr_snoc s es s1 e s2 : mruns s es s1 -> mstep s1 (Some e) s2 -> mruns s (es ++ [e]) s2.
Proof. intros R S. induction R; cbn [app]; [eapply mr_cons; [exact S|constructor]|eapply mr_cons; eauto|eapply mr_tau; eauto]. Qed.
Lemma mr_snoc_tau s es s1 s2 : mruns s es s1 -> mstep s1 None s2 -> mruns s es s2.
Proof. intros R S. induction R; [eapply mr_tau; [exact S|constructor]|eapply mr_cons; eauto|eapply mr_tau; eauto]. Qed.

Definition Sim w : Prop := exists es sx, mruns (AS (fun _ => Free) []) es (AS sx (absw (w_now w))) /\ filter visible es = history (w_log w) /\
  forall t p, nth_error (th (w_now w)) t = Some p -> rel p false (sx t).
Lemma history_snoc (log : list wev) ev : history (log ++ [ev]) = history log ++ calls ev.
Proof. unfold history. rewrite flat_map_app. cbn [flat_map]. rewrite app_nil_r. reflexivity. Qed.
Lemma sim_step w w' : WI w -> counters_fit (w_now w) -> Sim w -> wstep w w' -> Sim w'.
Proof.
  intros I NW (es & sx & R1 & R2 & R3) S. pose proof (wi_ginv c st w I) as G.
  assert (Vis : forall t x p, nth_error (th (w_now w)) t = Some x -> forall e q' ev, (forall st' w', sx = st' -> True) -> visible e = true -> calls ev = [e] ->
     astep (AS sx (absw (w_now w))) (Some e) (AS (upd_st sx t q') (absw (w_now w))) -> rel p false q' ->
     exists es' sx', mruns (AS (fun _ => Free) []) es' (AS sx' (absw (w_now w))) /\ filter visible es' = history (w_log w ++ [ev]) /\
       forall t' p', nth_error (set_nth (th (w_now w)) t p) t' = Some p' -> rel p' false (sx' t')).
  { intros t x p Ht e q' ev _ Ve Ce As Rp. exists (es ++ [e]), (upd_st sx t q'). split; [eapply mr_snoc; [exact R1|apply m_atomic, As]|]. split.
    - rewrite filter_app, R2, history_snoc, Ce. cbn [filter]. rewrite Ve. reflexivity.
    - intros t' p' H. unfold upd_st. destruct (set_cases _ _ _ _ _ _ Ht H) as [[-> ->]|[N E]]; [rewrite Nat.eqb_refl; exact Rp|]. destruct (Nat.eqb_spec t' t); [contradiction|]. apply R3, E. }
  destruct S as [t d o s Ht Hb Hmk|t d o l s so rd i thr e l' a s' Ht Hb Se Es Em Ec Hrd Hs Ha|t d o s n t' n' cn Ht Hb Hal Hr Hc|t d o s n kd t' n' cn Ht Hb Hal Hr Hc|
    t d o r Ht|t o Ht|t o n r w' bs Ht Hp He Hbk Hun Hmk Hde|t r Ht|t m Ht Nm|t m Ht]; unfold Sim; cbn [ext w_now w_log].
  - pose proof (R3 t _ Ht) as Rt. cbn [rel] in Rt. change (absw (set_th (w_now w) t (At d o LEnter))) with (absw (w_now w)). cbn [set_th th].
    eapply (Vis t Idle (At d o LEnter) Ht (ECall t (OnC d o)) (Pend (OnC d o) []) (t, WCall d o)); auto; [apply a_inv, Rt|destruct o; reflexivity].
  - (* local *)
    pose proof (weak_lin w t d o l s so i thr e l' a I Ht Hb Se Es Em Ec Hs) as X. cbn [lin_good] in X. destruct X as (X1 & X2 & _). specialize (X2 s' Ha).
    destruct (ap_ids _ _ _ Ha) as (I1 & I2 & I3). pose proof (R3 t _ Ht) as Rt. cbn [rel] in Rt.
    rewrite history_snoc. cbn [calls]. rewrite app_nil_r. set (C' := set_box (set_th (w_now w) t (At d o l')) d s').
    assert (nth_error (th C') t = Some (At d o l')) as Ht' by (apply (self_err _ _ _ _ Ht)).
    assert (forall t1, t1 <> t -> nth_error (th C') t1 = nth_error (th (w_now w)) t1) as Hto by (intros; apply others_err; assumption).
    destruct a as [x|].
    + exists (es ++ [ELin t x]), (upd_st sx t (Pend (OnC d o) (lins o l ++ [x]))). split; [|split].
      * eapply mr_snoc; [exact R1|]. apply m_atomic. apply a_lin; [exact Rt|]. unfold C'. rewrite (absw_set (w_now w) d s) by exact Hb.
        destruct o as [q|bx md f|], x as [r|e1 b|n|r]; cbn [effect] in X2; try contradiction; cbn [takes_effect].
        -- destruct X2 as [E0 X2]. split; [destruct (lins (Point q) l); [reflexivity|discriminate]|]. exists (vw s), (elems (A s')).
           split; [apply absw_box, Hb|]. split; [exact X2|]. unfold vw. cbn. congruence.
        -- exists (vw s), (elems (A s')). split; [apply absw_box, Hb|]. split; [exact X2|]. unfold vw. cbn. congruence.
        -- destruct X2 as (E0 & E1 & E2). destruct (wsum_count (views (w_now w) d)) as (ts & T1 & T2 & T3). destruct (gi_box _ _ G d s Hb) as [k [B U]].
           pose proof (proj2 (view_at (w_now w) d t SizeOf l) Ht) as Hv.
           split; [destruct (lins SizeOf l); [reflexivity|discriminate]|]. split; [unfold vw; rewrite I1, I2, I3, E1; apply set_same, absw_box, Hb|].
           exists (vw s), ts. split; [apply absw_box, Hb|]. split; [|cbn; lia]. split; [exact T1|]. split.
           ++ intros Hin. destruct (T2 t Hin) as (o2 & l2 & Z1 & Z2). rewrite Hv in Z1. injection Z1 as <- <-.
              destruct (cb_ti _ _ _ _ B _ _ _ Hv) as [Wf _]. destruct l; cbn [wf] in Wf; try contradiction; apply Z2; reflexivity.
           ++ intros t1 Hin. destruct (T2 t1 Hin) as (o2 & l2 & Z1 & _). apply view_at in Z1. specialize (R3 t1 _ Z1). cbn [rel] in R3. eauto.
      * rewrite filter_app, R2. apply app_nil_r.
      * intros t1 p H. unfold upd_st. destruct (Nat.eqb_spec t1 t) as [->|N].
        -- rewrite Ht' in H. injection H as <-. cbn [rel]. rewrite X1. reflexivity.
        -- rewrite Hto in H by exact N. apply R3, H.
    + exists es, sx. split; [|split; [exact R2|]].
      * unfold C'. rewrite (absw_same (w_now w) d s); [exact R1|exact Hb|]. unfold vw. rewrite I1, I2, I3, (cells_elems s s') by exact X2. reflexivity.
      * intros t1 p H. destruct (Nat.eq_dec t1 t) as [->|N].
        -- rewrite Ht' in H. injection H as <-. cbn [rel]. rewrite X1. cbn [opt]. rewrite app_nil_r. exact Rt.
        -- rewrite Hto in H by exact N. apply R3, H.
  - (* rehash *)
    destruct (gi_box _ _ G d s Hb) as [k Hk]. pose proof (alone_out (w_now w) t d o LFull Ht eq_refl Hal) as Ho.
    pose proof (out_inv c k s _ Hk Ho) as Iv. pose proof (full_ok c HC (tb s) n Iv) as X. rewrite Hr in X. destruct X as (I' & [J1 J2 J3] & P').
    rewrite history_snoc. cbn [calls]. rewrite app_nil_r. exists es, sx. split; [|split; [exact R2|]].
    + eapply mr_snoc_tau; [exact R1|]. apply m_atomic. apply a_order. rewrite (absw_set (w_now w) d s) by exact Hb.
      apply same_world_set with (vw s); [apply absw_box, Hb|]. unfold same_view, vw, A. cbn. symmetry in P'. auto.
    + intros t1 q H. cbn [set_box set_th th] in H. destruct (set_cases _ _ _ _ _ _ Ht H) as [[-> ->]|[N E]]; [|apply R3, E].
      pose proof (R3 t _ Ht) as Rt. cbn [rel] in Rt |- *. rewrite Rt. destruct o; reflexivity.
  - (* rehash, exception *)
    destruct (gi_box _ _ G d s Hb) as [k Hk]. pose proof (alone_out (w_now w) t d o LFull Ht eq_refl Hal) as Ho.
    pose proof (out_inv c k s _ Hk Ho) as Iv. pose proof (full_ok c HC (tb s) n Iv) as X. rewrite Hr in X. destruct X as (I' & [J1 J2 J3] & lost & P' & Hm).
    pose proof (proj2 (view_at (w_now w) d t o LFull) Ht) as Hv. pose proof (proj1 (cb_ti _ _ _ _ (proj1 Hk) _ _ _ Hv)) as Wf.
    destruct o as [p| |]; try contradiction. cbn [wf] in Wf. pose proof (R3 t _ Ht) as Rt. cbn [rel lins] in Rt.
    rewrite history_snoc. cbn [calls]. rewrite app_nil_r.
    exists (es ++ [ELin t (APoint RThrew)]), (upd_st sx t (Pend (OnC d (Point p)) ([] ++ [APoint RThrew]))). split; [|split].
    + eapply mr_snoc; [exact R1|]. apply m_atomic. apply a_lin; [exact Rt|]. cbn [takes_effect]. split; [reflexivity|]. exists (vw s), (elems (arr t')).
      split; [apply absw_box, Hb|]. split.
      * destruct p as [| |bx k0 v0 f1 f2]; try discriminate Wf. cbn [pspec]. destruct (moves c) eqn:Em.
        -- right. right. right. exists lost. split; [reflexivity|exact P'].
        -- left. rewrite (Hm eq_refl) in P'. symmetry. exact P'.
      * rewrite (absw_set (w_now w) d s) by exact Hb. unfold vw, A. cbn. congruence.
    + rewrite filter_app, R2. apply app_nil_r.
    + intros t1 q H. cbn [set_box set_th th] in H. unfold upd_st. destruct (set_cases _ _ _ _ _ _ Ht H) as [[-> ->]|[N E]]; [rewrite Nat.eqb_refl; reflexivity|].
      destruct (Nat.eqb_spec t1 t); [contradiction|]. apply R3, E.
  - (* return *)
    destruct (gi_at _ _ G _ _ _ _ Ht) as [s Hb]. destruct (gi_box _ _ G d s Hb) as [k Hk].
    pose proof (proj2 (view_at (w_now w) d t o (LRet r)) Ht) as Hv. pose proof (proj1 (cb_ti _ _ _ _ (proj1 Hk) _ _ _ Hv)) as Wf.
    pose proof (R3 t _ Ht) as Rt. cbn [rel] in Rt.
    change (absw (set_th (w_now w) t Idle)) with (absw (w_now w)). cbn [set_th th].
    assert (answers (OnC d o) (lins o (LRet r)) (AnsC r) \/ exists p, o = Point p /\ r = RNone /\ looks_up p) as [Hans|(p & -> & -> & Lk)].
    { destruct o as [p|bx md f|]; cbn [wf] in Wf.
      - destruct r; try (left; reflexivity). right. exists p. split; [reflexivity|]. split; [reflexivity|]. destruct p; [exact Logic.I|exact Logic.I|contradiction].
      - destruct r; try contradiction. left. cbn [answers lins]. auto.
      - destruct r; try contradiction. left. reflexivity. }
    + eapply (Vis t _ Idle Ht (ERet t (AnsC r)) Free (t, WRet d r)); auto; [eapply a_res; [exact Rt|exact Hans]|reflexivity].
    + cbn [lins] in Rt. set (y := Pend (OnC d (Point p)) [APoint RNone]). exists ((es ++ [ELin t (APoint RNone)]) ++ [ERet t (AnsC RNone)]), (upd_st (upd_st sx t y) t Free). split; [|split].
      * eapply mr_snoc; [eapply mr_snoc; [exact R1|]|]; [apply m_miss; [exact Rt|exact Lk]|]. apply m_atomic. eapply a_res; [unfold upd_st; rewrite Nat.eqb_refl; reflexivity|reflexivity].
      * rewrite !filter_app, R2, history_snoc. cbn [filter visible calls app]. rewrite app_nil_r. reflexivity.
      * intros t1 q H. unfold upd_st. destruct (set_cases _ _ _ _ _ _ Ht H) as [[-> ->]|[N E]]; [rewrite Nat.eqb_refl; reflexivity|].
        destruct (Nat.eqb_spec t1 t); [contradiction|]. apply R3, E.
  - pose proof (R3 t _ Ht) as Rt. cbn [rel] in Rt. change (absw (set_th (w_now w) t (AtW o))) with (absw (w_now w)). cbn [set_th th].
    eapply (Vis t Idle (AtW o) Ht (ECall t (Whole o)) (Pend (Whole o) []) (t, WBegin o)); auto; [apply a_inv, Rt|reflexivity].
  - (* whole *)
    pose proof (R3 t _ Ht) as Rt. cbn [rel] in Rt. pose proof (ginv_whole c HC (w_now w) t o n r w' bs G Hp He Hbk) as Sp.
    rewrite history_snoc. cbn [calls]. rewrite app_nil_r.
    exists (es ++ [ELin t (AWhole r)]), (upd_st sx t (Pend (Whole o) ([] ++ [AWhole r]))). split; [|split].
    + eapply mr_snoc; [exact R1|]. apply m_atomic. apply a_lin; [exact Rt|]. cbn [takes_effect]. auto.
    + rewrite filter_app, R2. apply app_nil_r.
    + intros t1 q H. cbn [th] in H. unfold upd_st. destruct (set_cases _ _ _ _ _ _ Ht H) as [[-> ->]|[N E]]; [rewrite Nat.eqb_refl; exists o; reflexivity|].
      destruct (Nat.eqb_spec t1 t); [contradiction|]. apply R3, E.
  - destruct (R3 t _ Ht) as [o Rt]. change (absw (set_th (w_now w) t Idle)) with (absw (w_now w)). cbn [set_th th].
    eapply (Vis t _ Idle Ht (ERet t (AnsW r)) Free (t, WEnd r)); auto; [eapply a_res; [exact Rt|reflexivity]|reflexivity].
  - rewrite history_snoc. cbn [calls]. rewrite app_nil_r. exists es, sx. auto.
  - rewrite history_snoc. cbn [calls]. rewrite app_nil_r. exists es, sx. auto.
Qed.
Lemma reach_sim (P : conf -> Prop) n w : (forall C, P C -> counters_fit C) -> wruns P n w -> Sim w.
Proof.
  intros HP H. induction H as [H|w w' H IH Sp HP'].
  - exists [], (fun _ => Free). split; [constructor|]. split; [reflexivity|]. intros t p E. cbn [w_now th] in E. apply nth_error_In, repeat_spec in E. subst p. reflexivity.
  - eapply sim_step; [eapply reach_wi; eassumption| |exact IH|exact Sp]. apply HP. destruct H; assumption.
Qed.
Lemma weak_history (P : conf -> Prop) n w : (forall C, P C -> counters_fit C) -> wruns P n w -> missing_history (keqf c) (moves c) (history (w_log w)).
Proof. intros HP R. destruct (reach_sim P n w HP R) as (es & sx & R1 & R2 & _). exists es, (AS sx (absw (w_now w))). split; [exact R1|]. symmetry. exact R2. Qed.
End WLin.
