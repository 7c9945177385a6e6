(** The invariant of WeakInv.v is preserved by the steps inside the container. *)
From Coq Require Import NArith Bool List Arith Lia ZifyBool ZifyNat ZifyN.
From Verif Require Import FloatModel SizeModel SizeProofs GroupModel GroupProofs GroupSpec FoaModel FoaGroup FoaBase FoaFind FoaArr FoaInv FoaSpec FoaWorld ConcSpec ConcModel ConcInv ConcStep ConcStep2 ConcStep3 ConcSys WeakModel WeakHb WeakStep WeakEff WeakInv WeakInv2.
Import ListNotations.
Local Open Scope N_scope.
Notation set_nth := FoaModel.set_nth.

Section WInv3.
Context {K V : Type} (c : Cfg K V) (st : bool).
Notation arrays := (arrays K V).
Notation table := (table K V).
Notation Sh := (@Sh K V).
Notation pop := (pop K V). Notation cop := (cop K V). Notation loc := (@loc K V). Notation cres := (cres K V). Notation eff := (@eff K V).
Notation ent := (option (cop * loc)).
Notation CBase := (CBase c). Notation CUniq := (CUniq c). Notation CInv := (CInv c). Notation TI := (TI c). Notation TI1 := (TI1 c). Notation hk := (hk c).
Notation wact := (@wact K V). Notation wev := (@wev K V).
Notation hb := (@hb K V st). Notation sw := (@sw K V st). Notation knows := (@knows K V st).
Notation DInv := (DInv c st).
Implicit Type log : list wev.

Lemma dinv_local log H vs d s k ep t o l e l' rd free H' s' : DInv log H vs d s k ep -> nth_error vs t = Some (Some (o, l)) ->
  Shp free o l e l' -> (forall g x, free g x = true -> frees vs t g x) -> eff_ok o l e -> apply e s = Some s' ->
  let vs' := set_nth vs t (Some (o, l')) in let log' := log ++ [(t, WLocal d o l e l' rd)] in CInv k s' vs' ->
  (forall i, (i <= length log)%nat -> H' i = H i) -> H' (S (length log)) = Some s' ->
  (* new keys *)
  (forall i q, Pk s' vs' i q -> Pk s vs i q \/ exists p x n g, o = Point p /\ l = LCnt x n /\ l' = LCons x n /\ e = ECnt g /\ g = N.to_nat (p0 k (hk s p)) /\ i = slot_index (x_g x) n /\ q = pkey p) ->
  (forall i q, Pk s vs i q -> ~ ehits e (VByte (i / 15) (i mod 15))) ->
  (* reading the counter *)
  (forall p h x', o = Point p -> l = LCount h -> ectx l' = Some x' -> nth_error (cnt s) (N.to_nat (p0 k (hk s p))) = Some (x_cg x') ->
     forall i u a, (ep < i)%nat -> nth_error log i = Some (u, a) -> increments a d (N.to_nat (p0 k (hk s p))) -> knows log' t i) ->
  (* marking *)
  (forall p x, o = Point p -> insx l' = Some x ->
     trail k (x_h x) (Mk log' ep d (knows log' t) (x_h x)) (x_pb x) /\ (l' = LSkip x -> Mk log' ep d (knows log' t) (x_h x) (x_g x))) ->
  DInv log' H' vs' d s' k ep.
Proof.
  intros D Ht [S1 S2 S3 S4 S5] Hf EO Ha vs' log' CI' HH Hn PK1 PK2 CNT INS.
  pose proof (d_inv _ _ _ _ _ _ _ _ _ D) as CI. pose proof CI as [B U].
  assert (Lep : (ep < length log)%nat) by (destruct (d_ep _ _ _ _ _ _ _ _ _ D) as (? & ? & E & _); eapply nth_lt; exact E).
  pose proof (apply_box e s s' Ha) as (Eh & Ep & _).
  assert (Ev : forall u x, u <> t -> nth_error vs' u = Some x -> nth_error vs u = Some x) by (intros u x N E; unfold vs' in E; rewrite others_err in E by exact N; exact E).
  assert (Ev' : forall u x, u <> t -> nth_error vs u = Some x -> nth_error vs' u = Some x) by (intros u x N E; unfold vs'; rewrite others_err by exact N; exact E).
  assert (Et : nth_error vs' t = Some (Some (o, l'))) by (unfold vs'; eapply self_err; exact Ht).
  assert (En : nth_error log' (length log) = Some (t, WLocal d o l e l' rd)) by apply nth_end.
  assert (NR : ~ replaces (WLocal d o l e l' rd : wact) d) by (intros [Z|Z]; exact Z).
  assert (SN : forall i u a, nth_error log' i = Some (u, a) -> nth_error log i = Some (u, a) \/ (i = length log /\ u = t /\ a = WLocal d o l e l' rd)).
  { intros i u a E. apply nth_snoc_cases in E as [E|[-> E]]; [left; exact E|right]. injection E as -> ->. auto. }
  assert (KA : forall u i, knows log u i -> knows log' u i) by (intros; apply knows_app; assumption).
  assert (KN : knows log' t (length log)) by apply knows_new.
  constructor.
  - unfold log'. rewrite app_length, Nat.add_1_r. exact Hn.
  - destruct (d_ep _ _ _ _ _ _ _ _ _ D) as (t0 & a0 & E & Z). exists t0, a0. split; [apply nth_keep, E|exact Z].
  - intros i t0 a0 L E Z. apply SN in E as [E|(-> & -> & ->)]; [|exact (NR Z)]. exact (d_last _ _ _ _ _ _ _ _ _ D i t0 a0 L E Z).
  - exact CI'.
  - intros i t0 a0 L E. apply SN in E as [E|(-> & -> & ->)].
    + pose proof (nth_lt _ _ _ E) as Ll. rewrite !HH by lia. apply (d_hist _ _ _ _ _ _ _ _ _ D i t0 a0 L E).
    + exists s, s'. rewrite HH by lia. split; [apply D|]. split; [exact Hn|]. split; [apply (fr_geo c), D|]. cbn [stepped act_ok]. rewrite Nat.eqb_refl. auto.
  - assert (forall i, (i <= length log)%nat -> outside l = false \/ i = length log ->
      (exists o0 l0, nth_error vs' t = Some (Some (o0, l0)) /\ outside l0 = false) \/ (exists r b, (i <= r)%nat /\ nth_error log' r = Some (t, b) /\ leaves b d)) as Z.
    { intros i Li Zi. destruct (outside l') eqn:E'; [right|left; eauto]. exists (length log), (WLocal d o l e l' rd). split; [exact Li|]. split; [exact En|].
      cbn [leaves]. split; [reflexivity|]. split; [|exact E']. destruct (outside l) eqn:E0; [|reflexivity]. destruct (S2 eq_refl) as (_ & Z & _). congruence. }
    intros i u a0 E Y. apply SN in E as [E|(-> & -> & ->)]; [|apply Z; auto].
    pose proof (nth_lt _ _ _ E) as Ll. destruct (d_in _ _ _ _ _ _ _ _ _ D i u a0 E Y) as [(o0 & l0 & Y1 & Y2)|Y1]; [|right; apply leaves_keep, Y1].
    destruct (Nat.eq_dec u t) as [->|N].
    + apply Z; [lia|left]. congruence.
    + left. exists o0, l0. split; [apply Ev'; assumption|exact Y2].
  - intros u o0 l0 E Z. destruct (Nat.eq_dec u t) as [->|N]; [|apply KA; eapply (d_know _ _ _ _ _ _ _ _ _ D); [apply Ev; eassumption|exact Z]].
    assert (o0 = o /\ l0 = l') as [-> ->] by (rewrite Et in E; split; congruence). destruct (outside l) eqn:Eo.
    + destruct (d_ep _ _ _ _ _ _ _ _ _ D) as (t0 & a0 & E0 & [R|R]).
      * eapply knows_sync; [exact E0|]. eapply s_enter; [exact R|]. cbn [enters]. auto.
      * apply KA. eapply (d_made _ _ _ _ _ _ _ _ _ D); eassumption.
    + apply KA. eapply (d_know _ _ _ _ _ _ _ _ _ D); eassumption.
  - intros u o0 l0 E i t0 a0 E0 Z. apply SN in E0 as [E0|(-> & -> & ->)]; [|destruct Z]. apply KA.
    destruct (Nat.eq_dec u t) as [->|N]; [|eapply (d_made _ _ _ _ _ _ _ _ _ D); [apply Ev; eassumption|exact E0|exact Z]].
    eapply (d_made _ _ _ _ _ _ _ _ _ D); eassumption.
  - intros i t0 a0 L E Z. apply hb_app. apply SN in E as [E|(-> & -> & ->)]; [|lia]. eapply (d_old _ _ _ _ _ _ _ _ _ D); eassumption.
  - (* d_grp *)
    assert (forall i g x, (i <= length log)%nat -> lock_of o l = Some (g, x) -> holds vs' t g x \/ (exists r b, (i <= r)%nat /\ nth_error log' r = Some (t, b) /\ releases b d g x)) as Z.
    { intros i g x Li El. destruct S1 as [S1|[S1|[S1 _]]]; [left|right|congruence].
      - exists o, l'. split; [exact Et|congruence].
      - exists (length log), (WLocal d o l e l' rd). split; [exact Li|]. split; [exact En|]. cbn [releases]. auto. }
    intros i u a0 g x L E Y. apply SN in E as [E|(-> & -> & ->)].
    + pose proof (nth_lt _ _ _ E) as Ll. destruct (d_grp _ _ _ _ _ _ _ _ _ D i u a0 g x L E Y) as [(o0 & l0 & Y1 & Y2)|Y1]; [|right; apply releases_keep, Y1].
      destruct (Nat.eq_dec u t) as [->|N].
      * apply Z; [lia|]. assert (o0 = o /\ l0 = l) as [-> ->] by (split; congruence). exact Y2.
      * left. exists o0, l0. split; [apply Ev'; assumption|exact Y2].
    + cbn [locked] in Y. apply Z; [lia|apply Y].
  - (* d_hold *)
    intros u g x (o0 & l0 & E0 & El) i u' a0 y L E Z XY. destruct (Nat.eq_dec u t) as [->|N].
    + assert (o0 = o /\ l0 = l') as [-> ->] by (rewrite Et in E0; split; congruence).
      apply SN in E as [E|(-> & -> & ->)]; [|exact KN]. destruct S1 as [S1|[S1|(S1 & g1 & x1 & S6 & S7)]].
      * apply KA. eapply (d_hold _ _ _ _ _ _ _ _ _ D t g x); eauto. exists o, l. split; [exact Ht|congruence].
      * congruence.
      * assert (g1 = g /\ x1 = x) as [-> ->] by (split; congruence). destruct (d_grp _ _ _ _ _ _ _ _ _ D i u' a0 g y L E Z) as [Y|(r & b & Lr & Er & Y)].
        -- exfalso. destruct (Nat.eq_dec u' t) as [->|N].
           ++ destruct Y as (o1 & l1 & Y1 & Y2). assert (o1 = o /\ l1 = l) as [-> ->] by (split; congruence). congruence.
           ++ destruct (Hf _ _ S7 u' y N Y) as [-> ->]. discriminate.
        -- assert (knows log' t r) as Kr.
           { eapply knows_sync; [exact Er|]. eapply (s_group _ _ _ _ _ _ _ _ d g y x); [exact Y| | |].
             - cbn [acquires]. auto.
             - rewrite (orb_comm y x), XY. reflexivity.
             - intros k0 t1 a1 Lk Ek. eapply (d_last _ _ _ _ _ _ _ _ _ D); [|exact Ek]. lia. }
           eapply (own_before st log' u' i r b a0 t); [apply nth_keep, E|apply nth_keep, Er|exact Lr|exact Kr].
    + apply Ev in E0; [|exact N]. assert (holds vs u g x) as Hu by (exists o0, l0; auto). apply SN in E as [E|(-> & -> & ->)].
      * apply KA. eapply (d_hold _ _ _ _ _ _ _ _ _ D u g x); eauto.
      * exfalso. cbn [locked] in Z. destruct (cb_lock _ _ _ _ B u t g x y N Hu) as [-> ->]; [|discriminate]. exists o, l. split; [exact Ht|apply Z].
  - (* d_pk *)
    intros i q Hq h. destruct (PK1 i q Hq) as [Hq0|(p & x & n & g & -> & -> & -> & -> & -> & -> & ->)].
    + destruct (d_pk _ _ _ _ _ _ _ _ _ D i q Hq0) as (v & P1 & P2 & P3). rewrite <- Eh in P1, P3. fold h in P1, P3. exists v. split; [|split].
      * intros v' Evv. destruct (P1 v' Evv) as (u & a0 & L & E & Z). exists u, a0. split; [exact L|]. split; [apply nth_keep, E|exact Z].
      * intros i' u a0 L E Z. apply SN in E as [E|(-> & -> & ->)]; [apply before_app; eapply P2; eassumption|]. destruct (PK2 i q Hq0). apply hits_local in Z. exact Z.
      * eapply path_mono; [|exact P3]. cbv beta. intros g [(s0 & Y1 & Y2)|Y]; [left|right].
        -- exists s0. split; [rewrite HH by lia; exact Y1|exact Y2].
        -- eapply mk_mono; [|exact Y]. intros i0. apply before_app.
    + destruct (cb_ti _ _ _ _ B _ _ _ Ht) as [_ T]. cbn [ConcInv.TI] in T. pose proof T as [T1 [T2 _] _ T4].
      assert (h = x_h x) as Ehx by (unfold h; rewrite Eh, T1; reflexivity).
      exists (Some (length log)). split; [|split].
      * intros v' Evv. injection Evv as <-. exists t, (WLocal d (Point p) (LCnt x n) (ECnt (N.to_nat (p0 k (hk s p)))) (LCons x n) rd). split; [exact Lep|]. split; [exact En|].
        cbn [increments]. split; [reflexivity|]. rewrite Ehx, T1. reflexivity.
      * intros i' u a0 L E Z. cbn [before]. apply SN in E as [E|(-> & -> & ->)]; [|apply hits_local in Z; destruct Z].
        destruct (not_replaces_hits a0 d _ (d_last _ _ _ _ _ _ _ _ _ D i' u a0 L E) Z) as (o1 & l1 & e1 & l1' & rd1 & -> & Zh).
        apply knows_end. rewrite slot_div in Zh by exact T2. eapply (d_hold _ _ _ _ _ _ _ _ _ D t (x_g x) true); [exists (Point p), (LCnt x n); auto|exact L|exact E| |reflexivity].
        cbn [locked]. split; [reflexivity|]. destruct (d_hist _ _ _ _ _ _ _ _ _ D i' u _ L E) as (_ & _ & _ & _ & _ & _ & O). destruct (O eq_refl) as [O1 _]. exact (O1 _ _ Zh).
      * rewrite slot_div by exact T2. rewrite Ehx. destruct (d_ins _ _ _ _ _ _ _ _ _ D t p (LCnt x n) x Ht eq_refl) as [Z _].
        assert (pb_pos (x_pb x) < 2 ^ k) as Lp.
        { destruct T4 as (j & L1 & L2 & _). pose proof (pstate_group k (p0 k (x_h x)) j) as Zg. unfold x_g in L2. rewrite N2Nat.id in L2. fold (p0 k (x_h x)) in L2. rewrite <- L2. clear - Zg. lia. }
        eapply path_mono; [|exact (trail_path _ _ _ _ Lp Z)]. intros g Y. right. eapply mk_mono; [|exact Y]. intros i0. cbn [before]. apply knows_end.
  - (* d_cnt *)
    intros t0 p l0 x E0 Epp Ex Ec i u a0 L E Z. assert (Ehk : hk s' p = hk s p) by (unfold ConcInv.hk; rewrite Eh; reflexivity). rewrite Ehk in Ec, Z.
    set (g0 := N.to_nat (p0 k (hk s p))) in *. pose proof (apply_cnt e s s' g0 Ha) as Ac. rewrite Ec in Ac.
    destruct (Nat.eq_dec t0 t) as [->|N].
    + assert (o = Point p /\ l0 = l') as [-> ->] by (rewrite Et in E0; split; congruence).
      assert (nth_error (cnt s) g0 = Some (x_cg x)) as Ec0.
      { destruct e; try (symmetry; exact Ac). cbn [eff_step] in S4. destruct S4 as [_ S4]. congruence. }
      destruct (S5 x Ex) as [(x0 & Y1 & Y2 & Y3)|[(h & ->)|(p' & Y1 & Y2)]].
      * assert (~ increments (WLocal d (Point p) l e l' rd : wact) d g0) as Ni.
        { intros Y. apply incr_local in Y as (? & ? & ? & ? & Y). injection Y as <- <- -> <- <-. cbn [eff_step] in S4. destruct S4 as [_ S4]. congruence. }
        apply SN in E as [E|(-> & -> & ->)]; [|destruct (Ni Z)]. apply KA. eapply (d_cnt _ _ _ _ _ _ _ _ _ D t p l x0); eauto. fold g0. rewrite <- Y2. exact Ec0.
      * apply SN in E as [E|(-> & -> & ->)]; [|exact KN]. eapply (CNT p h x); eauto.
      * injection Y1 as <-. congruence.
    + apply Ev in E0; [|exact N]. pose proof (cu_ti _ _ _ _ U _ _ _ E0) as Y. cbn [ConcInv.TI1] in Y. rewrite Epp, Ex in Y. fold g0 in Y.
      destruct Y as (n0 & Y1 & Y2 & _). rewrite Y1 in Ac.
      assert (nth_error (cnt s) g0 = Some (x_cg x) /\ ~ increments (WLocal d o l e l' rd : wact) d g0) as [Ec0 Ni].
      { cbn [increments]. destruct e; try (split; [congruence|tauto]). cbn [option_map] in Ac. destruct (Nat.eqb_spec g0 g) as [<-|N1].
        - exfalso. assert (x_cg x = n0 + 1) by congruence. lia.
        - split; [congruence|]. intros [_ Z1]. congruence. }
      apply SN in E as [E|(-> & -> & ->)]; [|destruct (Ni Z)]. apply KA. eapply (d_cnt _ _ _ _ _ _ _ _ _ D t0 p l0 x); eauto.
  - intros t0 p l0 x E0 Ex. destruct (Nat.eq_dec t0 t) as [->|N].
    + assert (o = Point p /\ l0 = l') as [-> ->] by (rewrite Et in E0; split; congruence). apply (INS p x eq_refl Ex).
    + apply Ev in E0; [|exact N]. destruct (d_ins _ _ _ _ _ _ _ _ _ D t0 p l0 x E0 Ex) as [Z1 Z2]. split.
      * eapply trail_mono; [|exact Z1]. intros g. apply mk_mono. intros i0. apply knows_app.
      * intros ->. eapply mk_mono; [|apply Z2; reflexivity]. intros i0. apply knows_app.
Qed.
End WInv3.
