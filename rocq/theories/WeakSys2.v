(** Global invariant of the executions of WeakModel.v. *)
From Coq Require Import NArith Bool List Arith Lia ZifyBool ZifyNat ZifyN Permutation.
From Verif Require Import FloatModel SizeModel SizeProofs GroupModel GroupProofs GroupSpec FoaModel FoaGroup FoaBase FoaFind FoaArr FoaInv FoaRehash FoaSpec FoaWorld FoaRun ConcSpec ConcModel ConcInv ConcStep ConcStep2 ConcStep3 ConcSys ConcSys2
  WeakModel WeakHb WeakStep WeakEff WeakInv WeakInv2 WeakInv3 WeakDep WeakSee WeakSys.
Import ListNotations.
Local Open Scope N_scope.
Notation set_nth := FoaModel.set_nth.

Section WSys2.
Context {K V : Type} (c : Cfg K V) (st : bool).
Hypothesis HC : good_cfg c.
Notation Sh := (@Sh K V).
Notation pop := (pop K V). Notation cop := (cop K V). Notation loc := (@loc K V). Notation cres := (cres K V). Notation eff := (@eff K V).
Notation ent := (option (cop * loc)).
Notation CBase := (CBase c). Notation CInv := (CInv c). Notation TI := (TI c). Notation hk := (hk c).
Notation wact := (@wact K V). Notation wev := (@wev K V). Notation W := (@W K V). Notation conf := (@conf K V). Notation pc := (@pc K V).
Notation hb := (@hb K V st). Notation knows := (@knows K V st). Notation readable := (@readable K V st). Notation sees := (@sees K V st). Notation made_known := (@made_known K V st).
Notation DInv := (DInv c st). Notation WI := (WI c st). Notation wstep := (@wstep K V c st). Notation wruns := (@wruns K V c st).
Implicit Type log : list wev. Implicit Type w : W.

Lemma wi_ext w C t a : WI w -> (length (boxes (w_now w)) <= length (boxes C))%nat -> (forall d, local a d \/ replaces a d -> (d < length (boxes C))%nat) ->
  (forall d s, box C d = Some s -> exists k ep, DInv (w_log w ++ [(t, a)]) (hist (ext w C t a) d) (views C d) d s k ep) ->
  (forall t d o l, nth_error (th C) t = Some (At d o l) -> exists s, box C d = Some s) ->
  (forall i u b, nth_error (w_log w) i = Some (u, b) -> conflict b a -> hb (w_log w ++ [(t, a)]) i (length (w_log w))) ->
  WI (ext w C t a).
Proof.
  intros I L1 L2 HB HA HR. constructor; cbn [ext w_now w_past w_log].
  - rewrite !app_length. cbn [length]. rewrite (wi_len _ _ _ I). reflexivity.
  - exact HB.
  - exact HA.
  - intros i u b d E Z. apply nth_snoc_cases in E as [E|[_ E]]; [|injection E as -> ->; auto]. pose proof (wi_lt _ _ _ I i u b d E Z). lia.
  - intros i j u v b b' Lij Ei Ej Cf. apply nth_snoc_cases in Ej as [Ej|[-> Ej]].
    + pose proof (nth_lt _ _ _ Ej). rewrite nth_app in Ei by lia. apply hb_app. eapply (wi_race _ _ _ I); eassumption.
    + injection Ej as -> ->. rewrite nth_app in Ei by lia. eapply HR; eassumption.
Qed.
(** containers an event has nothing to do with *)
Lemma frame_box w C t a d s : WI w -> box (w_now w) d = Some s -> box C d = Some s -> views C d = views (w_now w) d -> ~ replaces a d -> ~ local a d ->
  exists k ep, DInv (w_log w ++ [(t, a)]) (hist (ext w C t a) d) (views C d) d s k ep.
Proof.
  intros I Hb Hb' Hv NR NL. destruct (wi_box _ _ _ I d s Hb) as (k & ep & D). exists k, ep. pose proof (wi_len _ _ _ I) as Ln. rewrite Hv.
  apply (dinv_frame c st (w_log w) (hist w d) (views (w_now w) d)); auto.
  - intros i Li. apply hist_ext; assumption.
  - rewrite hist_end by exact Ln. exact Hb'.
  - apply D.
Qed.
(** a thread goes from outside to outside *)
Lemma quiet_box w t x p a d s : WI w -> nth_error (th (w_now w)) t = Some x -> box (w_now w) d = Some s -> ~ replaces a d -> ~ local a d ->
  quiet (view d x) -> quiet (view d p) -> (forall o l, p = At d o l -> made_known w t d) ->
  exists k ep, DInv (w_log w ++ [(t, a)]) (hist (ext w (set_th (w_now w) t p) t a) d) (views (set_th (w_now w) t p) d) d s k ep.
Proof.
  intros I Ht Hb NR NL Qx Qp Hp. destruct (wi_box _ _ _ I d s Hb) as (k & ep & D). exists k, ep. pose proof (wi_len _ _ _ I) as Ln. rewrite views_th.
  assert (nth_error (views (w_now w) d) t = Some (view d x)) as Hv by (unfold views; rewrite nth_error_map, Ht; reflexivity).
  apply (dinv_frame c st (w_log w) (hist w d) (views (w_now w) d)); auto.
  - intros i Li. apply hist_ext; assumption.
  - rewrite hist_end by exact Ln. exact Hb.
  - eapply cinv_quiet_ent; [apply D|exact Hv|exact Qx|exact Qp].
  - intros u o l E. destruct (set_cases _ _ _ _ _ _ Hv E) as [[-> Z]|[_ Z]]; [right|left; exact Z].
    assert (p = At d o l) as ->.
    { destruct p as [|d' o' l'| |]; cbn [view] in Z; try discriminate. destruct (Nat.eqb_spec d' d) as [->|]; [|discriminate]. injection Z as -> ->. reflexivity. }
    split; [cbn [view] in Qp; rewrite Nat.eqb_refl in Qp; apply Qp|]. intros i t' a' Ei Zi. eapply (Hp o l eq_refl); eassumption.
  - intros u o l E Z. destruct (Nat.eq_dec u t) as [->|N]; [|rewrite others_err by exact N; exact E].
    exfalso. rewrite Hv in E. injection E as E. rewrite E in Qx. destruct Qx as [Qx _]. congruence.
Qed.
Lemma no_conflict (b a : wact) : (forall d, ~ local a d) -> (forall d, ~ replaces a d) -> ~ conflict b a.
Proof. intros H1 H2 (d & [(g & x & y & _ & Z & _)|[(_ & [Z|Z])|[_ Z]]]); [apply locked_local in Z; exact (H1 d Z)|exact (H1 d Z)|exact (H2 d Z)|exact (H2 d Z)]. Qed.
Lemma wi_quiet w t x p a : WI w -> nth_error (th (w_now w)) t = Some x -> (forall d, ~ local a d) -> (forall d, ~ replaces a d) ->
  (forall d, quiet (view d x)) -> (forall d, quiet (view d p)) -> (forall d o l, p = At d o l -> made_known w t d /\ exists s, box (w_now w) d = Some s) ->
  WI (ext w (set_th (w_now w) t p) t a).
Proof.
  intros I Ht NL NR Qx Qp Hp. apply wi_ext; auto.
  - intros d [Z|Z]; [destruct (NL d Z)|destruct (NR d Z)].
  - intros d s Hb. rewrite box_th in Hb. eapply quiet_box; eauto. intros o l E. apply (Hp d o l E).
  - intros t2 d o l H. rewrite box_th. cbn [set_th th] in H. destruct (set_cases _ _ _ _ _ _ Ht H) as [[_ E]|[_ E]]; [eapply Hp; eauto|]. eapply (wi_at _ _ _ I); exact E.
  - intros i u b _ Z. destruct (no_conflict b a NL NR Z).
Qed.
Lemma set_th_same (C : conf) t p : nth_error (th C) t = Some p -> set_th C t p = C.
Proof. intros H. unfold set_th. rewrite set_nth_same by exact H. destruct C; reflexivity. Qed.
Lemma conflict_local (b : wact) d o l e l' rd : conflict b (WLocal d o l e l' rd) -> replaces b d \/ exists g x y, locked b d g x /\ lock_of o l = Some (g, y) /\ x || y = true.
Proof.
  intros (d' & [(g & x & y & Z1 & Z2 & Z3)|[(Z1 & [Z2|Z2])|[_ Z]]]).
  - cbn [locked] in Z2. destruct Z2 as [-> Z2]. right. exists g, x, y. auto.
  - cbn [local] in Z2. subst. left. exact Z1.
  - destruct Z2 as [[]|[]].
  - destruct Z as [[]|[]].
Qed.

Lemma wi_local w t d o l s so rd i thr e l' a s' : WI w -> counters_fit (w_now w) ->
  nth_error (th (w_now w)) t = Some (At d o l) -> box (w_now w) d = Some s ->
  sees w t d so -> sz (tb so) = sz (tb s) -> ml (tb so) = ml (tb s) -> (forall x n, l = LCnt x n -> cnt so = cnt s) ->
  (forall h x u m, l = LCount h -> l' = LScan x u m -> exists sr, readable w t d (VCnt (x_g x)) rd sr /\ nth_error (cnt so) (x_g x) = nth_error (cnt sr) (x_g x)) ->
  lstep c (free_for (w_now w) t d) so o l i thr = Step e l' a -> apply e s = Some s' ->
  WI (ext w (set_box (set_th (w_now w) t (At d o l')) d s') t (WLocal d o l e l' rd)).
Proof.
  intros I NW Ht Hb Se Es Em Ec Hrd Hs Ha. pose proof (wi_len _ _ _ I) as Ln. destruct (wi_box _ _ _ I d s Hb) as (k & ep & D).
  pose proof (proj2 (view_at (w_now w) d t o l) Ht) as Hv. set (C := set_box (set_th (w_now w) t (At d o l')) d s').
  assert (nowrap s l) as Fit by (destruct l; try exact Logic.I; cbn [nowrap]; intros m Hm; eapply NW; [exact Ht|exact Hb|exact Hm]).
  assert (box (set_th (w_now w) t (At d o l')) d = Some s) as Hb1 by exact Hb.
  assert (box C d = Some s') as Hb' by (unfold C; rewrite (box_set _ _ _ _ _ Hb1), Nat.eqb_refl; reflexivity).
  pose proof (local_dinv c st w t d o l s so k ep (free_for (w_now w) t d) i thr Ln D Hv Se Es Em Ec Fit (fun g x => free_ok (w_now w) t d g x) e l' a s' rd C Hs Ha Hrd Hb') as D'.
  pose proof (cb_ti _ _ _ _ (proj1 (d_inv _ _ _ _ _ _ _ _ _ D)) _ _ _ Hv) as [Wf _].
  pose proof (lstep_shp c _ so o l i thr e l' a Hs Wf) as Sp.
  assert (Lep : (ep < length (w_log w))%nat) by (destruct (d_ep _ _ _ _ _ _ _ _ _ D) as (? & ? & E & _); eapply nth_lt; exact E).
  assert (knows (w_log w ++ [(t, WLocal d o l e l' rd)]) t ep) as Kep.
  { destruct (outside l) eqn:O.
    - destruct (sp_out _ _ _ _ _ Sp O) as (_ & O' & _). eapply (d_know _ _ _ _ _ _ _ _ _ D'); [eapply self_err; exact Hv|exact O'].
    - apply knows_app. eapply (d_know _ _ _ _ _ _ _ _ _ D); eassumption. }
  assert (Hvd : views C d = set_nth (views (w_now w) d) t (Some (o, l'))).
  { unfold C. change (views (set_box (set_th (w_now w) t (At d o l')) d s') d) with (views (set_th (w_now w) t (At d o l')) d). rewrite views_th. cbn [view]. rewrite Nat.eqb_refl. reflexivity. }
  apply wi_ext; auto.
  - unfold C. cbn [set_box set_th boxes]. rewrite set_nth_len. lia.
  - intros d' [Z|[[]|[]]]. cbn [local] in Z. subst d'. eapply box_lt; exact Hb'.
  - intros d' s2 H2. destruct (Nat.eq_dec d' d) as [->|N].
    + rewrite Hvd. assert (s2 = s') as -> by congruence. exists k, ep. exact D'.
    + pose proof H2 as H3. unfold C in H2. rewrite (box_set _ _ _ _ _ Hb1) in H2. destruct (Nat.eqb_spec d' d) as [|_]; [contradiction|]. rewrite box_th in H2.
      eapply frame_box; [exact I|exact H2|exact H3| | |].
      * unfold C. change (views (set_box (set_th (w_now w) t (At d o l')) d s') d') with (views (set_th (w_now w) t (At d o l')) d'). rewrite views_th. cbn [view].
        destruct (Nat.eqb_spec d d') as [E|_]; [congruence|]. apply set_nth_same. unfold views. rewrite nth_error_map, Ht. cbn. destruct (Nat.eqb_spec d d') as [E|_]; [congruence|reflexivity].
      * intros [[]|[]].
      * cbn [local]. congruence.
  - intros t2 d2 o2 l2 H. unfold C in *. rewrite (box_set _ _ _ _ _ Hb1). destruct (Nat.eqb_spec d2 d) as [->|N]; [eauto|]. rewrite box_th.
    cbn [set_box set_th th] in H. destruct (set_cases _ _ _ _ _ _ Ht H) as [[_ E]|[_ E]]; [congruence|]. eapply (wi_at _ _ _ I); exact E.
  - intros j u b Ej Cf. pose proof (nth_lt _ _ _ Ej) as Lj. apply knows_last; [|exact Lj].
    assert (local b d \/ replaces b d -> (j < ep)%nat -> knows (w_log w ++ [(t, WLocal d o l e l' rd)]) t j) as Old.
    { intros Z L. eapply knows_hb; [|exact Kep]. apply hb_app. eapply (d_old _ _ _ _ _ _ _ _ _ D); eassumption. }
    destruct (conflict_local _ _ _ _ _ _ _ Cf) as [R|(g & x & y & Z1 & Z2 & Z3)].
    + destruct (Nat.lt_trichotomy j ep) as [L|[->|L]]; [auto|exact Kep|]. destruct (d_last _ _ _ _ _ _ _ _ _ D j u b L Ej R).
    + destruct (Nat.lt_trichotomy j ep) as [L|[->|L]]; [apply Old; [left; eapply locked_local; exact Z1|exact L]|exact Kep|].
      apply knows_app. eapply (d_hold _ _ _ _ _ _ _ _ _ D t g y); [exists o, l; auto|exact L|exact Ej|exact Z1|]. rewrite orb_comm. exact Z3.
Qed.

Lemma left_before log H vs d s k ep : DInv log H vs d s k ep -> Out vs ->
  forall i u a', nth_error log i = Some (u, a') -> local a' d -> exists r b, (i <= r)%nat /\ nth_error log r = Some (u, b) /\ leaves b d.
Proof.
  intros D O i u a' E Z. destruct (d_in _ _ _ _ _ _ _ _ _ D i u a' E Z) as [(o & l & Y1 & Y2)|Y]; [|exact Y]. rewrite (O _ _ _ Y1) in Y2. discriminate.
Qed.
Lemma conflict_excl (b : wact) ds made : conflict b (WExcl ds made) -> exists d, replaces (WExcl ds made : wact) d /\ (local b d \/ replaces b d).
Proof.
  intros (d & [(g & x & y & _ & Z2 & _)|[(Z1 & [Z2|Z2])|[Z1 Z2]]]); [destruct Z2|destruct Z2| |]; exists d; auto.
Qed.
Lemma old_race log H vs d s k t (a : wact) : DInv (log ++ [(t, a)]) H vs d s k (length log) ->
  forall i u b, nth_error log i = Some (u, b) -> local b d \/ replaces b d -> hb (log ++ [(t, a)]) i (length log).
Proof. intros D i u b E Z. eapply (d_old _ _ _ _ _ _ _ _ _ D); [eapply nth_lt; exact E|apply nth_keep, E|exact Z]. Qed.

(** exclusive access to one container *)
Lemma wi_full w t d o s l' t' cn : WI w -> nth_error (th (w_now w)) t = Some (At d o LFull) -> box (w_now w) d = Some s -> alone (w_now w) t d = true ->
  Inv c t' -> length cn = length (a_groups (arr t')) -> outside l' = true -> wf o l' ->
  WI (ext w (set_box (set_th (w_now w) t (At d o l')) d (MkSh t' cn)) t (WExcl [d] [])).
Proof.
  intros I Ht Hb Hal Iv Hc Ol Wl. pose proof (wi_len _ _ _ I) as Ln. destruct (wi_box _ _ _ I d s Hb) as (k & ep & D).
  pose proof (proj2 (view_at (w_now w) d t o LFull) Ht) as Hv. set (C := set_box (set_th (w_now w) t (At d o l')) d (MkSh t' cn)).
  assert (Out (views (w_now w) d)) as Ho.
  { intros t2 o2 l2 H. apply view_at in H. destruct (Nat.eq_dec t2 t) as [->|N]; [rewrite Ht in H; injection H as _ <-; reflexivity|].
    unfold alone in Hal. rewrite forallb_forall in Hal. specialize (Hal _ (in_others _ _ _ _ H N)). cbn in Hal. rewrite Nat.eqb_refl in Hal.
    destruct (outside l2); [reflexivity|discriminate]. }
  assert (box (set_th (w_now w) t (At d o l')) d = Some s) as Hb1 by exact Hb.
  assert (box C d = Some (MkSh t' cn)) as Hb' by (unfold C; rewrite (box_set _ _ _ _ _ Hb1), Nat.eqb_refl; reflexivity).
  assert (Hvd : views C d = set_nth (views (w_now w) d) t (Some (o, l'))).
  { unfold C. change (views (set_box (set_th (w_now w) t (At d o l')) d (MkSh t' cn)) d) with (views (set_th (w_now w) t (At d o l')) d). rewrite views_th. cbn [view]. rewrite Nat.eqb_refl. reflexivity. }
  assert (Out (views C d)) as Ho'.
  { rewrite Hvd. intros t2 o2 l2 H. destruct (set_cases _ _ _ _ _ _ Hv H) as [[_ E]|[_ E]]; [injection E as -> ->; exact Ol|eapply Ho; exact E]. }
  destruct (inv_out c t' cn (views C d) Iv Hc Ho') as [k' Hk'].
  { rewrite Hvd. intros t2 o2 l2 H. destruct (set_cases _ _ _ _ _ _ Hv H) as [[_ E]|[_ E]]; [injection E as -> ->; exact Wl|]. apply (cb_ti _ _ _ _ (proj1 (d_inv _ _ _ _ _ _ _ _ _ D)) _ _ _ E). }
  assert (D' : DInv (w_log w ++ [(t, WExcl [d] [])]) (hist (ext w C t (WExcl [d] [])) d) (views C d) d (MkSh t' cn) k' (length (w_log w))).
  { apply dinv_new.
    - left. left. reflexivity.
    - exact Hk'.
    - exact Ho'.
    - rewrite hist_end by exact Ln. exact Hb'.
    - eapply left_before; eassumption.
    - intros u o2 l2 E i t2 a2 Ei Zi. apply nth_snoc_cases in Ei as [Ei|[_ Ei]]; [|injection Ei as -> ->; destruct Zi]. apply knows_app.
      rewrite Hvd in E. destruct (set_cases _ _ _ _ _ _ Hv E) as [[-> _]|[_ E2]]; [eapply (d_made _ _ _ _ _ _ _ _ _ D t)|eapply (d_made _ _ _ _ _ _ _ _ _ D u)]; eassumption.
    - intros i u a2 Ei Zi. eapply (d_made _ _ _ _ _ _ _ _ _ D t); eassumption.
    - left. left. reflexivity. }
  apply wi_ext; auto.
  - unfold C. cbn [set_box set_th boxes]. rewrite set_nth_len. lia.
  - intros d' [[]|[[<-|[]]|[]]]. eapply box_lt; exact Hb'.
  - intros d' s2 H2. destruct (Nat.eq_dec d' d) as [->|N].
    + assert (s2 = MkSh t' cn) as -> by congruence. exists k', (length (w_log w)). exact D'.
    + pose proof H2 as H3. unfold C in H2. rewrite (box_set _ _ _ _ _ Hb1) in H2. destruct (Nat.eqb_spec d' d) as [|_]; [contradiction|]. rewrite box_th in H2.
      eapply frame_box; [exact I|exact H2|exact H3| | |].
      * unfold C. change (views (set_box (set_th (w_now w) t (At d o l')) d (MkSh t' cn)) d') with (views (set_th (w_now w) t (At d o l')) d'). rewrite views_th. cbn [view].
        destruct (Nat.eqb_spec d d') as [E|_]; [congruence|]. apply set_nth_same. unfold views. rewrite nth_error_map, Ht. cbn. destruct (Nat.eqb_spec d d') as [E|_]; [congruence|reflexivity].
      * intros [[E|[]]|[]]. congruence.
      * intros [].
  - intros t2 d2 o2 l2 H. unfold C in *. rewrite (box_set _ _ _ _ _ Hb1). destruct (Nat.eqb_spec d2 d) as [->|N]; [eauto|]. rewrite box_th.
    cbn [set_box set_th th] in H. destruct (set_cases _ _ _ _ _ _ Ht H) as [[_ E]|[_ E]]; [congruence|]. eapply (wi_at _ _ _ I); exact E.
  - intros j u b Ej Cf. destruct (conflict_excl _ _ _ Cf) as (d' & [[<-|[]]|[]] & Z). eapply old_race; eassumption.
Qed.

(** operations on whole containers *)
Lemma touched_box w o d : WI w -> pre c o (idle_world (w_now w) o) -> In d (touched o) -> exists s, box (w_now w) d = Some s /\ existsb (busy o d) (th (w_now w)) = false.
Proof.
  intros I P Hd. assert (exists t0, slot (idle_world (w_now w) o) d = Some t0) as [t0 E].
  { destruct o; cbn [touched In] in Hd; cbn [pre] in P; repeat match goal with
    | H : _ /\ _ |- _ => destruct H | H : exists _, _ |- _ => destruct H | H : _ \/ _ |- _ => destruct H | H : False |- _ => destruct H end; subst; eauto. }
  rewrite idle_slot in E. destruct (box (w_now w) d) as [s|]; [|discriminate]. destruct (existsb _ _) eqn:X; [discriminate|]. eauto.
Qed.
Lemma wi_whole w t o n r (w' : mworld (K:=K) (V:=V)) bs : WI w -> nth_error (th (w_now w)) t = Some (AtW o) -> wpre c o (idle_world (w_now w) o) ->
  returned (wexec c o (idle_world (w_now w) o) n) r w' -> put_back (w_now w) (idle_world (w_now w) o) w' bs ->
  (forall d, (d < length (boxes (w_now w)))%nat -> ~ In d (touched o) -> nth_error bs d = nth_error (boxes (w_now w)) d) ->
  (forall d, In d (touched o) -> made_known w t d) ->
  (forall d, o = Destroy d -> forall i u a, nth_error (w_log w) i = Some (u, a) -> of_box a d -> knows (w_log w) t i) ->
  WI (ext w (Conf bs (set_nth (th (w_now w)) t (RetW r))) t (WExcl (touched o) (seq (length (boxes (w_now w))) (length bs - length (boxes (w_now w)))))).
Proof.
  intros I Ht Hp He Hbk Hun Hmk Hde. pose proof (wi_len _ _ _ I) as Ln. pose proof (wi_ginv c st w I) as G.
  destruct (whole_cases c HC (w_now w) o n r w' bs G Hp He Hbk) as [Lb Hw]. set (C := Conf bs (set_nth (th (w_now w)) t (RetW r))).
  set (a := WExcl (touched o) (seq (length (boxes (w_now w))) (length bs - length (boxes (w_now w))))). set (m := length (boxes (w_now w))) in *.
  assert (forall d, views C d = views (w_now w) d) as Hvw.
  { intros d. unfold views, C. cbn [th]. rewrite map_set_nth. apply set_nth_same. rewrite nth_error_map, Ht. reflexivity. }
  assert (forall d, In d (touched o) -> (d < m)%nat) as Lt.
  { intros d Hd. destruct (touched_box w o d I (proj1 Hp) Hd) as (s & Hs & _). eapply box_lt; exact Hs. }
  assert (forall d, creates a d <-> (m <= d < length bs)%nat) as Cr.
  { intros d. unfold a. cbn [creates]. rewrite in_seq. lia. }
  assert (forall d s', box C d = Some s' -> Out (views C d) -> Inv c (tb s') -> length (cnt s') = length (a_groups (arr (tb s'))) -> replaces a d ->
     exists k, DInv (w_log w ++ [(t, a)]) (hist (ext w C t a) d) (views C d) d s' k (length (w_log w))) as New.
  { intros d s' Hb' Ho Iv Lc Ra. destruct s' as [t' cn].
    destruct (inv_out c t' cn (views C d) Iv Lc Ho) as [k' Hk'].
    { rewrite Hvw. intros t2 o2 l2 E. apply view_at in E as E'. destruct (gi_at _ _ G _ _ _ _ E') as [s Hs]. destruct (gi_box _ _ G d s Hs) as [k Hk]. apply (cb_ti _ _ _ _ (proj1 Hk) _ _ _ E). }
    exists k'. apply dinv_new; auto.
    - rewrite hist_end by exact Ln. exact Hb'.
    - destruct (Nat.lt_ge_cases d m) as [Ld|Ld].
      + destruct Ra as [Ra|Ra]; [|apply Cr in Ra; lia]. cbn [excl] in Ra. destruct (touched_box w o d I (proj1 Hp) Ra) as (s & Hs & _).
        destruct (wi_box _ _ _ I d s Hs) as (k & ep & D). rewrite Hvw in Ho. eapply left_before; eassumption.
      + intros i u a' Ei Z. pose proof (wi_lt _ _ _ I i u a' d Ei (or_introl Z)). fold m in H. lia.
    - rewrite Hvw. intros u o2 l2 E. apply view_at in E as E'. destruct (gi_at _ _ G _ _ _ _ E') as [s Hs]. destruct (wi_box _ _ _ I d s Hs) as (k & ep & D).
      intros i t2 a2 Ei Z. apply nth_snoc_cases in Ei as [Ei|[_ Ei]]; [apply knows_app; eapply (d_made _ _ _ _ _ _ _ _ _ D); eassumption|].
      injection Ei as -> ->. apply Cr in Z. pose proof (box_lt _ _ _ Hs). fold m in H. lia.
    - intros i u a' Ei Z. destruct Ra as [Ra|Ra]; [eapply (Hmk d Ra); eassumption|]. apply Cr in Ra. pose proof (wi_lt _ _ _ I i u a' d Ei (or_intror (or_intror Z))). fold m in H. lia.
    - destruct Ra as [Ra|Ra]; [left; exact Ra|right]. intros i u a' Ei. apply Cr in Ra. split; intros Z.
      + pose proof (wi_lt _ _ _ I i u a' d Ei (or_introl Z)). fold m in H. lia.
      + pose proof (wi_lt _ _ _ I i u a' d Ei (or_intror Z)). fold m in H. lia. }
  assert (forall d, In d (touched o) -> existsb (busy o d) (th (w_now w)) = false) as Nb.
  { intros d Hd. destruct (touched_box w o d I (proj1 Hp) Hd) as (s & _ & Z). exact Z. }
  apply wi_ext; auto.
  - intros d [[]|[Z|Z]]; cbn [boxes C].
    + apply Lt in Z. unfold C. cbn [boxes]. lia.
    + apply Cr in Z. unfold C. cbn [boxes]. lia.
  - intros d s' Hb'. assert (Hb2 : match nth_error bs d with Some x => x | None => None end = Some s') by exact Hb'. destruct (Nat.lt_ge_cases d m) as [Ld|Ld].
    + destruct (in_dec Nat.eq_dec d (touched o)) as [Hd|Hd].
      * destruct (Hw d) as [(s & _ & H2 & _)|(H1 & H2 & _)]; [rewrite (Nb d Hd) in H2; discriminate|]. destruct (H2 s' Hb2) as [Iv Lc].
        destruct (New d s' Hb') as [k Dk]; auto; [rewrite Hvw; exact H1|left; exact Hd|]. eauto.
      * apply frame_box; auto.
        -- unfold box. rewrite <- (Hun d Ld Hd). exact Hb2.
        -- intros [Z|Z]; [exact (Hd Z)|]. apply Cr in Z. lia.
    + destruct (Hw d) as [(s & H0 & _)|(H1 & H2 & _)]; [apply box_lt in H0; fold m in H0; lia|]. destruct (H2 s' Hb2) as [Iv Lc].
      destruct (New d s' Hb') as [k Dk]; auto; [rewrite Hvw; exact H1|right; apply Cr; apply box_lt in Hb'; exact (conj Ld Hb')|]. eauto.
  - intros t2 d o2 l2 H. unfold C in H. cbn [th] in H. destruct (set_cases _ _ _ _ _ _ Ht H) as [[_ E]|[_ E]]; [discriminate|].
    destruct (gi_at _ _ G _ _ _ _ E) as [s Hs]. change (box C d) with (match nth_error bs d with Some x => x | None => None end).
    destruct (Hw d) as [(s1 & H1 & H2 & H3)|(H1 & H2 & H3 & H4)]; [eauto|]. apply H3 with s; [|exact Hs].
    intros Eo. assert (existsb (busy o d) (th (w_now w)) = true) as Ex.
    { apply existsb_exists. exists (At d o2 l2). split; [eapply nth_error_In; exact E|]. rewrite Eo. cbn. apply Nat.eqb_refl. }
    rewrite (Nb d) in Ex; [discriminate|]. rewrite Eo. left. reflexivity.
  - intros i u b Ei Cf. destruct (conflict_excl _ _ _ Cf) as (d & Ra & Z). destruct Ra as [Ra|Ra].
    + destruct (touched_box w o d I (proj1 Hp) Ra) as (s & Hs & Nb').
      assert (o = Destroy d \/ o <> Destroy d) as [Eo|No] by (destruct o; try (right; discriminate); destruct (Nat.eq_dec i0 d) as [->|]; [left; reflexivity|right; congruence]).
      * apply knows_end. apply (Hde d Eo i u b Ei). destruct Z as [Z|Z]; destruct b; cbn [of_box]; try exact Z; try (destruct Z; contradiction); destruct Z as [[]|[]].
      * destruct (Hw d) as [(s1 & _ & H2 & _)|(H1 & H2 & H3 & _)]; [rewrite Nb' in H2; discriminate|]. destruct (H3 No s Hs) as [s' Hb2]. destruct (H2 s' Hb2) as [Iv Lc].
        destruct (New d s' Hb2) as [k Dk]; auto; [rewrite Hvw; exact H1|left; exact Ra|]. eapply old_race; eassumption.
    + apply Cr in Ra. pose proof (wi_lt _ _ _ I i u b d Ei Z). fold m in H. lia.
Qed.

Lemma wi_step w w' : WI w -> counters_fit (w_now w) -> wstep w w' -> WI w'.
Proof.
  intros I NW S. pose proof (wi_ginv c st w I) as G.
  destruct S as [t d o s Ht Hb Hmk|t d o l s so rd i thr e l' a s' Ht Hb Se Es Em Ec Hrd Hs Ha|t d o s n t' n' cn Ht Hb Hal Hr Hc|t d o s n kd t' n' cn Ht Hb Hal Hr Hc|
    t d o r Ht|t o Ht|t o n r w' bs Ht Hp He Hbk Hun Hmk Hde|t r Ht|t m Ht Nm|t m Ht].
  - eapply wi_quiet; [exact I|exact Ht|intros d' []|intros d' [[]|[]]|intros d'; exact Logic.I| |].
    + intros d'. cbn. destruct (Nat.eqb d d'); cbn; [split; [reflexivity|destruct o; exact Logic.I]|exact Logic.I].
    + intros d' o' l' E. injection E as <- <- <-. eauto.
  - eapply wi_local; eassumption.
  - destruct (gi_box _ _ G d s Hb) as [k Hk].
    assert (Inv c t') as Iv.
    { pose proof (full_ok c HC (tb s) n) as X. rewrite Hr in X. apply X. eapply out_inv; [exact Hk|]. intros t2 o2 l2 H. apply view_at in H.
      destruct (Nat.eq_dec t2 t) as [->|N]; [rewrite Ht in H; injection H as _ <-; reflexivity|].
      unfold alone in Hal. rewrite forallb_forall in Hal. specialize (Hal _ (in_others _ _ _ _ H N)). cbn in Hal. rewrite Nat.eqb_refl in Hal.
      destruct (outside l2); [reflexivity|discriminate]. }
    eapply wi_full; eauto. destruct o; exact Logic.I.
  - destruct (gi_box _ _ G d s Hb) as [k Hk].
    assert (Inv c t') as Iv.
    { pose proof (full_ok c HC (tb s) n) as X. rewrite Hr in X. apply X. eapply out_inv; [exact Hk|]. intros t2 o2 l2 H. apply view_at in H.
      destruct (Nat.eq_dec t2 t) as [->|N]; [rewrite Ht in H; injection H as _ <-; reflexivity|].
      unfold alone in Hal. rewrite forallb_forall in Hal. specialize (Hal _ (in_others _ _ _ _ H N)). cbn in Hal. rewrite Nat.eqb_refl in Hal.
      destruct (outside l2); [reflexivity|discriminate]. }
    eapply wi_full; eauto. pose proof (proj2 (view_at (w_now w) d t o LFull) Ht) as Hv.
    pose proof (proj1 (cb_ti _ _ _ _ (proj1 Hk) _ _ _ Hv)) as Wf. destruct o as [p| |]; try contradiction. destruct p; try discriminate Wf. exact Logic.I.
  - eapply wi_quiet; [exact I|exact Ht|intros d' []|intros d' [[]|[]]| |intros d'; exact Logic.I|discriminate].
    intros d'. cbn. destruct (Nat.eqb_spec d d') as [<-|]; cbn; [|exact Logic.I]. split; [reflexivity|].
    destruct (gi_at _ _ G _ _ _ _ Ht) as [s Hb]. destruct (gi_box _ _ G d s Hb) as [k Hk]. pose proof (proj2 (view_at (w_now w) d t o _) Ht) as Hv.
    apply (cb_ti _ _ _ _ (proj1 Hk) _ _ _ Hv).
  - eapply wi_quiet; [exact I|exact Ht|intros d' []|intros d' [[]|[]]|intros d'; exact Logic.I|intros d'; exact Logic.I|discriminate].
  - eapply wi_whole; eassumption.
  - eapply wi_quiet; [exact I|exact Ht|intros d' []|intros d' [[]|[]]|intros d'; exact Logic.I|intros d'; exact Logic.I|discriminate].
  - rewrite <- (set_th_same (w_now w) t Idle Ht) at 1. eapply wi_quiet; [exact I|exact Ht|intros d' []|intros d' [[]|[]]|intros d'; exact Logic.I|intros d'; exact Logic.I|discriminate].
  - rewrite <- (set_th_same (w_now w) t Idle Ht) at 1. eapply wi_quiet; [exact I|exact Ht|intros d' []|intros d' [[]|[]]|intros d'; exact Logic.I|intros d'; exact Logic.I|discriminate].
Qed.
Lemma wi_init n : WI (MkW (Conf [] (repeat Idle n)) [] []).
Proof.
  constructor; cbn [w_now w_past w_log].
  - reflexivity.
  - intros d s H. unfold box in H. cbn in H. destruct d; discriminate.
  - intros t d o l H. apply nth_error_In in H. apply repeat_spec in H. discriminate.
  - intros i u a d H. destruct i; discriminate.
  - intros i j u v a b _ H. destruct i; discriminate.
Qed.
Lemma reach_wi (P : conf -> Prop) n w : (forall C, P C -> counters_fit C) -> wruns P n w -> WI w.
Proof.
  intros HP H. induction H as [H|w w' H IH St HP']; [apply wi_init|]. eapply wi_step; [exact IH| |exact St]. apply HP. destruct H; assumption.
Qed.
End WSys2.
