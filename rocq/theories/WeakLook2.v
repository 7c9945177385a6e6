(** What lookups find in executions of WeakModel.v: the second invariant holds of every container. *)
From Coq Require Import NArith Bool List Arith Lia ZifyBool ZifyNat ZifyN Permutation.
From Verif Require Import FloatModel SizeModel SizeProofs GroupModel GroupProofs GroupSpec FoaModel FoaGroup FoaBase FoaFind FoaArr FoaInv FoaRehash FoaSpec FoaWorld FoaRun ConcSpec ConcModel ConcInv ConcStep ConcStep2 ConcStep3 ConcSys ConcSys2
  WeakModel WeakHb WeakStep WeakEff WeakInv WeakInv2 WeakInv3 WeakDep WeakSee WeakSys WeakSys2 WeakLook.
Import ListNotations.
Local Open Scope N_scope.
Notation set_nth := FoaModel.set_nth.

Section WLook2.
Context {K V : Type} (c : Cfg K V) (st : bool).
Hypothesis HC : good_cfg c.
Notation Sh := (@Sh K V).
Notation pop := (pop K V). Notation cop := (cop K V). Notation loc := (@loc K V). Notation cres := (cres K V). Notation eff := (@eff K V).
Notation ent := (option (cop * loc)).
Notation CBase := (CBase c). Notation CInv := (CInv c). Notation TI := (TI c). Notation hk := (hk c).
Notation wact := (@wact K V). Notation wev := (@wev K V). Notation W := (@W K V). Notation conf := (@conf K V). Notation pc := (@pc K V).
Notation hb := (@hb K V st). Notation knows := (@knows K V st). Notation readable := (@readable K V st). Notation sees := (@sees K V st). Notation made_known := (@made_known K V st).
Notation DInv := (DInv c st). Notation LInv := (LInv c st). Notation WI := (WI c st). Notation wstep := (@wstep K V c st). Notation wruns := (@wruns K V c st).
Implicit Type log : list wev. Implicit Type w : W.

Definition LI w : Prop := forall d s k ep, box (w_now w) d = Some s -> DInv (w_log w) (hist w d) (views (w_now w) d) d s k ep -> LInv (w_log w) (hist w d) (views (w_now w) d) d s k ep.

Lemma same_ep log H vs d s k ep t (a : wact) H' vs' s' k' ep' : DInv log H vs d s k ep -> DInv (log ++ [(t, a)]) H' vs' d s' k' ep' -> ~ replaces a d -> ep' = ep.
Proof.
  intros D D' NR. destruct (d_ep _ _ _ _ _ _ _ _ _ D) as (u & b & E & R). destruct (d_ep _ _ _ _ _ _ _ _ _ D') as (u' & b' & E' & R').
  apply nth_snoc_cases in E' as [E'|[_ E']]; [|injection E' as -> ->; contradiction].
  destruct (Nat.lt_trichotomy ep ep') as [L|[L|L]]; [destruct (d_last _ _ _ _ _ _ _ _ _ D ep' u' b' L E' R')|auto|].
  destruct (d_last _ _ _ _ _ _ _ _ _ D' ep u b L (nth_keep _ _ _ _ E) R).
Qed.
Lemma same_k log H vs d (s : Sh) k ep log' H' vs' (s' : Sh) k' ep' : DInv log H vs d s k ep -> DInv log' H' vs' d s' k' ep' -> a_mask (arr (tb s')) = a_mask (arr (tb s)) -> k' = k.
Proof.
  intros D D' E. pose proof (fr_geo _ _ _ (cb_fr _ _ _ _ (proj1 (d_inv _ _ _ _ _ _ _ _ _ D)))) as G. pose proof (fr_geo _ _ _ (cb_fr _ _ _ _ (proj1 (d_inv _ _ _ _ _ _ _ _ _ D')))) as G'.
  pose proof (ge_mask _ _ G) as M. pose proof (ge_mask _ _ G') as M'. unfold A in M, M'. rewrite E, M in M'.
  pose proof (pow2_pos k). pose proof (pow2_pos k'). assert (2 ^ k = 2 ^ k') as Z by (clear - M' H0 H1; lia). apply (N.pow_inj_r 2); [lia|]. symmetry. exact Z.
Qed.
Lemma li_frame w C t a d s k ep : WI w -> LI w -> box (w_now w) d = Some s -> box C d = Some s -> ~ replaces a d -> ~ local a d ->
  (forall u o l, nth_error (views C d) u = Some (Some (o, l)) -> nth_error (views (w_now w) d) u = Some (Some (o, l)) \/ outside l = true) ->
  (forall o l, nth_error (views (w_now w) d) t = Some (Some (o, l)) -> outside l = false -> forall d o, a <> WCall d o) ->
  DInv (w_log w ++ [(t, a)]) (hist (ext w C t a) d) (views C d) d s k ep -> LInv (w_log w ++ [(t, a)]) (hist (ext w C t a) d) (views C d) d s k ep.
Proof.
  intros I L Hb Hb' NR NL V1 V2 D'. destruct (wi_box _ _ _ I d s Hb) as (k0 & ep0 & D). pose proof (wi_len _ _ _ I) as Ln.
  assert (ep = ep0) as -> by (eapply same_ep; eassumption). assert (k = k0) as -> by (eapply same_k; [exact D|exact D'|reflexivity]).
  apply (linv_frame c st (w_log w) (hist w d) (views (w_now w) d)); auto.
  - intros i Li. apply hist_ext; assumption.
  - rewrite hist_end by exact Ln. exact Hb'.
  - intros u o l E O ->. eapply V2; eassumption.
Qed.
Lemma li_quiet w t x p a d s k ep : WI w -> LI w -> nth_error (th (w_now w)) t = Some x -> box (w_now w) d = Some s -> ~ replaces a d -> ~ local a d ->
  quiet (view d x) -> quiet (view d p) ->
  DInv (w_log w ++ [(t, a)]) (hist (ext w (set_th (w_now w) t p) t a) d) (views (set_th (w_now w) t p) d) d s k ep ->
  LInv (w_log w ++ [(t, a)]) (hist (ext w (set_th (w_now w) t p) t a) d) (views (set_th (w_now w) t p) d) d s k ep.
Proof.
  intros I L Ht Hb NR NL Qx Qp D'. assert (nth_error (views (w_now w) d) t = Some (view d x)) as Hv by (unfold views; rewrite nth_error_map, Ht; reflexivity).
  apply li_frame; auto.
  - rewrite views_th. intros u o l E. destruct (set_cases _ _ _ _ _ _ Hv E) as [[-> Z]|[_ Z]]; [right|left; exact Z]. rewrite <- Z in Qp. apply Qp.
  - intros o l E O. rewrite Hv in E. injection E as E. rewrite E in Qx. destruct Qx as [Qx _]. congruence.
Qed.
(** after an exclusive access nobody is inside *)
Lemma new_out log H vs d s k t (a : wact) : DInv (log ++ [(t, a)]) H vs d s k (length log) -> (forall o l, nth_error vs t = Some (Some (o, l)) -> outside l = true) -> Out vs.
Proof.
  intros D Ho u o l E. destruct (outside l) eqn:O; [reflexivity|]. destruct (d_know _ _ _ _ _ _ _ _ _ D u o l E O) as (j & b & Ej & Hj).
  assert (j = length log) as ->.
  { pose proof (nth_lt _ _ _ Ej) as Lj. rewrite app_length in Lj. cbn [length] in Lj. destruct Hj as [->|Hj]; [reflexivity|]. apply hb_bounds in Hj. lia. }
  rewrite nth_end in Ej. injection Ej as <- _. specialize (Ho o l E). congruence.
Qed.
Lemma new_ep log H vs d s k ep t (a : wact) : DInv (log ++ [(t, a)]) H vs d s k ep -> replaces a d -> ep = length log.
Proof.
  intros D R. destruct (d_ep _ _ _ _ _ _ _ _ _ D) as (u & b & E & _). pose proof (nth_lt _ _ _ E) as L. rewrite app_length in L. cbn [length] in L.
  destruct (Nat.eq_dec ep (length log)) as [|N]; [assumption|]. destruct (d_last _ _ _ _ _ _ _ _ _ D (length log) t a ltac:(lia) (nth_end _ _) R).
Qed.
Lemma li_new w C t a d s k ep : WI w -> box C d = Some s -> replaces a d -> (forall o l, nth_error (views C d) t = Some (Some (o, l)) -> outside l = true) ->
  DInv (w_log w ++ [(t, a)]) (hist (ext w C t a) d) (views C d) d s k ep -> LInv (w_log w ++ [(t, a)]) (hist (ext w C t a) d) (views C d) d s k ep.
Proof.
  intros I Hb R Ho D. pose proof (new_ep _ _ _ _ _ _ _ _ _ D R) as ->. apply (linv_new c st); [apply D|eapply new_out; eassumption|]. rewrite hist_end by apply I. exact Hb.
Qed.
Lemma li_step w w' : WI w -> counters_fit (w_now w) -> LI w -> wstep w w' -> LI w'.
Proof.
  intros I NW L S. pose proof (wi_step c st HC w w' I NW S) as I'.
  destruct S as [t d o s Ht Hb Hmk|t d o l s so rd i thr e l' a s' Ht Hb Se Es Em Ec Hrd Hs Ha|t d o s n t' n' cn Ht Hb Hal Hr Hc|t d o s n kd t' n' cn Ht Hb Hal Hr Hc|
    t d o r Ht|t o Ht|t o n r w' bs Ht Hp He Hbk Hun Hmk Hde|t r Ht|t m Ht Nm|t m Ht]; intros d0 s0 k ep H0 D0; cbn [ext w_now w_log w_past] in H0, D0 |- *.
  - eapply li_quiet; [exact I|exact L|exact Ht|exact H0|intros [[]|[]]|intros []|exact Logic.I| |exact D0]. cbn. destruct (Nat.eqb d d0); cbn; [split; [reflexivity|destruct o; exact Logic.I]|exact Logic.I].
  - assert (box (set_th (w_now w) t (At d o l')) d = Some s) as Hb1 by exact Hb. pose proof H0 as H1. rewrite (box_set _ _ _ _ _ Hb1) in H1. destruct (Nat.eqb_spec d0 d) as [->|N].
    + injection H1 as <-. destruct (wi_box _ _ _ I d s Hb) as (k1 & ep1 & D). pose proof (proj2 (view_at (w_now w) d t o l) Ht) as Hv.
      assert (ep = ep1) as -> by (eapply same_ep; [exact D|exact D0|intros [[]|[]]]).
      assert (k = k1) as ->.
      { eapply same_k; [exact D|exact D0|]. destruct (apply_box e s s' Ha) as (_ & _ & _ & _ & _ & E & _). exact E. }
      change (views (set_box (set_th (w_now w) t (At d o l')) d s') d) with (views (set_th (w_now w) t (At d o l')) d) in *. rewrite views_th in *. cbn [view] in *. rewrite Nat.eqb_refl in *.
      apply (local_linv c st w t d o l s so k1 ep1 (free_for (w_now w) t d) i thr (wi_len _ _ _ I) D (L d s k1 ep1 Hb D) Hv Se Es Em Ec e l' a s' rd _ Hs Ha D0 H0).
    + rewrite box_th in H1. eapply li_frame; [exact I|exact L|exact H1|exact H0|intros [[]|[]]|cbn [local]; congruence| |discriminate|exact D0].
      change (views (set_box (set_th (w_now w) t (At d o l')) d s') d0) with (views (set_th (w_now w) t (At d o l')) d0). rewrite views_th. cbn [view]. destruct (Nat.eqb_spec d d0) as [E|_]; [congruence|].
      intros u o2 l2 E. left. destruct (Nat.eq_dec u t) as [->|Nt]; [|rewrite others_err in E by exact Nt; exact E].
      assert (nth_error (views (w_now w) d0) t = Some None) as Hv. { unfold views. rewrite nth_error_map, Ht. cbn. destruct (Nat.eqb_spec d d0) as [E'|_]; [congruence|reflexivity]. }
      erewrite self_err in E by exact Hv. discriminate.
  - assert (box (set_th (w_now w) t (At d o LEnter)) d = Some s) as Hb1 by exact Hb. pose proof H0 as H1. rewrite (box_set _ _ _ _ _ Hb1) in H1. destruct (Nat.eqb_spec d0 d) as [->|N].
    + eapply li_new; [exact I|exact H0|left; left; reflexivity| |exact D0].
      change (views (set_box (set_th (w_now w) t (At d o LEnter)) d (MkSh t' cn)) d) with (views (set_th (w_now w) t (At d o LEnter)) d). rewrite views_th. cbn [view]. rewrite Nat.eqb_refl.
      pose proof (proj2 (view_at (w_now w) d t o LFull) Ht) as Hv. erewrite self_err by exact Hv. intros o2 l2 E. injection E as <- <-. reflexivity.
    + rewrite box_th in H1. eapply li_frame; [exact I|exact L|exact H1|exact H0|intros [[E|[]]|[]]; congruence|intros []| |discriminate|exact D0].
      change (views (set_box (set_th (w_now w) t (At d o LEnter)) d (MkSh t' cn)) d0) with (views (set_th (w_now w) t (At d o LEnter)) d0). rewrite views_th. cbn [view]. destruct (Nat.eqb_spec d d0) as [E|_]; [congruence|].
      intros u o2 l2 E. left. destruct (Nat.eq_dec u t) as [->|Nt]; [|rewrite others_err in E by exact Nt; exact E].
      assert (nth_error (views (w_now w) d0) t = Some None) as Hv. { unfold views. rewrite nth_error_map, Ht. cbn. destruct (Nat.eqb_spec d d0) as [E'|_]; [congruence|reflexivity]. }
      erewrite self_err in E by exact Hv. discriminate.
  - assert (box (set_th (w_now w) t (At d o (LRet RThrew))) d = Some s) as Hb1 by exact Hb. pose proof H0 as H1. rewrite (box_set _ _ _ _ _ Hb1) in H1. destruct (Nat.eqb_spec d0 d) as [->|N].
    + eapply li_new; [exact I|exact H0|left; left; reflexivity| |exact D0].
      change (views (set_box (set_th (w_now w) t (At d o (LRet RThrew))) d (MkSh t' cn)) d) with (views (set_th (w_now w) t (At d o (LRet RThrew))) d). rewrite views_th. cbn [view]. rewrite Nat.eqb_refl.
      pose proof (proj2 (view_at (w_now w) d t o LFull) Ht) as Hv. erewrite self_err by exact Hv. intros o2 l2 E. injection E as <- <-. reflexivity.
    + rewrite box_th in H1. eapply li_frame; [exact I|exact L|exact H1|exact H0|intros [[E|[]]|[]]; congruence|intros []| |discriminate|exact D0].
      change (views (set_box (set_th (w_now w) t (At d o (LRet RThrew))) d (MkSh t' cn)) d0) with (views (set_th (w_now w) t (At d o (LRet RThrew))) d0). rewrite views_th. cbn [view]. destruct (Nat.eqb_spec d d0) as [E|_]; [congruence|].
      intros u o2 l2 E. left. destruct (Nat.eq_dec u t) as [->|Nt]; [|rewrite others_err in E by exact Nt; exact E].
      assert (nth_error (views (w_now w) d0) t = Some None) as Hv. { unfold views. rewrite nth_error_map, Ht. cbn. destruct (Nat.eqb_spec d d0) as [E'|_]; [congruence|reflexivity]. }
      erewrite self_err in E by exact Hv. discriminate.
  - eapply li_quiet; [exact I|exact L|exact Ht|exact H0|intros [[]|[]]|intros []| |exact Logic.I|exact D0].
    cbn. destruct (Nat.eqb_spec d d0) as [<-|]; cbn; [|exact Logic.I]. split; [reflexivity|].
    destruct (wi_at _ _ _ I _ _ _ _ Ht) as [s Hb]. destruct (wi_box _ _ _ I d s Hb) as (k1 & ep1 & D). pose proof (proj2 (view_at (w_now w) d t o _) Ht) as Hv.
    apply (cb_ti _ _ _ _ (proj1 (d_inv _ _ _ _ _ _ _ _ _ D)) _ _ _ Hv).
  - eapply li_quiet; [exact I|exact L|exact Ht|exact H0|intros [[]|[]]|intros []|exact Logic.I|exact Logic.I|exact D0].
  - set (C := Conf bs (set_nth (th (w_now w)) t (RetW r))) in *. assert (forall d, views C d = views (w_now w) d) as Hvw.
    { intros d. unfold views, C. cbn [th]. rewrite map_set_nth. apply set_nth_same. rewrite nth_error_map, Ht. reflexivity. }
    assert (nth_error (views C d0) t = Some None) as Hv. { rewrite Hvw. unfold views. rewrite nth_error_map, Ht. reflexivity. }
    destruct (Nat.lt_ge_cases d0 (length (boxes (w_now w)))) as [Ld|Ld].
    + destruct (in_dec Nat.eq_dec d0 (touched o)) as [Hd|Hd].
      * eapply li_new; [exact I|exact H0|left; exact Hd| |exact D0]. rewrite Hv. discriminate.
      * eapply li_frame; [exact I|exact L| |exact H0| |intros []| |discriminate|exact D0].
        -- unfold box. rewrite <- (Hun d0 Ld Hd). exact H0.
        -- intros [Z|Z]; [exact (Hd Z)|]. cbn [creates] in Z. apply in_seq in Z. lia.
        -- intros u o2 l2 E. left. rewrite Hvw in E. exact E.
    + eapply li_new; [exact I|exact H0|right; cbn [creates]; apply in_seq| |exact D0].
      * pose proof (box_lt _ _ _ H0) as Z. unfold C in Z. cbn [boxes] in Z. lia.
      * rewrite Hv. discriminate.
  - eapply li_quiet; [exact I|exact L|exact Ht|exact H0|intros [[]|[]]|intros []|exact Logic.I|exact Logic.I|exact D0].
  - eapply li_frame; [exact I|exact L|exact H0|exact H0|intros [[]|[]]|intros []|auto|discriminate|exact D0].
  - eapply li_frame; [exact I|exact L|exact H0|exact H0|intros [[]|[]]|intros []|auto|discriminate|exact D0].
Qed.
Lemma reach_li (P : conf -> Prop) n w : (forall C, P C -> counters_fit C) -> wruns P n w -> LI w.
Proof.
  intros HP H. induction H as [H|w w' H IH St HP'].
  - intros d s k ep Hb. unfold box in Hb. cbn in Hb. destruct d; discriminate.
  - eapply li_step; [eapply reach_wi; eassumption| |exact IH|exact St]. apply HP. destruct H; assumption.
Qed.
End WLook2.
