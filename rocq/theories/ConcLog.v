(** Concurrent containers: the instants of the operations of a run. *)
From Coq Require Import NArith Bool List Arith Lia ZifyBool ZifyNat ZifyN Permutation.
From Verif Require Import FloatModel SizeModel SizeProofs GroupModel GroupSpec FoaModel FoaGroup FoaBase FoaFind FoaArr FoaInv FoaRehash FoaSpec FoaWorld FoaRun
  ConcSpec ConcModel ConcInv ConcStep ConcStep2 ConcStep3 ConcSys ConcSys2 ConcLin1 ConcLin2 ConcLin3 ConcProps.
Import ListNotations.
Local Open Scope N_scope.
Notation set_nth := FoaModel.set_nth.

Section Log.
Context {K V : Type} (c : Cfg K V).
Hypothesis HC : good_cfg c.
Notation Sh := (@Sh K V).
Notation pop := (pop K V). Notation cop := (cop K V). Notation loc := (@loc K V). Notation cres := (cres K V).
Notation CInv := (CInv c).
Notation conf := (@conf K V). Notation pc := (@pc K V).
Notation GInv := (GInv c).
Notation event := (event K V).

(** the calls in progress *)
Definition calls_of (C : conf) (t : nat) : status K V :=
  match nth_error (th C) t with
  | Some (At d o l) => Pend (OnC d o) (lins o l)
  | Some (AtW o) => Pend (Whole o) []
  | _ => Free end.
Lemma ginv_instant C t a C' : GInv C -> gstep c C (Some (ELin t a)) C' -> exists ca done, calls_of C t = Pend ca done /\
  takes_effect (keqf c) (moves c) (calls_of C) t ca done a (absw C) (absw C').
Proof.
  intros G St. remember (Some (ELin t a)) as ev eqn:Ee.
  destruct St as [C t1 d o s Ht Hb|C t1 d o l s i thr e l' a1 s' Ht Hb Hs Ha|C t1 d o s n t' n' cn Ht Hb Hal Hr Hc|
    C t1 d o s n kd t' n' cn Ht Hb Hal Hr Hc|C t1 d o r Ht|C t1 o Ht|C t1 o n r w bs Ht Hp He Hbk|C t1 r Ht]; try discriminate Ee.
  - destruct a1 as [x|]; [|discriminate]. cbn in Ee. injection Ee as -> ->. unfold calls_of at 1. rewrite Ht. eexists _, _. split; [reflexivity|].
    destruct (gi_box _ _ G d s Hb) as [k Hk]. pose proof (proj2 (view_at C d t o l) Ht) as Hv. pose proof Hk as [B U].
    pose proof (lin_ok c k s (views C d) t o l (free_for C t d) i thr Hk Hv) as X. rewrite Hs in X. cbn [lin_good] in X. destruct X as (X1 & X2 & X3).
    specialize (X2 s' Ha). destruct (ap_ids _ _ _ Ha) as (I1 & I2 & I3). rewrite (absw_set C d s) by exact Hb.
    destruct o as [q|bx md f|], a as [r|e1 b|n|r]; cbn [effect] in X2; try contradiction; cbn [takes_effect].
    + destruct X2 as [E0 X2]. split; [destruct (lins (Point q) l); [reflexivity|discriminate]|]. exists (vw s), (elems (A s')).
      split; [apply absw_box, Hb|]. split; [exact X2|]. unfold vw. cbn. congruence.
    + exists (vw s), (elems (A s')). split; [apply absw_box, Hb|]. split; [exact X2|]. unfold vw. cbn. congruence.
    + destruct X2 as (E0 & E1 & E2). destruct (wsum_count (views C d)) as (ts & T1 & T2 & T3).
      split; [destruct (lins SizeOf l); [reflexivity|discriminate]|]. split; [unfold vw; rewrite I1, I2, I3, E1; apply set_same, absw_box, Hb|].
      exists (vw s), ts. split; [apply absw_box, Hb|]. split; [|cbn; lia]. split; [exact T1|]. split.
      * intros Hin. destruct (T2 t Hin) as (o2 & l2 & Z1 & Z2). rewrite Hv in Z1. injection Z1 as <- <-.
        destruct (cb_ti _ _ _ _ B _ _ _ Hv) as [W _]. destruct l; cbn [wf] in W; try contradiction; apply Z2; reflexivity.
      * intros t2 Hin. destruct (T2 t2 Hin) as (o2 & l2 & Z1 & _). apply view_at in Z1. unfold calls_of. rewrite Z1. eauto.
  - injection Ee as -> <-. unfold calls_of at 1. rewrite Ht. eexists _, _. split; [reflexivity|].
    destruct (gi_box _ _ G d s Hb) as [k Hk]. pose proof (alone_out C t d o LFull Ht eq_refl Hal) as Ho.
    pose proof (out_inv c k s _ Hk Ho) as Iv. pose proof (full_ok c HC (tb s) n Iv) as X. rewrite Hr in X. destruct X as (I' & [J1 J2 J3] & lost & P' & Hm).
    pose proof (proj2 (view_at C d t o LFull) Ht) as Hv. pose proof (proj1 (cb_ti _ _ _ _ (proj1 Hk) _ _ _ Hv)) as W.
    destruct o as [p| |]; try contradiction. cbn [wf] in W. cbn [takes_effect lins]. split; [reflexivity|]. exists (vw s), (elems (arr t')).
    split; [apply absw_box, Hb|]. split.
    + destruct p as [| |bx k0 v0 f1 f2]; try discriminate W. cbn [pspec]. destruct (moves c) eqn:Em.
      * right. right. right. exists lost. split; [reflexivity|exact P'].
      * left. rewrite (Hm eq_refl) in P'. symmetry. exact P'.
    + rewrite (absw_set C d s) by exact Hb. unfold vw, A. cbn. congruence.
  - injection Ee as -> <-. unfold calls_of at 1. rewrite Ht. eexists _, _. split; [reflexivity|]. cbn [takes_effect]. split; [reflexivity|].
    eapply ginv_whole; eassumption.
Qed.

(** the events of one thread *)
Definition ev_by (t : nat) (e : event) : bool := match e with ECall t' _ | ELin t' _ | ERet t' _ => Nat.eqb t' t end.
Definition Log (C : conf) (es : list event) : Prop := forall t p, nth_error (th C) t = Some p -> exists pre,
  match p with
  | Idle => True
  | At d o l => filter (ev_by t) es = pre ++ ECall t (OnC d o) :: map (ELin t) (lins o l)
  | AtW o => filter (ev_by t) es = pre ++ [ECall t (Whole o)]
  | RetW r => exists o, filter (ev_by t) es = pre ++ [ECall t (Whole o); ELin t (AWhole r)]
  end.
Definition ev_opt (e : option event) : list event := match e with Some x => [x] | None => [] end.
Lemma log_other C es e C' t : Log C es -> (forall x, e = Some x -> ev_by t x = true) ->
  (forall t', t' <> t -> nth_error (th C') t' = nth_error (th C) t') ->
  (forall p, nth_error (th C') t = Some p -> exists pre, match p with
    | Idle => True
    | At d o l => filter (ev_by t) (es ++ ev_opt e) = pre ++ ECall t (OnC d o) :: map (ELin t) (lins o l)
    | AtW o => filter (ev_by t) (es ++ ev_opt e) = pre ++ [ECall t (Whole o)]
    | RetW r => exists o, filter (ev_by t) (es ++ ev_opt e) = pre ++ [ECall t (Whole o); ELin t (AWhole r)]
    end) -> Log C' (es ++ ev_opt e).
Proof.
  intros L He Ho Ht t' p Hp. destruct (Nat.eq_dec t' t) as [->|N]; [apply Ht, Hp|]. rewrite Ho in Hp by exact N.
  assert (filter (ev_by t') (es ++ ev_opt e) = filter (ev_by t') es) as ->; [|apply L, Hp].
  rewrite filter_app. destruct e as [x|]; cbn [ev_opt filter]; [|apply app_nil_r]. specialize (He x eq_refl).
  assert (ev_by t' x = false) as ->; [|apply app_nil_r]. destruct x; cbn in *; apply Nat.eqb_eq in He; subst; apply Nat.eqb_neq; congruence.
Qed.
Lemma log_step C es e C' : GInv C -> gstep c C e C' -> Log C es -> Log C' (es ++ ev_opt e).
Proof.
  intros G St L. destruct St as [C t d o s Ht Hb|C t d o l s i thr e l' a s' Ht Hb Hs Ha|C t d o s n t' n' cn Ht Hb Hal Hr Hc|
    C t d o s n kd t' n' cn Ht Hb Hal Hr Hc|C t d o r Ht|C t o Ht|C t o n r w bs Ht Hp He Hbk|C t r Ht].
  - apply (log_other C es _ _ t L); [intros x [= <-]; apply Nat.eqb_refl|intros; apply others_err; assumption|].
    intros p Hp. cbn [set_th th] in Hp. rewrite (self_err _ _ _ _ Ht) in Hp. injection Hp as <-. exists (filter (ev_by t) es).
    rewrite filter_app. cbn. rewrite Nat.eqb_refl. destruct o; reflexivity.
  - apply (log_other C es _ _ t L); [intros x; destruct a; [intros [= <-]; apply Nat.eqb_refl|discriminate]|intros; apply others_err; assumption|].
    intros p Hp. cbn [set_box set_th th] in Hp. rewrite (self_err _ _ _ _ Ht) in Hp. injection Hp as <-. destruct (L t _ Ht) as [pre Lp]. exists pre.
    destruct (gi_box _ _ G d s Hb) as [k Hk]. pose proof (proj2 (view_at C d t o l) Ht) as Hv.
    pose proof (lin_ok c k s (views C d) t o l (free_for C t d) i thr Hk Hv) as X. rewrite Hs in X. cbn [lin_good] in X. destruct X as (X1 & _).
    rewrite filter_app, Lp, X1, map_app, <- app_assoc, <- app_comm_cons. do 2 f_equal.
    destruct a; cbn; [rewrite Nat.eqb_refl|]; reflexivity.
  - apply (log_other C es _ _ t L); [discriminate|intros; apply others_err; assumption|].
    intros p Hp. cbn [set_box set_th th] in Hp. rewrite (self_err _ _ _ _ Ht) in Hp. injection Hp as <-. destruct (L t _ Ht) as [pre Lp]. exists pre.
    cbn [ev_opt]. rewrite app_nil_r, Lp. destruct o; reflexivity.
  - apply (log_other C es _ _ t L); [intros x [= <-]; apply Nat.eqb_refl|intros; apply others_err; assumption|].
    intros p Hp. cbn [set_box set_th th] in Hp. rewrite (self_err _ _ _ _ Ht) in Hp. injection Hp as <-. destruct (L t _ Ht) as [pre Lp]. exists pre.
    destruct (gi_box _ _ G d s Hb) as [k Hk]. pose proof (proj2 (view_at C d t o _) Ht) as Hv. pose proof (proj1 (cb_ti _ _ _ _ (proj1 Hk) _ _ _ Hv)) as W.
    destruct o as [p| |]; try contradiction. rewrite filter_app, Lp. cbn. rewrite Nat.eqb_refl, <- app_assoc. reflexivity.
  - apply (log_other C es _ _ t L); [intros x [= <-]; apply Nat.eqb_refl|intros; apply others_err; assumption|].
    intros p Hp. cbn [set_th th] in Hp. rewrite (self_err _ _ _ _ Ht) in Hp. injection Hp as <-. exists []. exact I.
  - apply (log_other C es _ _ t L); [intros x [= <-]; apply Nat.eqb_refl|intros; apply others_err; assumption|].
    intros p Hp. cbn [set_th th] in Hp. rewrite (self_err _ _ _ _ Ht) in Hp. injection Hp as <-. exists (filter (ev_by t) es).
    rewrite filter_app. cbn. rewrite Nat.eqb_refl. reflexivity.
  - apply (log_other C es _ _ t L); [intros x [= <-]; apply Nat.eqb_refl|intros; apply others_err; assumption|].
    intros p Hp'. cbn [th] in Hp'. rewrite (self_err _ _ _ _ Ht) in Hp'. injection Hp' as <-. destruct (L t _ Ht) as [pre Lp]. exists pre, o.
    rewrite filter_app, Lp. cbn. rewrite Nat.eqb_refl, <- app_assoc. reflexivity.
  - apply (log_other C es _ _ t L); [intros x [= <-]; apply Nat.eqb_refl|intros; apply others_err; assumption|].
    intros p Hp. cbn [set_th th] in Hp. rewrite (self_err _ _ _ _ Ht) in Hp. injection Hp as <-. exists []. exact I.
Qed.
Lemma reach_log n es C : runs_with c counters_fit n es C -> Log C es.
Proof.
  intros R. induction R as [_|es C e C' R IH St Hf'].
  - intros t p H. cbn [th] in H. apply nth_error_In, repeat_spec in H. subst p. exists []. exact I.
  - apply (log_step C es e C'); [eapply reach_ginv; [exact HC| |exact R]; auto|exact St|exact IH].
Qed.
(** runs can be cut at any event *)
Lemma run_split P n es C : runs_with c P n es C -> forall es1 x es2, es = es1 ++ x :: es2 ->
  exists C1 C2, runs_with c P n es1 C1 /\ gstep c C1 (Some x) C2 /\ runs_with c P n (es1 ++ [x]) C2.
Proof.
  intros R. induction R as [H|es C e C' R IH St Hf']; intros es1 x es2 E.
  - destruct es1; discriminate.
  - destruct e as [y|].
    + destruct es2 as [|z es2] using rev_ind.
      * apply app_inj_tail in E as [-> ->]. exists C, C'. split; [exact R|]. split; [exact St|]. exact (r_snoc c P n es1 C (Some x) C' R St Hf').
      * rewrite app_comm_cons, app_assoc in E. apply app_inj_tail in E as [E _]. eapply IH; exact E.
    + rewrite app_nil_r in E. eapply IH; exact E.
Qed.
Definition instants (o : cop) (r : cres) (done : list (act K V)) : Prop :=
  match o with
  | Point _ => done = match r with RNone => [] | _ => [APoint r] end
  | Bulk x m f => exists l st, r = RBulk l st /\ done = map (fun eb => AElem (fst eb) (snd eb)) l /\ bulk_ends m f l st
  | SizeOf => exists n, r = RSize n /\ done = [ASize n]
  end.
Lemma completed n es1 t r es2 C : runs_with c counters_fit n (es1 ++ ERet t (AnsC r) :: es2) C ->
  exists pre d o done, filter (ev_by t) es1 = pre ++ ECall t (OnC d o) :: map (ELin t) done /\ instants o r done.
Proof.
  intros R. destruct (run_split _ _ _ _ R es1 _ es2 eq_refl) as (C1 & C2 & R1 & St & _). pose proof (reach_log _ _ _ R1) as L.
  assert (GInv C1) as G by (eapply reach_ginv; [exact HC| |exact R1]; auto).
  remember (Some (ERet t (AnsC r))) as ev eqn:Ev. destruct St; try discriminate Ev; [destruct a; discriminate Ev|]. injection Ev as -> ->.
  destruct (L _ _ H) as [pre E]. exists pre, d, o, (lins o (LRet r)). split; [exact E|].
  destruct (gi_at _ _ G _ _ _ _ H) as [s Hb]. destruct (gi_box _ _ G d s Hb) as [k Hk]. pose proof (proj2 (view_at _ d t o _) H) as Hv.
  pose proof (proj1 (cb_ti _ _ _ _ (proj1 Hk) _ _ _ Hv)) as W. destruct o as [p|x m f|]; cbn [wf] in W; cbn [instants lins].
  - reflexivity.
  - destruct r; try contradiction. eauto.
  - destruct r; try contradiction. eauto.
Qed.
End Log.
