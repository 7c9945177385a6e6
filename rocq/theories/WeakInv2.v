(** The invariant of WeakInv.v is preserved by the events that do not access the container, and by exclusive accesses. *)
From Coq Require Import NArith Bool List Arith Lia ZifyBool ZifyNat ZifyN.
From Verif Require Import FloatModel SizeModel SizeProofs GroupModel GroupProofs GroupSpec FoaModel FoaGroup FoaBase FoaFind FoaArr FoaInv FoaSpec FoaWorld ConcSpec ConcModel ConcInv ConcStep ConcStep2 ConcStep3 ConcSys WeakModel WeakHb WeakStep WeakEff WeakInv.
Import ListNotations.
Local Open Scope N_scope.
Notation set_nth := FoaModel.set_nth.

Section WInv2.
Context {K V : Type} (c : Cfg K V) (st : bool).
Notation arrays := (arrays K V).
Notation table := (table K V).
Notation Sh := (@Sh K V).
Notation pop := (pop K V). Notation cop := (cop K V). Notation loc := (@loc K V). Notation cres := (cres K V). Notation eff := (@eff K V).
Notation ent := (option (cop * loc)).
Notation CBase := (CBase c). Notation CUniq := (CUniq c). Notation CInv := (CInv c). Notation TI := (TI c). Notation TI1 := (TI1 c). Notation hk := (hk c).
Notation wact := (@wact K V). Notation wev := (@wev K V).
Notation hb := (@hb K V st). Notation sw := (@sw K V st). Notation knows := (@knows K V st).
Notation DInv := (DInv c st).
Implicit Type log : list wev.

Lemma leaves_keep log l2 i u d : (exists r b, (i <= r)%nat /\ nth_error log r = Some (u, b) /\ leaves b d) ->
  exists r b, (i <= r)%nat /\ nth_error (log ++ l2) r = Some (u, b) /\ leaves b d.
Proof. intros (r & b & L & E & Z). exists r, b. auto using nth_keep. Qed.
Lemma releases_keep log l2 i u d g x : (exists r b, (i <= r)%nat /\ nth_error log r = Some (u, b) /\ releases b d g x) ->
  exists r b, (i <= r)%nat /\ nth_error (log ++ l2) r = Some (u, b) /\ releases b d g x.
Proof. intros (r & b & L & E & Z). exists r, b. auto using nth_keep. Qed.
Lemma before_app log l2 v i : before st log v i -> before st (log ++ l2) v i.
Proof. destruct v; [apply hb_app|auto]. Qed.
Lemma outside_lock o (l : loc) : outside l = true -> lock_of o l = None.
Proof. destruct l; try discriminate; reflexivity. Qed.
Lemma locked_local (a : wact) d g x : locked a d g x -> local a d.
Proof. destruct a; cbn; tauto. Qed.

Lemma dinv_frame log H vs d s k ep t (a : wact) H' vs' : DInv log H vs d s k ep -> ~ replaces a d -> ~ local a d ->
  (forall i, (i <= length log)%nat -> H' i = H i) -> H' (S (length log)) = Some s -> CInv k s vs' ->
  (forall u o l, nth_error vs' u = Some (Some (o, l)) -> nth_error vs u = Some (Some (o, l)) \/
     (outside l = true /\ forall i t' a', nth_error log i = Some (t', a') -> creates a' d -> knows log u i)) ->
  (forall u o l, nth_error vs u = Some (Some (o, l)) -> outside l = false -> nth_error vs' u = Some (Some (o, l))) ->
  DInv (log ++ [(t, a)]) H' vs' d s k ep.
Proof.
  intros D NR NL HH Hn CI V1 V2. assert (Lep : (ep < length log)%nat) by (destruct (d_ep _ _ _ _ _ _ _ _ _ D) as (? & ? & E & _); eapply nth_lt; exact E).
  assert (HO : forall u g x, holds vs' u g x -> holds vs u g x).
  { intros u g x (o & l & E & El). exists o, l. split; [|exact El]. destruct (V1 u o l E) as [Z|[Z _]]; [exact Z|]. rewrite outside_lock in El by exact Z. discriminate. }
  assert (HI : forall u g x, holds vs u g x -> holds vs' u g x).
  { intros u g x (o & l & E & El). exists o, l. split; [|exact El]. apply V2; [exact E|]. destruct (outside l) eqn:Eo; [|reflexivity]. rewrite outside_lock in El by exact Eo. discriminate. }
  assert (Pk' : forall i q, Pk s vs' i q -> Pk s vs i q).
  { intros i q [Z|(t' & p & x & n & E & Z)]; [left; exact Z|right]. exists t', p, x, n. split; [|exact Z]. destruct (V1 _ _ _ E) as [Y|[Y _]]; [exact Y|discriminate]. }
  assert (NS : forall i t' a', nth_error (log ++ [(t, a)]) i = Some (t', a') -> local a' d \/ replaces a' d -> nth_error log i = Some (t', a')).
  { intros i t' a' E Z. apply nth_snoc_cases in E as [E|[_ E]]; [exact E|]. injection E as -> ->. destruct Z; contradiction. }
  constructor.
  - rewrite app_length, Nat.add_1_r. exact Hn.
  - destruct (d_ep _ _ _ _ _ _ _ _ _ D) as (t0 & a0 & E & Z). exists t0, a0. split; [apply nth_keep, E|exact Z].
  - intros i t0 a0 L E Z. apply (d_last _ _ _ _ _ _ _ _ _ D i t0 a0 L); auto.
  - exact CI.
  - intros i t0 a0 L E. apply nth_snoc_cases in E as [E|[-> E]].
    + pose proof (nth_lt _ _ _ E) as Ll. rewrite !HH by lia. apply (d_hist _ _ _ _ _ _ _ _ _ D i t0 a0 L E).
    + injection E as -> ->. exists s, s. rewrite HH by lia. split; [apply D|]. split; [exact Hn|]. split; [apply (fr_geo c), D|]. split.
      * destruct a; cbn [stepped]; auto. destruct (Nat.eqb_spec d0 d) as [->|]; [destruct NL; reflexivity|reflexivity].
      * destruct a; cbn [act_ok]; auto. intros ->. destruct NL; reflexivity.
  - intros i u a0 E Z. destruct (d_in _ _ _ _ _ _ _ _ _ D i u a0) as [(o & l & Y1 & Y2)|Y]; [apply NS; auto|exact Z| |].
    + left. exists o, l. split; [apply V2; assumption|exact Y2].
    + right. apply leaves_keep, Y.
  - intros u o l E Z. apply knows_app. destruct (V1 u o l E) as [Y|[Y _]]; [|congruence]. eapply (d_know _ _ _ _ _ _ _ _ _ D); eassumption.
  - intros u o l E i t0 a0 E0 Z. assert (nth_error log i = Some (t0, a0)) as E1 by (apply NS; [exact E0|right; right; exact Z]). apply knows_app.
    destruct (V1 u o l E) as [Y|[_ Y]]; [eapply (d_made _ _ _ _ _ _ _ _ _ D); eassumption|eapply Y; eassumption].
  - intros i t0 a0 L E Z. apply hb_app. eapply (d_old _ _ _ _ _ _ _ _ _ D); [exact L|apply NS; eassumption|exact Z].
  - intros i u a0 g x L E Z. assert (nth_error log i = Some (u, a0)) as E1 by (apply NS; [exact E|left; eapply locked_local; exact Z]).
    destruct (d_grp _ _ _ _ _ _ _ _ _ D i u a0 g x L E1 Z) as [Y|Y]; [left; auto|right; apply releases_keep, Y].
  - intros u g x Hu i u' a0 y L E Z XY. apply knows_app. eapply (d_hold _ _ _ _ _ _ _ _ _ D); [apply HO, Hu|exact L| |exact Z|exact XY].
    apply NS; [exact E|left; eapply locked_local; exact Z].
  - intros i q Hq h. destruct (d_pk _ _ _ _ _ _ _ _ _ D i q (Pk' _ _ Hq)) as (v & P1 & P2 & P3). fold h in P1, P3. exists v. split; [|split].
    + intros v' Ev. destruct (P1 v' Ev) as (u & a0 & L & E & Z). exists u, a0. auto using nth_keep.
    + intros i' u a0 L E Z. apply before_app. eapply P2; [exact L| |exact Z]. apply nth_snoc_cases in E as [E|[_ E]]; [exact E|]. injection E as -> ->.
      destruct (not_replaces_hits a d _ NR Z) as (o & l & e & l' & rd & -> & _). destruct NL. reflexivity.
    + eapply path_mono; [|exact P3]. cbv beta. intros g [(s0 & Y1 & Y2)|Y]; [left|right].
      * exists s0. split; [rewrite HH by lia; exact Y1|exact Y2].
      * eapply mk_mono; [|exact Y]. intros i0. apply before_app.
  - intros t0 p l x E Ep Ex Ec i u a0 L E0 Z. apply knows_app. destruct (V1 _ _ _ E) as [Y|[Y _]].
    + eapply (d_cnt _ _ _ _ _ _ _ _ _ D); eauto. apply NS; [exact E0|left]. apply incr_local in Z as (? & ? & ? & ? & ->). reflexivity.
    + destruct l; discriminate.
  - intros t0 p l x E Ex. destruct (V1 _ _ _ E) as [Y|[Y _]]; [|destruct l; discriminate].
    destruct (d_ins _ _ _ _ _ _ _ _ _ D t0 p l x Y Ex) as [Z1 Z2]. split.
    + eapply trail_mono; [|exact Z1]. intros g. apply mk_mono. intros i0. apply knows_app.
    + intros ->. eapply mk_mono; [|apply Z2; reflexivity]. intros i0. apply knows_app.
Qed.

(** exclusive access *)
Lemma dinv_new log H d s' t (a : wact) vs' k : replaces a d -> CInv k s' vs' -> Out vs' -> H (S (length log)) = Some s' ->
  (forall i u a', nth_error log i = Some (u, a') -> local a' d -> exists r b, (i <= r)%nat /\ nth_error log r = Some (u, b) /\ leaves b d) ->
  (forall u o l, nth_error vs' u = Some (Some (o, l)) -> forall i t' a', nth_error (log ++ [(t, a)]) i = Some (t', a') -> creates a' d -> knows (log ++ [(t, a)]) u i) ->
  (forall i u a', nth_error log i = Some (u, a') -> creates a' d -> knows log t i) ->
  (excl a d \/ forall i u a', nth_error log i = Some (u, a') -> ~ local a' d /\ ~ replaces a' d) ->
  DInv (log ++ [(t, a)]) H vs' d s' k (length log).
Proof.
  intros R CI O Hn Hl Hm Hc He.
  assert (forall i t0 a0, (length log < i)%nat -> nth_error (log ++ [(t, a)]) i <> Some (t0, a0)) as Nx.
  { intros i t0 a0 L E. apply nth_lt in E. rewrite app_length in E. cbn [length] in E. lia. }
  constructor.
  - rewrite app_length, Nat.add_1_r. exact Hn.
  - exists t, a. split; [apply nth_end|exact R].
  - intros i t0 a0 L E. destruct (Nx _ _ _ L E).
  - exact CI.
  - intros i t0 a0 L E. destruct (Nx _ _ _ L E).
  - intros i u a0 E Z. right. apply nth_snoc_cases in E as [E|[_ E]]; [apply leaves_keep; eauto|]. injection E as -> ->.
    destruct a; cbn in R, Z; destruct R; contradiction.
  - intros u o l E Z. rewrite (O _ _ _ E) in Z. discriminate.
  - exact Hm.
  - intros i t0 a0 L E Z. assert (nth_error log i = Some (t0, a0)) as E1 by (rewrite nth_app in E by exact L; exact E).
    destruct He as [He|He]; [|destruct (He _ _ _ E1); tauto]. destruct Z as [Z|[Z|Z]].
    + destruct (Hl _ _ _ E1 Z) as (r & b & Lr & Er & Zr).
      assert (hb (log ++ [(t, a)]) r (length log)) as Hr.
      { apply hb_sw. exists t0, b, t, a. split; [apply nth_keep, Er|]. split; [apply nth_end|]. split; [eapply nth_lt; exact Er|]. eapply s_leave; eassumption. }
      destruct (Nat.eq_dec i r) as [->|N]; [exact Hr|]. eapply hb_trans; [|exact Hr]. apply hb_sb. exists t0, a0, b. split; [exact E|]. split; [apply nth_keep, Er|lia].
    + apply hb_sw. exists t0, a0, t, a. split; [exact E|]. split; [apply nth_end|]. split; [exact L|]. eapply s_excl; eassumption.
    + apply knows_end. eapply Hc; eassumption.
  - intros i u a0 g x L E. destruct (Nx _ _ _ L E).
  - intros u g x _ i u' a0 y L E. destruct (Nx _ _ _ L E).
  - intros i q Hq h. exists None. split; [discriminate|]. split; [intros i' u a0 L E; destruct (Nx _ _ _ L E)|].
    destruct (pk_facts c k s' vs' i q (proj1 CI) Hq) as (_ & (j & R1 & R2 & R3) & _). fold h in R2, R3. exists j. split; [exact R1|]. split; [exact R2|].
    intros j' Lj. left. exists s'. split; [exact Hn|]. apply R3, Lj.
  - intros t0 p l x E _ Ex. pose proof (O _ _ _ E) as Z. destruct l; discriminate.
  - intros t0 p l x E Ex. pose proof (O _ _ _ E) as Z. destruct l; discriminate.
Qed.
End WInv2.
