(** Global invariant of the executions of WeakModel.v: steps inside a container. *)
From Coq Require Import NArith Bool List Arith Lia ZifyBool ZifyNat ZifyN Permutation.
From Verif Require Import FloatModel SizeModel SizeProofs GroupModel GroupProofs GroupSpec FoaModel FoaGroup FoaBase FoaFind FoaArr FoaInv FoaRehash FoaSpec FoaWorld FoaRun ConcSpec ConcModel ConcInv ConcStep ConcStep2 ConcStep3 ConcSys ConcSys2
  WeakModel WeakHb WeakStep WeakEff WeakInv WeakInv2 WeakInv3 WeakDep WeakSee.
Import ListNotations.
Local Open Scope N_scope.
Notation set_nth := FoaModel.set_nth.

Section WSys.
Context {K V : Type} (c : Cfg K V) (st : bool).
Hypothesis HC : good_cfg c.
Notation Sh := (@Sh K V).
Notation pop := (pop K V). Notation cop := (cop K V). Notation loc := (@loc K V). Notation cres := (cres K V). Notation eff := (@eff K V).
Notation ent := (option (cop * loc)).
Notation CBase := (CBase c). Notation CInv := (CInv c). Notation TI := (TI c). Notation hk := (hk c).
Notation wact := (@wact K V). Notation wev := (@wev K V). Notation W := (@W K V). Notation conf := (@conf K V).
Notation hb := (@hb K V st). Notation knows := (@knows K V st). Notation readable := (@readable K V st). Notation sees := (@sees K V st). Notation made_known := (@made_known K V st).
Notation DInv := (DInv c st). Notation wstep := (@wstep K V c st). Notation wruns := (@wruns K V c st).
Implicit Type log : list wev. Implicit Type w : W.

(** accesses that are not both reads: to the elements and the metadata of a group under its lock, and to the whole container *)
Definition conflict (a b : wact) : Prop := exists d,
  (exists g x y, locked a d g x /\ locked b d g y /\ x || y = true) \/ (replaces a d /\ (local b d \/ replaces b d)) \/ (local a d /\ replaces b d).
Record WI (w : W) : Prop := {
  wi_len : length (w_past w) = length (w_log w);
  wi_box : forall d s, box (w_now w) d = Some s -> exists k ep, DInv (w_log w) (hist w d) (views (w_now w) d) d s k ep;
  wi_at : forall t d o l, nth_error (th (w_now w)) t = Some (At d o l) -> exists s, box (w_now w) d = Some s;
  wi_lt : forall i u a d, nth_error (w_log w) i = Some (u, a) -> local a d \/ replaces a d -> (d < length (boxes (w_now w)))%nat;
  wi_race : forall i j u v a b, (i < j)%nat -> nth_error (w_log w) i = Some (u, a) -> nth_error (w_log w) j = Some (v, b) -> conflict a b -> hb (w_log w) i j }.

Lemma wi_ginv w : WI w -> GInv c (w_now w).
Proof. intros I. split; [|apply I]. intros d s Hb. destruct (wi_box _ I d s Hb) as (k & ep & D). exists k. apply D. Qed.

(** *** history *)
Lemma at_ext w C t a i : length (w_past w) = length (w_log w) -> (i <= length (w_log w))%nat -> at_time (ext w C t a) i = at_time w i.
Proof.
  intros Ln L. unfold at_time, ext. cbn [w_past w_now]. rewrite <- app_assoc. cbn [app].
  destruct (Nat.eq_dec i (length (w_log w))) as [->|N].
  - rewrite <- Ln. rewrite !nth_error_app2, Nat.sub_diag by lia. reflexivity.
  - rewrite !nth_error_app1 by lia. reflexivity.
Qed.
Lemma at_ext_end w C t a : length (w_past w) = length (w_log w) -> at_time (ext w C t a) (S (length (w_log w))) = Some C.
Proof.
  intros Ln. unfold at_time, ext. cbn [w_past w_now]. rewrite nth_error_app2; rewrite app_length; cbn [length]; [|lia].
  replace (S (length (w_log w)) - _)%nat with O by lia. reflexivity.
Qed.
Lemma hist_ext w C t a d i : length (w_past w) = length (w_log w) -> (i <= length (w_log w))%nat -> hist (ext w C t a) d i = hist w d i.
Proof. intros Ln L. unfold hist. rewrite at_ext by assumption. reflexivity. Qed.
Lemma hist_end w C t a d : length (w_past w) = length (w_log w) -> hist (ext w C t a) d (S (length (w_log w))) = box C d.
Proof. intros Ln. unfold hist. rewrite at_ext_end by exact Ln. reflexivity. Qed.
Lemma knows_last log t a i : knows (log ++ [(t, a)]) t i -> (i < length log)%nat -> hb (log ++ [(t, a)]) i (length log).
Proof.
  intros (j & b & E & H) L. pose proof (nth_lt _ _ _ E) as Lj. rewrite app_length in Lj. cbn [length] in Lj. destruct (Nat.eq_dec j (length log)) as [->|N].
  - destruct H as [->|H]; [lia|exact H].
  - assert (hb (log ++ [(t, a)]) j (length log)) as Z.
    { apply hb_sb. exists t, b, a. split; [exact E|]. split; [apply nth_end|lia]. }
    destruct H as [->|H]; [exact Z|]. eapply hb_trans; eassumption.
Qed.

(** *** insertion: the positions from the check of the size to the claim of a slot *)
Lemma ins_cases (z : Sh) free p l i thr e l' a x : pstep c free z p l i thr = Step e l' a -> insx l' = Some x ->
  (exists x0 n, l = LChk x0 n /\ l' = LIns x /\ x = set_pb x0 (pb_init (position (x_h x0) (a_gsi (arr (tb z)))))) \/
  (l = LIns x /\ l' = LAvail x) \/ (exists n, l = LAvail x /\ l' = LCnt x n) \/ (l = LAvail x /\ l' = LSkip x /\ e = EMark (x_g x) (x_h x)) \/
  (exists x0, l = LSkip x0 /\ l' = LIns x /\ x = set_pb x0 (fst (pb_next (x_pb x0) (a_mask (arr (tb z)))))).
Proof.
  intros H Hx.
  destruct l; cbn [pstep go visit_slot not_found] in H; try discriminate H;
  repeat match type of H with
  | context [match ?b with _ => _ end] =>
    match b with
    | pb_next _ _ => destruct b eqn:?; cbn beta iota in H
    | context [match _ with _ => _ end] => fail 1
    | _ => destruct b eqn:?; cbn [visit_slot not_found go exclusive] in H; try discriminate H
    end
  end;
  try (injection H as <- <- <-); cbn [insx] in Hx; try discriminate Hx;
  repeat match goal with |- context [match ?b with _ => _ end] => destruct b; try discriminate end;
  try (injection Hx as <-); try (injection Hx as ->); eauto 10; exfalso;
  unfold visit_slot, not_found, go in H;
  repeat match type of H with context [match ?b with _ => _ end] => destruct b; try discriminate H end;
  injection H as <- <- <-; discriminate Hx.
Qed.

Lemma unlocked_inside (l : loc) : unlocked l = true -> outside l = false.
Proof. destruct l; try discriminate; reflexivity. Qed.
(** one step inside container d: what the thread reads, and its effect *)
Section Local.
Variables (w : W) (t d : nat) (o : cop) (l : loc) (s so : Sh) (k : N) (ep : nat) (free : nat -> bool -> bool) (i : nat) (thr : bool).
Notation vs := (views (w_now w) d).
Hypothesis Len : length (w_past w) = length (w_log w).
Hypothesis D : DInv (w_log w) (hist w d) vs d s k ep.
Hypothesis Ht : nth_error vs t = Some (Some (o, l)).
Hypothesis Se : sees w t d so.
Hypothesis Esz : sz (tb so) = sz (tb s). Hypothesis Eml : ml (tb so) = ml (tb s).
Hypothesis Ecnt : forall x n, l = LCnt x n -> cnt so = cnt s.
Hypothesis Fit : nowrap s l.
Hypothesis Hfree : forall g x, free g x = true -> frees vs t g x.

Lemma unlocked_point : unlocked l = true -> exists p, o = Point p.
Proof.
  intros U. destruct (cb_ti _ _ _ _ (proj1 (d_inv _ _ _ _ _ _ _ _ _ D)) _ _ _ Ht) as [Wf _]. destruct o as [p| |]; [eauto| |]; destruct l; try discriminate U; destruct Wf.
Qed.
(** the steps that do not read a group without its lock read current values *)
Lemma reads_current : unlocked l = false -> lstep c free so o l i thr = lstep c free s o l i thr.
Proof.
  intros U. apply (lstep_agree c k s vs t); auto.
  - apply (d_inv _ _ _ _ _ _ _ _ _ D).
  - intros O. apply (sees_box c st w d s vs k ep t Len D); [|exact Se]. eapply (d_know _ _ _ _ _ _ _ _ _ D); eassumption.
  - intros g x El. apply (sees_agree c st w d s vs k ep t Len D) with x; [|exact Se|exists o, l; auto].
    eapply (d_know _ _ _ _ _ _ _ _ _ D); [eassumption|]. destruct (outside l) eqn:O; [|reflexivity]. rewrite outside_lock in El by exact O. discriminate.
Qed.
Lemma reads_unlocked p : o = Point p -> unlocked l = true -> good_obs c k s vs t p (pstep c free so p l i thr).
Proof.
  intros Eo U. pose proof Ht as Ht'. rewrite Eo in Ht'. assert (knows (w_log w) t ep) as Kep by (eapply (d_know _ _ _ _ _ _ _ _ _ D); [eassumption|apply unlocked_inside, U]).
  apply unlocked_ok; [apply (d_inv _ _ _ _ _ _ _ _ _ D)|exact Ht'|exact U| |].
  - apply (sees_frame c st w d s vs k ep t Len D Kep so Se).
  - intros x Ex Ec Ep. apply (sees_keys c st w d s vs k ep t Len D Kep so p l x Se Ht' Ep Ex Ec).
Qed.
(** no step is undefined, and its write is possible *)
Lemma local_good : l <> LFull -> (forall r, l <> LRet r) -> match lstep c free so o l i thr with
  | Blocked => True | Ub => False | Step e l' a => exists s', apply e s = Some s' /\ CInv k s' (set_nth vs t (Some (o, l'))) end.
Proof.
  intros Nf Nr. destruct (unlocked l) eqn:U.
  - destruct (unlocked_point U) as (p & E). pose proof (reads_unlocked p E U) as G. rewrite E. cbn [lstep]. destruct (pstep c free so p l i thr) as [| |e l' a]; cbn [good_obs] in G; auto.
    destruct G as [-> G]. exists s. split; [reflexivity|exact G].
  - rewrite reads_current by exact U. exact (lstep_ok c k s vs t o l free i thr (d_inv _ _ _ _ _ _ _ _ _ D) Ht Hfree Fit Nf Nr).
Qed.

Lemma local_dinv e l' a s' rd C : lstep c free so o l i thr = Step e l' a -> apply e s = Some s' ->
  (forall h x u m, l = LCount h -> l' = LScan x u m -> exists sr, readable w t d (VCnt (x_g x)) rd sr /\ nth_error (cnt so) (x_g x) = nth_error (cnt sr) (x_g x)) ->
  box C d = Some s' ->
  DInv (w_log w ++ [(t, WLocal d o l e l' rd)]) (hist (ext w C t (WLocal d o l e l' rd)) d) (set_nth vs t (Some (o, l'))) d s' k ep.
Proof.
  intros Hs Ha Hrd Hb. pose proof (d_inv _ _ _ _ _ _ _ _ _ D) as [B U0].
  assert (Nf : l <> LFull) by (intros E; rewrite E in Hs; destruct o; discriminate Hs).
  assert (Nr : forall r, l <> LRet r) by (intros r E; rewrite E in Hs; destruct o; discriminate Hs).
  pose proof (local_good Nf Nr) as G. rewrite Hs in G. destruct G as (s2 & Ha2 & CI'). assert (s2 = s') by congruence. subst s2.
  destruct (cb_ti _ _ _ _ B _ _ _ Ht) as [Wf T].
  pose proof (lstep_shp c free so o l i thr e l' a Hs Wf) as Sp.
  assert (eff_ok o l e /\ (forall i0 q, Pk s' (set_nth vs t (Some (o, l'))) i0 q -> Pk s vs i0 q \/
    exists p x n g, o = Point p /\ l = LCnt x n /\ l' = LCons x n /\ e = ECnt g /\ g = N.to_nat (p0 k (hk s p)) /\ i0 = slot_index (x_g x) n /\ q = pkey p) /\
    (forall i0 q, Pk s vs i0 q -> ~ ehits e (VByte (i0 / 15) (i0 mod 15)))) as (EO & PK1 & PK2).
  { destruct (unlocked l) eqn:U.
    - destruct (unlocked_point U) as (p & E). pose proof (reads_unlocked p E U) as G. rewrite E in Hs. cbn [lstep] in Hs. rewrite Hs in G. destruct G as [-> G]. split; [|split].
      + split; [intros g n []|split; [intros j []|]]. intros g n [(h & Z)|Z]; discriminate.
      + cbn [apply] in Ha. injection Ha as <-. intros i0 q [Z|(t' & p' & x & n & Z1 & Z2)]; [left; left; exact Z|].
        destruct (set_cases _ _ _ _ _ _ Ht Z1) as [[-> Z3]|[Z3 Z4]].
        * exfalso. injection Z3 as Z3 Z4. destruct (sp_cons _ _ _ _ _ Sp x n (eq_sym Z4)) as (Y & _). rewrite Y in U. discriminate.
        * left. right. exists t', p', x, n. auto.
      + intros i0 q _ [].
    - rewrite reads_current in Hs by exact U. split; [apply (eff_dep c k s vs t o l free i thr e l' a B Ht Hs)|]. split.
      + apply (pk_dep c k s vs t o l free i thr e l' a s' B Ht Hs Ha).
      + apply (pk_kept c k s vs t o l free i thr e l' a B Ht Hs). }
  apply (dinv_local c st (w_log w) (hist w d) vs d s k ep t o l e l' rd free (hist (ext w C t (WLocal d o l e l' rd)) d) s' D Ht Sp Hfree EO Ha CI').
  - intros j Lj. apply hist_ext; assumption.
  - rewrite hist_end by exact Len. exact Hb.
  - exact PK1.
  - exact PK2.
  - (* counter *) intros p h x' E El Ex Ec j u b Lj Ej Hi. subst l o. cbn [lstep pstep] in Hs. destruct (nth_error (cnt so) (N.to_nat (position h (a_gsi (arr (tb so)))))) as [n|] eqn:En; [|discriminate].
    unfold go in Hs. injection Hs as <- <- <-. cbn [ectx] in Ex. injection Ex as <-. cbn [x_cg] in Ec. cbn [ConcInv.TI] in T. subst h.
    assert (Kep : knows (w_log w) t ep) by (eapply (d_know _ _ _ _ _ _ _ _ _ D); [eassumption|reflexivity]).
    destruct (sees_frame c st w d s vs k ep t Len D Kep so Se) as (Go & _). change (arr (tb so)) with (A so) in En. rewrite (ge_gsi _ _ Go) in En. fold (p0 k (hk s p)) in En.
    destruct (Hrd _ _ _ _ eq_refl eq_refl) as (sr & R & Er). unfold x_g in R, Er. cbn [x_pb pb_init pb_pos] in R, Er. change (arr (tb so)) with (A so) in R, Er. rewrite (ge_gsi _ _ Go) in R, Er.
    fold (p0 k (hk s p)) in R, Er. set (g := N.to_nat (p0 k (hk s p))) in *. rewrite En in Er. symmetry in Er.
    destruct (read_at c st w d s vs k ep t Len D Kep _ _ _ R) as (Lr & Hr & _).
    assert (j < rd)%nat as Ljr.
    { destruct (Nat.lt_ge_cases j rd) as [Z|Z]; [exact Z|exfalso]. apply (hist_incr c st _ _ _ _ _ _ _ rd sr g n D Lr Hr Er Ec j u b Z Ej Hi). }
    eapply knows_sync; [exact Ej|]. eapply (s_load _ _ _ _ _ _ _ _ d g rd); [exact Hi| |exact Ljr|].
    + cbn [loads]. split; [reflexivity|]. split; [|reflexivity]. unfold x_g. cbn [x_pb pb_init pb_pos]. change (arr (tb so)) with (A so). rewrite (ge_gsi _ _ Go). reflexivity.
    + intros j' t' a' Lj' Ej'. apply (d_last _ _ _ _ _ _ _ _ _ D j' t' a'); [lia|exact Ej'].
  - (* marks *) pose proof reads_current as Rc. intros p x E Ex. subst o. cbn [lstep] in Hs. pose proof (fr_geo _ _ _ (cb_fr _ _ _ _ B)) as Ge.
    assert (unlocked l = false) as U.
    { destruct (ins_cases so free p l i thr e l' a x Hs Ex) as [(x0 & n & -> & _)|[[-> _]|[(n & -> & _)|[(-> & _)|(x0 & -> & _)]]]]; reflexivity. }
    specialize (Rc U). cbn [lstep] in Rc. rewrite Rc in Hs.
    assert (forall l0 x0, l = l0 -> insx l0 = Some x0 -> trail k (x_h x0) (Mk (w_log w ++ [(t, WLocal d (Point p) l e l' rd)]) ep d (knows (w_log w ++ [(t, WLocal d (Point p) l e l' rd)]) t) (x_h x0)) (x_pb x0)) as Old.
    { intros l0 x0 <- E0. eapply trail_mono; [|apply (d_ins _ _ _ _ _ _ _ _ _ D t p l x0 Ht E0)]. intros g. apply mk_mono. intros i0. apply knows_app. }
    destruct (ins_cases s free p l i thr e l' a x Hs Ex) as [(x0 & n & El & -> & ->)|[[El ->]|[(n & El & ->)|[(El & -> & ->)|(x0 & El & -> & ->)]]]].
    + split; [|discriminate]. cbn [set_pb x_h x_pb]. left. exists O. split; [pose proof (pow2_pos k); lia|]. split; [|lia]. change (arr (tb s)) with (A s). rewrite (ge_gsi _ _ Ge).
      unfold pb_init, pstate. fold (p0 k (x_h x0)). rewrite El in T. cbn [ConcInv.TI] in T. destruct T as [T _].
      rewrite probe_pos_0; [reflexivity|]. apply position_lt; [rewrite T; apply hk_lt|pose proof (ge_k _ _ Ge); lia].
    + split; [|discriminate]. exact (Old _ x El eq_refl).
    + split; [|discriminate]. exact (Old _ x El eq_refl).
    + split; [exact (Old _ x El eq_refl)|]. intros _. exists (length (w_log w)), t, (WLocal d (Point p) l (EMark (x_g x) (x_h x)) (LSkip x) rd).
      split; [destruct (d_ep _ _ _ _ _ _ _ _ _ D) as (? & ? & Z & _); eapply nth_lt; exact Z|]. split; [apply nth_end|]. split; [cbn [marks]; auto|apply knows_new].
    + split; [|discriminate]. cbn [set_pb x_h x_pb]. pose proof (Old _ x0 El eq_refl) as Y. assert (a_mask (arr (tb s)) = 2 ^ k - 1) as Em by apply (ge_mask _ _ Ge). rewrite Em in Y |- *.
      apply trail_next; [apply (ge_k _ _ Ge)|exact Y|].
      destruct (d_ins _ _ _ _ _ _ _ _ _ D t p l x0 Ht) as [_ Z]; [rewrite El; reflexivity|]. specialize (Z El). eapply mk_mono; [|exact Z]. intros i0. apply knows_app.
Qed.
End Local.
End WSys.
