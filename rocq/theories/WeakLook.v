(** What lookups find in executions of WeakModel.v: second invariant of a container. *)
From Coq Require Import NArith Bool List Arith Lia ZifyBool ZifyNat ZifyN Permutation.
From Verif Require Import FloatModel SizeModel SizeProofs GroupModel GroupProofs GroupSpec FoaModel FoaGroup FoaBase FoaFind FoaArr FoaInv FoaRehash FoaSpec FoaWorld FoaRun ConcSpec ConcModel ConcInv ConcStep ConcStep2 ConcStep3 ConcSys ConcSys2
  WeakModel WeakHb WeakStep WeakEff WeakInv WeakInv2 WeakInv3 WeakDep WeakSee WeakSys WeakSys2.
Import ListNotations.
Local Open Scope N_scope.
Notation set_nth := FoaModel.set_nth.

Section WLook.
Context {K V : Type} (c : Cfg K V) (st : bool).
Hypothesis HC : good_cfg c.
Notation Sh := (@Sh K V).
Notation pop := (pop K V). Notation cop := (cop K V). Notation loc := (@loc K V). Notation cres := (cres K V). Notation eff := (@eff K V).
Notation ent := (option (cop * loc)).
Notation CBase := (CBase c). Notation CInv := (CInv c). Notation TI := (TI c). Notation hk := (hk c).
Notation wact := (@wact K V). Notation wev := (@wev K V). Notation W := (@W K V). Notation conf := (@conf K V). Notation pc := (@pc K V).
Notation hb := (@hb K V st). Notation knows := (@knows K V st). Notation readable := (@readable K V st). Notation sees := (@sees K V st). Notation made_known := (@made_known K V st).
Notation DInv := (DInv c st). Notation WI := (WI c st). Notation wstep := (@wstep K V c st). Notation wruns := (@wruns K V c st).
Implicit Type log : list wev. Implicit Type w : W.

(** an element is constructed in slot i *)
Definition constructs (a : wact) (d i : nat) : Prop := match a with WLocal d' _ (LCons _ _) (ECell i' _) _ _ => d' = d /\ i' = i | _ => False end.
Definition last_call log (t en : nat) (d : nat) (o : cop) : Prop :=
  nth_error log en = Some (t, WCall d o) /\ forall j b, (en < j)%nat -> nth_error log j = Some (t, b) -> forall d' o', b <> WCall d' o'.
(** the writes that an element with key q in slot i depends on are before v, if any, which satisfies P *)
Definition Wit log (H : nat -> option Sh) (d : nat) (s : Sh) (k : N) (ep i : nat) (q : K) (P : nat -> Prop) : Prop :=
  let h := hash_of c (hid (tb s)) q in exists v,
     (forall v', v = Some v' -> P v') /\
     (forall i' u a, (ep < i')%nat -> nth_error log i' = Some (u, a) -> hits a d (VByte (i / 15) (i mod 15)) -> before st log v i') /\
     path k h (fun g => (exists s0, H (S ep) = Some s0 /\ marked s0 h g) \/ Mk log ep d (before st log v) h g) (i / 15).
Definition lives (s : Sh) (i : nat) (e : K * V) : Prop := nth_error (cells (A s)) i = Some (Live e).
Record LInv log (H : nat -> option Sh) (vs : list ent) (d : nat) (s : Sh) (k : N) (ep : nat) : Prop := {
  l_cons : forall t p x n, nth_error vs t = Some (Some (Point p, LCons x n)) -> Wit log H d s k ep (slot_index (x_g x) n) (pkey p) (knows log t);
  l_live : forall i e, lives s i e -> Wit log H d s k ep i (fst e) (fun v => exists i' u a, (ep < i')%nat /\ nth_error log i' = Some (u, a) /\ constructs a d i /\ hb log v i');
  l_look : forall t p l en o, nth_error vs t = Some (Some (Point p, l)) -> outside l = false -> last_call log t en d o ->
     forall i e, lives s i e -> keqf c (pid (tb s)) (pkey p) (fst e) = true ->
     (forall i' u a, (ep < i')%nat -> nth_error log i' = Some (u, a) -> constructs a d i -> hb log i' en) -> Ahead k l i;
  l_since : forall i e m, lives s i e -> (ep < m <= length log)%nat -> (forall i' u a, (m <= i')%nat -> nth_error log i' = Some (u, a) -> ~ constructs a d i) ->
     exists sm e', H m = Some sm /\ lives sm i e' /\ fst e' = fst e }.

Lemma wit_mono log l2 H H' d s s' k ep i q (P P' : nat -> Prop) : (ep < length log)%nat -> hid (tb s') = hid (tb s) -> (forall j, (j <= length log)%nat -> H' j = H j) ->
  (forall v, P v -> P' v) -> (forall u a, In (u, a) l2 -> ~ hits a d (VByte (i / 15) (i mod 15))) -> Wit log H d s k ep i q P -> Wit (log ++ l2) H' d s' k ep i q P'.
Proof.
  intros Lep Eh HH HP NH (v & P0 & P2 & P3). unfold Wit. rewrite Eh. exists v. split; [auto|]. split.
  - intros i' u a L E Z. apply before_app. apply (P2 i' u a L); [|exact Z]. destruct (Nat.lt_ge_cases i' (length log)) as [Li|Li]; [rewrite nth_app in E by exact Li; exact E|].
    rewrite nth_error_app2 in E by exact Li. apply nth_error_In in E. destruct (NH u a E Z).
  - eapply path_mono; [|exact P3]. cbv beta. intros g [(s0 & Y1 & Y2)|Y]; [left|right].
    + exists s0. split; [rewrite HH by lia; exact Y1|exact Y2].
    + eapply mk_mono; [|exact Y]. intros i0. apply before_app.
Qed.
Lemma last_call_app log t en d o u (a : wact) : last_call (log ++ [(u, a)]) t en d o -> (en < length log)%nat -> last_call log t en d o.
Proof.
  intros [E N] L. split; [rewrite nth_app in E by exact L; exact E|]. intros j b Lj Ej. apply (N j b Lj). apply nth_keep, Ej.
Qed.
Lemma last_call_lt log t en d o u (a : wact) : last_call (log ++ [(u, a)]) t en d o -> (forall d o, a <> WCall d o) -> (en < length log)%nat.
Proof.
  intros [E N] Na. apply nth_snoc_cases in E as [E|[_ E]]; [eapply nth_lt; exact E|]. injection E as <- E. destruct (Na d o). congruence.
Qed.
Lemma constr_local (a : wact) d i : constructs a d i -> local a d.
Proof. destruct a; cbn; try tauto. destruct l; try tauto. destruct e; tauto. Qed.

(** events elsewhere *)
Lemma linv_frame log H vs d s k ep t (a : wact) H' vs' : DInv log H vs d s k ep -> LInv log H vs d s k ep -> ~ replaces a d -> ~ local a d ->
  (forall i, (i <= length log)%nat -> H' i = H i) -> H' (S (length log)) = Some s ->
  (forall u o l, nth_error vs' u = Some (Some (o, l)) -> nth_error vs u = Some (Some (o, l)) \/ outside l = true) ->
  (forall u o l, nth_error vs u = Some (Some (o, l)) -> outside l = false -> u = t -> forall d o, a <> WCall d o) ->
  LInv (log ++ [(t, a)]) H' vs' d s k ep.
Proof.
  intros D [L1 L2 L3 L4] NR NL HH Hn V1 V2. assert (Lep : (ep < length log)%nat) by (destruct (d_ep _ _ _ _ _ _ _ _ _ D) as (? & ? & E & _); eapply nth_lt; exact E).
  assert (NH : forall u b g n, In (u, b) [(t, a)] -> ~ hits b d (VByte g n)).
  { intros u b g n [E|[]] Z. injection E as <- <-. destruct (not_replaces_hits a d _ NR Z) as (o & l & e & l' & rd & -> & _). destruct NL. reflexivity. }
  constructor.
  - intros t0 p x n E. destruct (V1 _ _ _ E) as [Y|Y]; [|discriminate]. eapply wit_mono; try exact (L1 _ _ _ _ Y); eauto. intros v. apply knows_app.
  - intros i e He. eapply wit_mono; try exact (L2 i e He); eauto. intros v (i' & u & b & Z1 & Z2 & Z3 & Z4). exists i', u, b. auto using nth_keep, hb_app.
  - intros t0 p l en o E O Lc i e He Hq Hc. destruct (V1 _ _ _ E) as [Y|Y]; [|congruence].
    assert (en < length log)%nat as Len.
    { destruct Lc as [Ec _]. apply nth_snoc_cases in Ec as [Ec|[_ Ec]]; [eapply nth_lt; exact Ec|]. injection Ec as <- Ec. destruct (V2 _ _ _ Y O eq_refl d o (eq_sym Ec)). }
    apply (L3 t0 p l en o Y O (last_call_app _ _ _ _ _ _ _ Lc Len) i e He Hq). intros i' u b Li Ei Z. eapply hb_app_inv; [apply (Hc i' u b Li); [apply nth_keep, Ei|exact Z]|exact Len].
  - intros i e m He Lm Hc. rewrite app_length in Lm. cbn [length] in Lm. destruct (Nat.eq_dec m (S (length log))) as [->|N].
    + exists s, e. auto.
    + rewrite HH by lia. apply (L4 i e m He ltac:(lia)). intros i' u b Li Ei. apply (Hc i' u b Li). apply nth_keep, Ei.
Qed.
Lemma linv_new log H d s' t (a : wact) vs' k : CInv k s' vs' -> Out vs' -> H (S (length log)) = Some s' ->
  LInv (log ++ [(t, a)]) H vs' d s' k (length log).
Proof.
  intros CI O Hn.
  assert (forall i t0 a0, (length log < i)%nat -> nth_error (log ++ [(t, a)]) i <> Some (t0, a0)) as Nx.
  { intros i t0 a0 L E. apply nth_lt in E. rewrite app_length in E. cbn [length] in E. lia. }
  constructor.
  - intros t0 p x n E. specialize (O _ _ _ E). discriminate.
  - intros i e He. exists None. split; [discriminate|]. split; [intros i' u a0 L E; destruct (Nx _ _ _ L E)|].
    destruct (pk_facts c k s' vs' i (fst e) (proj1 CI)) as (_ & (j & R1 & R2 & R3) & _); [left; exists e; auto|]. exists j. split; [exact R1|]. split; [exact R2|].
    intros j' Lj. left. exists s'. split; [exact Hn|]. apply R3, Lj.
  - intros t0 p l en o E Ol. rewrite (O _ _ _ E) in Ol. discriminate.
  - intros i e m He Lm _. rewrite app_length in Lm. cbn [length] in Lm. assert (m = S (length log)) as -> by lia. exists s', e. auto.
Qed.

Section Local.
Variables (w : W) (t d : nat) (o : cop) (l : loc) (s so : Sh) (k : N) (ep : nat) (free : nat -> bool -> bool) (i : nat) (thr : bool).
Notation vs := (views (w_now w) d).
Hypothesis Len : length (w_past w) = length (w_log w).
Hypothesis D : DInv (w_log w) (hist w d) vs d s k ep.
Hypothesis L : LInv (w_log w) (hist w d) vs d s k ep.
Hypothesis Ht : nth_error vs t = Some (Some (o, l)).
Hypothesis Se : sees w t d so.
Hypothesis Esz : sz (tb so) = sz (tb s). Hypothesis Eml : ml (tb so) = ml (tb s).
Hypothesis Ecnt : forall x n, l = LCnt x n -> cnt so = cnt s.

Variables (e : eff) (l' : loc) (a : option (act K V)) (s' : Sh) (rd : nat) (C : conf).
Hypothesis Hs : lstep c free so o l i thr = Step e l' a.
Hypothesis Ha : apply e s = Some s'.
Notation ev := (WLocal d o l e l' rd : wact).
Notation log' := (w_log w ++ [(t, ev)]).

Lemma unlocked_none : unlocked l = true -> e = ENone.
Proof.
  intros U. assert (exists p, o = Point p) as (p & E).
  { destruct (cb_ti _ _ _ _ (proj1 (d_inv _ _ _ _ _ _ _ _ _ D)) _ _ _ Ht) as [Wf _]. destruct o as [p| |]; [eauto| |]; destruct l; try discriminate U; destruct Wf. }
  pose proof Hs as Hs'. rewrite E in Hs'. cbn [lstep] in Hs'. clear Hs. rename Hs' into Hs.
  destruct l; try discriminate U; cbn [pstep not_found] in Hs; unfold go in Hs.
  - destruct (nth_error (cnt so) _); [congruence|discriminate].
  - destruct (thr && gives_up p); [congruence|]. destruct u; [destruct m; congruence|]. destruct (memb i _); [|discriminate]. destruct (get_group _ _); [congruence|discriminate].
  - destruct (get_group _ _); [|discriminate]. destruct (b_is_not_overflowed _ _); [destruct p; unfold not_found, go in Hs; congruence|].
    destruct (pb_next _ _) as [pb more]. destruct more; [congruence|]. destruct p; unfold not_found, go in Hs; congruence.
Qed.
Lemma kept i0 q : Pk s vs i0 q -> ~ ehits e (VByte (i0 / 15) (i0 mod 15)).
Proof.
  destruct (unlocked l) eqn:U; [rewrite (unlocked_none U); intros _ []|].
  pose proof (reads_current c st w t d o l s so k ep free i thr Len D Ht Se Esz Eml Ecnt U) as R. rewrite R in Hs.
  apply (pk_kept c k s vs t o l free i thr e l' a (proj1 (d_inv _ _ _ _ _ _ _ _ _ D)) Ht Hs).
Qed.
(** the elements after the step *)
Lemma local_lives i0 e0 : lives s' i0 e0 -> (exists e1, lives s i0 e1 /\ fst e1 = fst e0 /\ ~ constructs ev d i0) \/
  (constructs ev d i0 /\ exists p x n, o = Point p /\ l = LCons x n /\ i0 = slot_index (x_g x) n /\ fst e0 = pkey p).
Proof.
  intros He. unfold lives in *. pose proof unlocked_none as UN.
  assert (ehits e (VCell i0) \/ ~ ehits e (VCell i0)) as [Hh|Hh] by (destruct e; cbn [ehits]; try tauto; lia).
  - destruct e as [| | |b|g n h|g n|g h|g|j z]; cbn [ehits] in Hh; try contradiction. subst j.
    assert (unlocked l = false) as U by (destruct (unlocked l) eqn:U; [pose proof (UN eq_refl); discriminate|reflexivity]).
    pose proof (reads_current c st w t d o l s so k ep free i thr Len D Ht Se Esz Eml Ecnt U) as R. rewrite R in Hs.
    assert (z = Live e0) as Ez.
    { cbn [apply] in Ha. unfold put_cell in Ha. destruct (a_elems (arr (tb s))) as [cs|] eqn:Ec; [|discriminate]. destruct (nth_error cs i0) eqn:Ei; [|discriminate].
      injection Ha as <-. unfold cells, A in He. cbn [tb set_arr arr a_elems] in He. rewrite set_nth_err in He by (apply nth_error_Some; congruence). rewrite Nat.eqb_refl in He. congruence. }
    rewrite Ez in Hs. destruct (cell_dep c s o l free i thr _ _ _ _ Hs) as [Z|[(e1 & v & Z1 & Z2)|(p & x & n & v & Eo & El & Ei & Z)]]; [discriminate| |].
    + left. exists e1. split; [exact Z1|]. injection Z2 as ->. split; [reflexivity|]. cbn [constructs]. destruct l; try tauto. intros _.
      destruct (cb_ti _ _ _ _ (proj1 (d_inv _ _ _ _ _ _ _ _ _ D)) _ _ _ Ht) as [Wf _]. destruct o as [p| |]; try contradiction. cbn [lstep pstep] in Hs.
      destruct p as [| |x0 k0 v0 f1 f2]; try discriminate. apply get_cells in Z1. change (A s) with (arr (tb s)) in Z1.
      destruct (get_cell (arr (tb s)) (slot_index (x_g x) n)) as [[| |]|] eqn:Eg; try discriminate. destruct thr; [discriminate|]. destruct (f1 (k0, v0)) as [v1 b1].
      injection Hs as <- _ _. congruence.
    + right. rewrite El. cbn [constructs]. split; [auto|]. exists p, x, n. injection Z as ->. auto.
  - left. exists e0. split; [|split; [reflexivity|]].
    + apply get_cells. erewrite <- (apply_cell e s s'); [apply get_cells; exact He|exact Ha|exact Hh].
    + cbn [constructs]. intros Z. apply Hh. destruct l; try contradiction. destruct e; try contradiction. cbn [ehits]. tauto.
Qed.
Lemma local_linv : DInv log' (hist (ext w C t ev) d) (set_nth vs t (Some (o, l'))) d s' k ep -> box C d = Some s' ->
  LInv log' (hist (ext w C t ev) d) (set_nth vs t (Some (o, l'))) d s' k ep.
Proof.
  intros D' Hb. pose proof (d_inv _ _ _ _ _ _ _ _ _ D) as [B U0]. destruct (cb_ti _ _ _ _ B _ _ _ Ht) as [Wf T].
  pose proof (lstep_shp c free so o l i thr e l' a Hs Wf) as Sp.
  assert (Lep : (ep < length (w_log w))%nat) by (destruct (d_ep _ _ _ _ _ _ _ _ _ D) as (? & ? & E & _); eapply nth_lt; exact E).
  pose proof (apply_box e s s' Ha) as (Eh & Epi & _).
  assert (HH : forall j, (j <= length (w_log w))%nat -> hist (ext w C t ev) d j = hist w d j) by (intros; apply hist_ext; assumption).
  assert (Hn : hist (ext w C t ev) d (S (length (w_log w))) = Some s') by (rewrite hist_end by exact Len; exact Hb).
  assert (NH : forall i0 q, Pk s vs i0 q -> forall u b, In (u, b) [(t, ev)] -> ~ hits b d (VByte (i0 / 15) (i0 mod 15))).
  { intros i0 q Hq u b [E|[]] Z. injection E as <- <-. apply hits_local in Z. exact (kept i0 q Hq Z). }
  assert (WM : forall i0 q (P P' : nat -> Prop), Pk s vs i0 q -> (forall v, P v -> P' v) -> Wit (w_log w) (hist w d) d s k ep i0 q P -> Wit log' (hist (ext w C t ev) d) d s' k ep i0 q P').
  { intros i0 q P P' Hq HP. eapply wit_mono; eauto. }
  constructor.
  - intros t0 p x n E. destruct (set_cases _ _ _ _ _ _ Ht E) as [[-> Z]|[N Z]].
    + injection Z as <- <-. destruct (sp_cons _ _ _ _ _ Sp x n eq_refl) as (El & g & Ee).
      pose proof T as T'. rewrite El in T'. cbn [ConcInv.TI] in T'. destruct T' as [T1 [T2 _] _ T4].
      assert (Ehx : hash_of c (hid (tb s')) (pkey p) = x_h x) by (rewrite Eh, T1; reflexivity).
      unfold Wit. rewrite Ehx. exists (Some (length (w_log w))). split; [intros v' Ev; injection Ev as <-; apply knows_new|]. split.
      * intros i' u b Li Ei Z. cbn [before]. apply nth_snoc_cases in Ei as [Ei|[_ Ei]]; [|injection Ei as -> ->; apply hits_local in Z; rewrite Ee in Z; destruct Z].
        destruct (not_replaces_hits b d _ (d_last _ _ _ _ _ _ _ _ _ D i' u b Li Ei) Z) as (o1 & l1 & e1 & l1' & rd1 & -> & Zh).
        apply knows_end. rewrite slot_div in Zh by exact T2. eapply (d_hold _ _ _ _ _ _ _ _ _ D t (x_g x) true); [exists (Point p), l; split; [exact Ht|rewrite El; reflexivity]|exact Li|exact Ei| |reflexivity].
        cbn [locked]. split; [reflexivity|]. destruct (d_hist _ _ _ _ _ _ _ _ _ D i' u _ Li Ei) as (_ & _ & _ & _ & _ & _ & O). destruct (O eq_refl) as [O1 _]. exact (O1 _ _ Zh).
      * rewrite slot_div by exact T2. destruct (d_ins _ _ _ _ _ _ _ _ _ D t p l x Ht) as [Z _]; [rewrite El; reflexivity|].
        assert (pb_pos (x_pb x) < 2 ^ k) as Lp.
        { destruct T4 as (j & Y1 & Y2 & _). pose proof (pstate_group k (p0 k (x_h x)) j) as Zg. unfold x_g in Y2. rewrite N2Nat.id in Y2. fold (p0 k (x_h x)) in Y2. rewrite <- Y2. clear - Zg. lia. }
        eapply path_mono; [|exact (trail_path _ _ _ _ Lp Z)]. intros g' Y. right. eapply mk_mono; [|exact Y]. intros i0. cbn [before]. apply knows_end.
    + apply (WM (slot_index (x_g x) n) (pkey p) (knows (w_log w) t0)); [right; exists t0, p, x, n; auto|intros v; apply knows_app|]. apply (l_cons _ _ _ _ _ _ _ L _ _ _ _ Z).
  - intros i0 e0 He. destruct (local_lives i0 e0 He) as [(e1 & Y1 & Y2 & _)|(Y & p & x & n & Eo & El & Ei & Ek)].
    + rewrite <- Y2. eapply WM; [left; exists e1; auto| |apply (l_live _ _ _ _ _ _ _ L i0 e1 Y1)]. intros v (i' & u & b & Z1 & Z2 & Z3 & Z4). exists i', u, b. auto using nth_keep, hb_app.
    + rewrite Ek. pose proof Ht as Ht'. rewrite Eo, El in Ht'. rewrite Ei in *. eapply WM; [right; exists t, p, x, n; auto| |apply (l_cons _ _ _ _ _ _ _ L _ _ _ _ Ht')].
      intros v Kv. exists (length (w_log w)), t, ev. split; [exact Lep|]. split; [apply nth_end|]. split; [exact Y|]. apply knows_end, Kv.
  - intros t0 p l0 en o0 E Ol Lc i0 e0 He Hq Hc. pose proof (last_call_lt _ _ _ _ _ _ _ Lc ltac:(discriminate)) as Len'. pose proof (last_call_app _ _ _ _ _ _ _ Lc Len') as Lc0.
    rewrite Epi in Hq. destruct (local_lives i0 e0 He) as [(e1 & Y1 & Y2 & _)|(Y & _)].
    2: { exfalso. specialize (Hc (length (w_log w)) t ev Lep (nth_end _ _) Y). apply hb_bounds in Hc. lia. }
    assert (Hc0 : forall i' u b, (ep < i')%nat -> nth_error (w_log w) i' = Some (u, b) -> constructs b d i0 -> hb (w_log w) i' en).
    { intros i' u b Li Ei Z. eapply hb_app_inv; [apply (Hc i' u b Li); [apply nth_keep, Ei|exact Z]|exact Len']. }
    rewrite <- Y2 in Hq. destruct (set_cases _ _ _ _ _ _ Ht E) as [[-> Z]|[N Z]].
    2: { exact (l_look _ _ _ _ _ _ _ L t0 p l0 en o0 Z Ol Lc0 i0 e1 Y1 Hq Hc0). }
    injection Z as Eo <-. rewrite <- Eo in *. clear Eo. assert (Pq : Pk s vs i0 (fst e1)) by (left; exists e1; auto).
    destruct (outside l) eqn:Oo.
    { destruct l; try discriminate Oo; cbn [lstep pstep] in Hs; try discriminate Hs. unfold go in Hs. injection Hs as _ <- _. exact Logic.I. }
    pose proof (l_look _ _ _ _ _ _ _ L t p l en o0 Ht Oo Lc0 i0 e1 Y1 Hq Hc0) as Ah. cbn [lstep] in Hs.
    destruct (unlocked l) eqn:U.
    + assert (Kep : knows (w_log w) t ep) by (eapply (d_know _ _ _ _ _ _ _ _ _ D); eassumption).
      destruct (sees_frame c st w d s vs k ep t Len D Kep so Se) as (Go & Ehs & _).
      assert ((exists h, l = LCount h) \/ forall h, l <> LCount h) as [(h & El)|Nc] by (destruct l; eauto; right; discriminate).
      * rewrite El in Hs, T. cbn [pstep ConcInv.TI] in Hs, T. subst h. destruct (nth_error (cnt so) _) as [n|]; [|discriminate]. unfold go in Hs. injection Hs as _ <- _.
        cbn [Ahead]. change (arr (tb so)) with (A so). rewrite (ge_gsi _ _ Go). destruct (pk_facts c k s vs i0 (fst e1) B Pq) as (_ & _ & C3).
        apply ahead_init; [apply (fr_geo c), (cb_fr _ _ _ _ B)|exact C3|]. eapply cell_group; [apply (cb_fr _ _ _ _ B)|exact C3].
      * eapply (ahead_obs c k s so p l); eauto. pose proof (eq_hash c s p (fst e1) (cb_compat _ _ _ _ B) Hq) as Eh1.
        apply (sees_shows c st w d s vs k ep t Len D Kep so i0 (hk s p) Se).
        -- rewrite <- Eh1. destruct (l_live _ _ _ _ _ _ _ L i0 e1 Y1) as (v & V1 & V2 & V3). apply (pk_informed c st w d s vs k ep t i0 (fst e1) v Pq); [|exact V2|exact V3].
           intros v' Ev. destruct (V1 v' Ev) as (i' & u & b & Z1 & Z2 & Z3 & Z4). eapply knows_hb; [exact Z4|]. eapply knows_hb; [apply (Hc0 i' u b Z1 Z2 Z3)|].
           destruct Lc0 as [Ec _]. eapply knows_own; exact Ec.
        -- destruct (pk_facts c k s vs i0 (fst e1) B Pq) as (C1 & _). rewrite Eh1 in C1. exact C1.
    + pose proof (reads_current c st w t d (Point p) l s so k ep free i thr Len D Ht Se Esz Eml Ecnt U) as R. cbn [lstep] in R. rewrite R in Hs.
      eapply (ahead_ok c k s vs t p l); eauto.
  - intros i0 e0 m He Lm Hc. rewrite app_length in Lm. cbn [length] in Lm. destruct (Nat.eq_dec m (S (length (w_log w)))) as [->|N]; [exists s', e0; auto|].
    rewrite HH by lia. destruct (local_lives i0 e0 He) as [(e1 & Y1 & Y2 & _)|(Y & _)]; [|destruct (Hc (length (w_log w)) t ev ltac:(lia) (nth_end _ _) Y)].
    rewrite <- Y2. apply (l_since _ _ _ _ _ _ _ L i0 e1 m Y1 ltac:(lia)). intros i' u b Li Ei. apply (Hc i' u b Li). apply nth_keep, Ei.
Qed.
End Local.
End WLook.
