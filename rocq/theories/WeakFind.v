(** Lookups in executions of WeakModel.v find the elements whose insertion happens before them. *)
From Coq Require Import NArith Bool List Arith Lia ZifyBool ZifyNat ZifyN Permutation.
From Verif Require Import FloatModel SizeModel SizeProofs GroupModel GroupProofs GroupSpec FoaModel FoaGroup FoaBase FoaFind FoaArr FoaInv FoaRehash FoaSpec FoaWorld FoaRun ConcSpec ConcModel ConcInv ConcStep ConcStep2 ConcStep3 ConcSys ConcSys2 ConcLin1 ConcLin3 ConcProps
  WeakModel WeakHb WeakStep WeakEff WeakInv WeakInv2 WeakInv3 WeakDep WeakSee WeakSys WeakSys2 WeakLook WeakLook2.
Import ListNotations.
Local Open Scope N_scope.
Notation set_nth := FoaModel.set_nth.

Section WFind.
Context {K V : Type} (c : Cfg K V) (st : bool).
Hypothesis HC : good_cfg c.
Notation Sh := (@Sh K V).
Notation pop := (pop K V). Notation cop := (cop K V). Notation loc := (@loc K V). Notation cres := (cres K V). Notation eff := (@eff K V).
Notation ent := (option (cop * loc)).
Notation CBase := (CBase c). Notation CInv := (CInv c). Notation TI := (TI c). Notation hk := (hk c).
Notation wact := (@wact K V). Notation wev := (@wev K V). Notation W := (@W K V). Notation conf := (@conf K V). Notation pc := (@pc K V).
Notation hb := (@hb K V st). Notation knows := (@knows K V st). Notation readable := (@readable K V st). Notation sees := (@sees K V st). Notation made_known := (@made_known K V st).
Notation DInv := (DInv c st). Notation LInv := (LInv c st). Notation WI := (WI c st). Notation wstep := (@wstep K V c st). Notation wruns := (@wruns K V c st).
Implicit Type log : list wev. Implicit Type w : W.

(** *** the beginning of an execution *)
Lemma step_ext w w' : wstep w w' -> exists C t a, w' = ext w C t a.
Proof. intros S. destruct S; eauto. Qed.
Definition agrees w w1 : Prop := (exists l2, w_log w = w_log w1 ++ l2) /\ forall m, (m <= length (w_log w1))%nat -> at_time w m = at_time w1 m.
Lemma agrees_refl w : agrees w w.
Proof. split; [exists []; rewrite app_nil_r; reflexivity|auto]. Qed.
Lemma agrees_ext w w1 C t a : length (w_past w) = length (w_log w) -> agrees w w1 -> agrees (ext w C t a) w1.
Proof.
  intros Ln [(l2 & E) H]. split.
  - exists (l2 ++ [(t, a)]). cbn [ext w_log]. rewrite E, app_assoc. reflexivity.
  - intros m Lm. rewrite at_ext; [apply H, Lm|exact Ln|]. rewrite E, app_length. lia.
Qed.
Lemma agrees_hist w w1 d m : agrees w w1 -> (m <= length (w_log w1))%nat -> hist w d m = hist w1 d m.
Proof. intros [_ H] L. unfold hist. rewrite H by exact L. reflexivity. Qed.
Lemma agrees_log w w1 i : agrees w w1 -> (i < length (w_log w1))%nat -> nth_error (w_log w) i = nth_error (w_log w1) i.
Proof. intros [(l2 & E) _] L. rewrite E. apply nth_app, L. Qed.
Lemma agrees_hb w w1 i j : agrees w w1 -> hb (w_log w) i j -> (j < length (w_log w1))%nat -> hb (w_log w1) i j.
Proof. intros [(l2 & E) _] H L. rewrite E in H. eapply hb_app_inv; eassumption. Qed.
Section Runs.
Variables (P : conf -> Prop) (n : nat).
Hypothesis HP : forall C, P C -> counters_fit C.
Lemma run_len w : wruns P n w -> length (w_past w) = length (w_log w).
Proof. intros R. apply (wi_len c st). eapply reach_wi; eassumption. Qed.
Lemma run_fit w : wruns P n w -> P (w_now w).
Proof. intros R. destruct R; assumption. Qed.
(** the step that made event r *)
Lemma run_event w r ev : wruns P n w -> nth_error (w_log w) r = Some ev -> exists w1 w2 C, wruns P n w1 /\ wstep w1 w2 /\ P (w_now w2) /\ w2 = ext w1 C (fst ev) (snd ev) /\
  length (w_log w1) = r /\ agrees w w1 /\ agrees w w2.
Proof.
  intros R. induction R as [H|w w' R IH S H]; intros E; [destruct r; discriminate|].
  pose proof (run_len w R) as Ln. destruct (step_ext _ _ S) as (C & t & a & ->). cbn [ext w_log] in E. apply nth_snoc_cases in E as [E|[-> ->]].
  - destruct (IH E) as (w1 & w2 & C1 & Z1 & Z2 & Z3 & Z4 & Z5 & Z6 & Z7). exists w1, w2, C1. auto 10 using agrees_ext.
  - exists w, (ext w C t a), C. cbn [fst snd]. auto 10 using agrees_refl, agrees_ext.
Qed.
Lemma hist_now w d : wruns P n w -> hist w d (length (w_log w)) = box (w_now w) d.
Proof. intros R. unfold hist, at_time. rewrite <- (run_len w R), nth_error_app2, Nat.sub_diag by lia. reflexivity. Qed.
(** a step inside a container *)
Lemma run_local w r t d o l e l' rd : wruns P n w -> nth_error (w_log w) r = Some (t, WLocal d o l e l' rd) ->
  exists w1 s so i thr a s', wruns P n w1 /\ length (w_log w1) = r /\ agrees w w1 /\ nth_error (th (w_now w1)) t = Some (At d o l) /\ box (w_now w1) d = Some s /\
    sees w1 t d so /\ lstep c (free_for (w_now w1) t d) so o l i thr = Step e l' a /\ apply e s = Some s' /\ hist w d r = Some s /\ hist w d (S r) = Some s'.
Proof.
  intros R E. destruct (run_event w r _ R E) as (w1 & w2 & C & R1 & Sp & P2 & E2 & L & G1 & G2). cbn [fst snd] in E2. pose proof (run_len _ R1) as Ln.
  assert (H1 : hist w d r = box (w_now w1) d) by (rewrite (agrees_hist w w1) by (exact G1 || lia); rewrite <- L; apply hist_now, R1).
  assert (H2 : hist w d (S r) = box (w_now w2) d).
  { rewrite (agrees_hist w w2); [|exact G2|rewrite E2; cbn [ext w_log]; rewrite app_length; cbn [length]; lia]. rewrite E2, <- L. apply hist_end, Ln. }
  destruct Sp; injection E2 as E2 E3; try discriminate; apply app_inj_tail in E3 as [_ E3]; try discriminate.
  injection E3 as -> -> -> -> -> -> ->. exists w1, s, so, i, thr, a, s'.
  split; [exact R1|]. split; [exact L|]. split; [exact G1|]. split; [assumption|]. split; [assumption|]. split; [assumption|]. split; [eassumption|]. split; [assumption|].
  split; [congruence|]. rewrite H2. cbn [ext w_now]. assert (box (set_th (w_now w1) t (At d o l')) d = Some s) as Hb1 by assumption. rewrite (box_set _ _ _ _ _ Hb1), Nat.eqb_refl. reflexivity.
Qed.

(** *** calls *)
Definition CallI w : Prop := forall t d o l, nth_error (th (w_now w)) t = Some (At d o l) -> exists en, last_call (w_log w) t en d o /\
  (l = LRet RNone -> exists r0 rd, (en < r0)%nat /\ nth_error (w_log w) r0 = Some (t, WLocal d o (LDone RNone) ENone (LRet RNone) rd)).
Lemma last_call_keep log t en d o u (a : wact) : last_call log t en d o -> (u = t -> forall d o, a <> WCall d o) -> last_call (log ++ [(u, a)]) t en d o.
Proof.
  intros [E N] H. split; [apply nth_keep, E|]. intros j b L Ej. apply nth_snoc_cases in Ej as [Ej|[_ Ej]]; [eapply N; eassumption|]. injection Ej as <- ->. apply H. reflexivity.
Qed.
Lemma ret_none free (s : Sh) o l i thr e a : lstep c free s o l i thr = Step e (LRet RNone) a -> l = LDone RNone /\ e = ENone.
Proof.
  intros H. destruct o as [p|x md f|]; cbn [lstep] in H.
  - destruct l; cbn [pstep] in H; unfold go, not_found, visit_slot in H; try discriminate H;
    try (injection H as <- <- <-; auto; fail);
    repeat match type of H with context [match ?b with _ => _ end] => destruct b; try discriminate H end.
  - destruct l; cbn [bstep] in H; unfold go in H; try discriminate H; try (injection H as <- <- <-; auto; fail);
    repeat match type of H with context [match ?b with _ => _ end] => destruct b; try discriminate H end.
  - destruct l; cbn [sstep] in H; unfold go in H; try discriminate H; try (injection H as <- <- <-; auto; fail);
    repeat match type of H with context [match ?b with _ => _ end] => destruct b; try discriminate H end.
Qed.
Lemma calli_keep w t x C a : CallI w -> nth_error (th (w_now w)) t = Some x -> (forall d o, a <> WCall d o) ->
  (forall u d o l, u <> t -> nth_error (th C) u = Some (At d o l) -> nth_error (th (w_now w)) u = Some (At d o l)) ->
  (forall d o l, nth_error (th C) t = Some (At d o l) -> exists l0, x = At d o l0 /\ (l = LRet RNone -> l0 = LRet RNone \/ exists rd, a = WLocal d o (LDone RNone) ENone (LRet RNone) rd)) ->
  CallI (ext w C t a).
Proof.
  intros I Ht Na Ho Hs u d o l H. cbn [ext w_now w_log] in H |- *. destruct (Nat.eq_dec u t) as [->|N].
  - destruct (Hs d o l H) as (l0 & -> & Hl). destruct (I t d o l0 Ht) as (en & Z1 & Z2). exists en. split; [apply last_call_keep; auto|].
    intros El. destruct (Hl El) as [E0|(rd & ->)].
    + destruct (Z2 E0) as (r0 & rd & Y1 & Y2). exists r0, rd. auto using nth_keep.
    + exists (length (w_log w)), rd. split; [destruct Z1 as [Z _]; eapply nth_lt; exact Z|apply nth_end].
  - destruct (I u d o l (Ho _ _ _ _ N H)) as (en & Z1 & Z2). exists en. split; [apply last_call_keep; [exact Z1|congruence]|].
    intros El. destruct (Z2 El) as (r0 & rd & Y1 & Y2). exists r0, rd. auto using nth_keep.
Qed.
Lemma run_calls w : wruns P n w -> CallI w.
Proof.
  intros R. induction R as [H|w w' R IH S H].
  - intros t d o l E. cbn [w_now th] in E. apply nth_error_In in E. apply repeat_spec in E. discriminate.
  - destruct S as [t d o s Ht Hb Hmk|t d o l s so rd i thr e l' a s' Ht Hb Se Es Em Ec Hrd Hs Ha|t d o s k t' n' cn Ht Hb Hal Hr Hc|t d o s k kd t' n' cn Ht Hb Hal Hr Hc|
      t d o r Ht|t o Ht|t o k r w' bs Ht Hp He Hbk Hun Hmk Hde|t r Ht|t m Ht Nm|t m Ht].
    + intros u d' o' l' E. cbn [ext w_now w_log set_th th] in E |- *. destruct (set_cases _ _ _ _ _ _ Ht E) as [[-> Z]|[N Z]].
      * injection Z as -> -> ->. exists (length (w_log w)). split; [|discriminate]. split; [apply nth_end|]. intros j b L Ej. apply nth_lt in Ej. rewrite app_length in Ej. cbn [length] in Ej. lia.
      * destruct (IH u d' o' l' Z) as (en & Z1 & Z2). exists en. split; [apply last_call_keep; [exact Z1|congruence]|].
        intros El. destruct (Z2 El) as (r0 & rd & Y1 & Y2). exists r0, rd. auto using nth_keep.
    + eapply calli_keep; [exact IH|exact Ht|discriminate| |].
      * intros u d' o' l2 N E. cbn [set_box set_th th] in E. rewrite others_err in E by exact N. exact E.
      * intros d' o' l2 E. cbn [set_box set_th th] in E. erewrite self_err in E by exact Ht. injection E as <- <- <-. exists l. split; [reflexivity|]. intros ->. right.
        destruct (ret_none _ _ _ _ _ _ _ _ Hs) as [-> ->]. eauto.
    + eapply calli_keep; [exact IH|exact Ht|discriminate| |].
      * intros u d' o' l2 N E. cbn [set_box set_th th] in E. rewrite others_err in E by exact N. exact E.
      * intros d' o' l2 E. cbn [set_box set_th th] in E. erewrite self_err in E by exact Ht. injection E as <- <- <-. exists LFull. split; [reflexivity|discriminate].
    + eapply calli_keep; [exact IH|exact Ht|discriminate| |].
      * intros u d' o' l2 N E. cbn [set_box set_th th] in E. rewrite others_err in E by exact N. exact E.
      * intros d' o' l2 E. cbn [set_box set_th th] in E. erewrite self_err in E by exact Ht. injection E as <- <- <-. exists LFull. split; [reflexivity|discriminate].
    + eapply calli_keep; [exact IH|exact Ht|discriminate| |].
      * intros u d' o' l2 N E. cbn [set_th th] in E. rewrite others_err in E by exact N. exact E.
      * intros d' o' l2 E. cbn [set_th th] in E. erewrite self_err in E by exact Ht. discriminate.
    + eapply calli_keep; [exact IH|exact Ht|discriminate| |].
      * intros u d' o' l2 N E. cbn [set_th th] in E. rewrite others_err in E by exact N. exact E.
      * intros d' o' l2 E. cbn [set_th th] in E. erewrite self_err in E by exact Ht. discriminate.
    + eapply calli_keep; [exact IH|exact Ht|discriminate| |].
      * intros u d' o' l2 N E. cbn [th] in E. rewrite others_err in E by exact N. exact E.
      * intros d' o' l2 E. cbn [th] in E. erewrite self_err in E by exact Ht. discriminate.
    + eapply calli_keep; [exact IH|exact Ht|discriminate| |].
      * intros u d' o' l2 N E. cbn [set_th th] in E. rewrite others_err in E by exact N. exact E.
      * intros d' o' l2 E. cbn [set_th th] in E. erewrite self_err in E by exact Ht. discriminate.
    + eapply calli_keep; [exact IH|exact Ht|discriminate|auto|]. intros d' o' l2 E. rewrite Ht in E. discriminate.
    + eapply calli_keep; [exact IH|exact Ht|discriminate|auto|]. intros d' o' l2 E. rewrite Ht in E. discriminate.
Qed.

(** *** what is stored *)
Definition Present w (d : nat) (q : K) (m : nat) : Prop := exists s i e, hist w d m = Some s /\ lives s i e /\ keqf c (pid (tb s)) q (fst e) = true.
Definition constructsb (a : wact) (d i : nat) : bool := match a with WLocal d' _ (LCons _ _) (ECell i' _) _ _ => Nat.eqb d' d && Nat.eqb i' i | _ => false end.
Lemma constructs_b (a : wact) d i : constructs a d i <-> constructsb a d i = true.
Proof. destruct a; cbn; try (split; [tauto|discriminate]). destruct l; try (split; [tauto|discriminate]). destruct e; try (split; [tauto|discriminate]). rewrite andb_true_iff, !Nat.eqb_eq. tauto. Qed.
Lemma last_ex (f : nat -> bool) N : (exists i, (i < N)%nat /\ f i = true /\ forall j, (i < j < N)%nat -> f j = false) \/ forall j, (j < N)%nat -> f j = false.
Proof.
  induction N as [|N IH]; [right; intros; lia|]. destruct (f N) eqn:E; [left; exists N; split; [lia|split; [exact E|intros; lia]]|].
  destruct IH as [(i & L & Ei & Hi)|H]; [left; exists i|right].
  - split; [lia|]. split; [exact Ei|]. intros j Lj. destruct (Nat.eq_dec j N) as [->|]; [exact E|apply Hi; lia].
  - intros j Lj. destruct (Nat.eq_dec j N) as [->|]; [exact E|apply H; lia].
Qed.
(** an element is constructed only if no equivalent one is stored *)
Lemma construct_event' w r t a d i : wruns P n w -> nth_error (w_log w) r = Some (t, a) -> constructs a d i ->
  exists s s' q v, hist w d r = Some s /\ hist w d (S r) = Some s' /\ lives s' i (q, v) /\ pid (tb s') = pid (tb s) /\ equivalence c (pid (tb s)) /\ locked a d (i / 15)%nat true /\
    (forall j e, lives s j e -> keqf c (pid (tb s)) q (fst e) = false) /\ exists p l e l' rd, a = WLocal d (Point p) l e l' rd /\ q = pkey p.
Proof.
  intros R E Hc. destruct a as [| |d' o l e l' rd| | | | |]; cbn [constructs] in Hc; try contradiction. destruct l; try contradiction. destruct e; try contradiction. destruct Hc as [-> ->].
  destruct (run_local w r t d o _ _ _ _ R E) as (w1 & s & so & i' & thr & a & s' & R1 & L & G & Ht & Hb & Se & Hs & Ha & H1 & H2).
  pose proof (reach_wi c st HC P n w1 HP R1) as I. destruct (wi_box _ _ _ I d s Hb) as (k & ep & D). pose proof (d_inv _ _ _ _ _ _ _ _ _ D) as CI.
  pose proof (proj2 (view_at (w_now w1) d t o _) Ht) as Hv. destruct (cb_ti _ _ _ _ (proj1 CI) _ _ _ Hv) as [Wf _]. destruct o as [p| |]; try contradiction.
  pose proof (writes_declared c _ _ _ _ _ _ _ _ _ _ _ d Hs eq_refl) as Hu. destruct (use_lock c _ _ _ _ _ _ _ _ _ CI Hv Hu) as (y & Ly & Ey). rewrite (Ey eq_refl) in Ly.
  cbn [lstep pstep] in Hs. destruct p as [| |x1 k1 v1 f1 f2]; try discriminate. destruct (get_cell _ _) as [[| |]|]; try discriminate. destruct thr; [discriminate|].
  destruct (f1 (k1, v1)) as [v' b]. injection Hs as <- <- _ _.
  exists s, s', k1, v'. split; [exact H1|]. split; [exact H2|]. split; [|split; [|split; [|split; [|split]]]].
  - unfold lives. cbn [apply] in Ha. unfold put_cell in Ha. destruct (a_elems (arr (tb s))) as [cs|] eqn:Ec; [|discriminate]. destruct (nth_error cs _) eqn:Ei; [|discriminate].
    injection Ha as <-. unfold cells, A. cbn [tb set_arr arr a_elems]. rewrite set_nth_err by (apply nth_error_Some; congruence). rewrite Nat.eqb_refl. reflexivity.
  - apply (ap_ids _ _ _ Ha).
  - apply (cb_compat _ _ _ _ (proj1 CI)).
  - cbn [locked]. auto.
  - intros j e0 He. pose proof (claim_absent c k s _ t _ _ _ CI Hv) as Ab. apply Ab. eapply elems_in; exact He.
  - eexists _, _, _, _, _. split; reflexivity.
Qed.
Lemma construct_event w r t a d i : wruns P n w -> nth_error (w_log w) r = Some (t, a) -> constructs a d i ->
  exists s s' q v, hist w d r = Some s /\ hist w d (S r) = Some s' /\ lives s' i (q, v) /\ pid (tb s') = pid (tb s) /\ equivalence c (pid (tb s)) /\ locked a d (i / 15)%nat true /\
    forall j e, lives s j e -> keqf c (pid (tb s)) q (fst e) = false.
Proof. intros R E Hc. destruct (construct_event' w r t a d i R E Hc) as (s & s' & q & v & H1 & H2 & H3 & H4 & H5 & H6 & H7 & _). exists s, s', q, v. auto 10. Qed.

(** the key becomes present at event i, which happens before the call at en, and is present until the return at r: not "not found" *)
Lemma lookup_finds w t d p en r i : wruns P n w -> nth_error (w_log w) en = Some (t, WCall d (Point p)) -> nth_error (w_log w) r = Some (t, WRet d RNone) ->
  (forall j d' o', (en < j < r)%nat -> nth_error (w_log w) j <> Some (t, WCall d' o')) -> (en < r)%nat ->
  hb (w_log w) i en -> ~ Present w d (pkey p) i -> (forall m, (i < m <= r)%nat -> Present w d (pkey p) m) -> False.
Proof.
  intros R Een Er Nc Ler Hie Ab Pr.
  (* the return *)
  destruct (run_event w r _ R Er) as (w1 & w2 & C & R1 & Sp & _ & E2 & L1 & G1 & _). cbn [fst snd] in E2.
  assert (exists o, nth_error (th (w_now w1)) t = Some (At d o (LRet RNone))) as (o & Ht).
  { destruct Sp; injection E2 as E2 E3; try discriminate; apply app_inj_tail in E3 as [_ E3]; try discriminate. injection E3 as -> -> ->. eauto. }
  destruct (run_calls w1 R1 t d o _ Ht) as (en1 & [C1 C2] & Z). destruct (Z eq_refl) as (r0 & rd & Lr0 & Er0). clear Z.
  pose proof (nth_lt _ _ _ C1) as Len1. pose proof (nth_lt _ _ _ Er0) as Lr0'. rewrite L1 in Len1, Lr0'.
  assert (en1 = en) as ->.
  { rewrite <- (agrees_log w w1) in C1 by (exact G1 || lia). destruct (Nat.lt_trichotomy en1 en) as [L|[L|L]]; [|exact L|].
    - rewrite (agrees_log w w1) in Een by (exact G1 || lia). destruct (C2 en _ L Een d (Point p) eq_refl).
    - destruct (Nc en1 d o ltac:(lia) C1). }
  assert (o = Point p) as -> by (rewrite <- (agrees_log w w1) in C1 by (exact G1 || lia); congruence).
  (* the end of the lookup *)
  rewrite <- (agrees_log w w1) in Er0 by (exact G1 || lia).
  destruct (run_local w r0 t d _ _ _ _ _ R Er0) as (w0 & s & so & i0 & thr & a & s' & R0 & L0 & G0 & Ht0 & Hb & _ & _ & _ & H1 & _).
  pose proof (reach_wi c st HC P n w0 HP R0) as I. destruct (wi_box _ _ _ I d s Hb) as (k & ep & D). pose proof (reach_li c st HC P n w0 HP R0 d s k ep Hb D) as Lv.
  pose proof (proj2 (view_at (w_now w0) d t _ _) Ht0) as Hv. pose proof (hb_bounds _ _ _ _ Hie) as Bi.
  assert (last_call (w_log w0) t en d (Point p)) as Lc.
  { split; [rewrite <- (agrees_log w w0) by (exact G0 || lia); exact Een|]. intros j b Lj Ej d' o' ->. pose proof (nth_lt _ _ _ Ej). rewrite <- (agrees_log w w0) in Ej by (exact G0 || lia).
    destruct (Nc j d' o' ltac:(lia) Ej). }
  destruct (Pr r0 ltac:(lia)) as (s1 & j0 & e & X1 & X2 & X3). assert (s1 = s) as -> by congruence.
  assert (Eqv : equivalence c (pid (tb s))) by apply (cb_compat _ _ _ _ (proj1 (d_inv _ _ _ _ _ _ _ _ _ D))).
  assert (Pid : forall m sm, (ep < m <= r0)%nat -> hist w d m = Some sm -> pid (tb sm) = pid (tb s)).
  { intros m sm Lm Hm. rewrite (agrees_hist w w0) in Hm by (exact G0 || lia). destruct (hist_box c st _ _ _ _ _ _ _ m sm D ltac:(lia) Hm) as (_ & E & _). exact E. }
  assert (F : Ahead k (LDone RNone : loc) j0); [|exact F]. apply (l_look _ _ _ _ _ _ _ _ _ Lv t p (LDone RNone) en (Point p) Hv eq_refl Lc j0 e X2 X3).
  set (f := fun j => Nat.ltb ep j && match nth_error (w_log w0) j with Some (_, b) => constructsb b d j0 | None => false end).
  assert (Hf : forall j u b, (ep < j)%nat -> nth_error (w_log w0) j = Some (u, b) -> constructs b d j0 -> f j = true).
  { intros j u b Lj Ej Hc. unfold f. rewrite Ej, (proj2 (Nat.ltb_lt _ _) Lj). apply constructs_b, Hc. }
  destruct (last_ex f r0) as [(is & Ls & Fs & Fl)|Fn].
  2: { intros j u b Lj Ej Hc. pose proof (nth_lt _ _ _ Ej). pose proof (Hf j u b Lj Ej Hc) as Hj. rewrite (Fn j) in Hj by lia. discriminate Hj. }
  unfold f in Fs. apply andb_true_iff in Fs as [Fs1 Fs2]. apply Nat.ltb_lt in Fs1. destruct (nth_error (w_log w0) is) as [[us bs]|] eqn:Es; [|discriminate]. apply constructs_b in Fs2.
  assert (Nx : forall j u b, (is < j)%nat -> nth_error (w_log w0) j = Some (u, b) -> ~ constructs b d j0).
  { intros j u b Lj Ej Hc. pose proof (nth_lt _ _ _ Ej). pose proof (Hf j u b ltac:(lia) Ej Hc) as Hj. rewrite (Fl j) in Hj by lia. discriminate Hj. }
  (* the last construction in the slot is event i *)
  destruct (l_since _ _ _ _ _ _ _ _ _ Lv j0 e (S is) X2 ltac:(lia)) as (sm & e' & Y1 & Y2 & Y3). { intros j u b Lj Ej. apply (Nx j u b); [lia|exact Ej]. }
  destruct (construct_event w0 is us bs d j0 R0 Es Fs2) as (sa & sb & q & v & A1 & A2 & A3 & A4 & A5 & A6 & A7).
  assert (sm = sb) as -> by congruence. assert (e' = (q, v)) as -> by (unfold lives in *; congruence). cbn [fst] in Y3. rewrite <- Y3 in X3.
  assert (Pa : pid (tb sa) = pid (tb s)) by (apply (Pid is); [lia|rewrite (agrees_hist w w0) by (exact G0 || lia); exact A1]).
  assert (is = i) as ->.
  { destruct (Nat.lt_trichotomy is i) as [L|[L|L]]; [exfalso|exact L|exfalso].
    - destruct (l_since _ _ _ _ _ _ _ _ _ Lv j0 e i X2 ltac:(lia)) as (sm & e' & B1 & B2 & B3). { intros j u b Lj Ej. apply (Nx j u b); [lia|exact Ej]. }
      apply Ab. exists sm, j0, e'. rewrite (agrees_hist w w0) by (exact G0 || lia). split; [exact B1|]. split; [exact B2|].
      rewrite (Pid i sm); [rewrite B3, <- Y3; exact X3|lia|]. rewrite (agrees_hist w w0) by (exact G0 || lia). exact B1.
    - destruct (Pr is ltac:(lia)) as (s2 & j2 & e2 & B1 & B2 & B3). rewrite (agrees_hist w w0) in B1 by (exact G0 || lia). assert (s2 = sa) as -> by congruence.
      specialize (A7 j2 e2 B2). rewrite Pa in *. rewrite (equiv_same c _ _ _ _ A5 X3 B3) in A7. discriminate. }
  assert (Hie0 : hb (w_log w0) i en) by (eapply agrees_hb; [exact G0|exact Hie|lia]).
  intros j u b Lj Ej Hc. destruct (Nat.lt_trichotomy j i) as [L|[->|L]]; [|exact Hie0|destruct (Nx j u b L Ej Hc)].
  eapply hb_trans; [|exact Hie0]. eapply (wi_race _ _ _ I); [exact L|exact Ej|exact Es|].
  destruct (construct_event w0 j u b d j0 R0 Ej Hc) as (_ & _ & _ & _ & _ & _ & _ & _ & _ & B6 & _).
  exists d. left. exists (j0 / 15)%nat, true, true. auto.
Qed.

(** *** data races *)
(** accesses to the non-atomic data of a container: to element slot i ([Some i]; w: not only reading), and to the rest of the container ([None]) *)
Definition uses (a : wact) (d : nat) (m : option nat) (wr : bool) : Prop :=
  match a with
  | WLocal d' o l _ _ _ => d' = d /\ match m with Some i => slot_use d (At d o l) = Some (i, wr) | None => wr = false end
  | WExcl _ _ => replaces a d /\ wr = true
  | _ => False
  end.
Lemma no_race w i j u v a b d m x y : wruns P n w -> nth_error (w_log w) i = Some (u, a) -> nth_error (w_log w) j = Some (v, b) -> (i < j)%nat ->
  uses a d m x -> uses b d m y -> x || y = true -> hb (w_log w) i j.
Proof.
  intros R Ei Ej L Ua Ub Hxy. pose proof (reach_wi c st HC P n w HP R) as I. eapply (wi_race _ _ _ I); [exact L|exact Ei|exact Ej|]. exists d.
  assert (Z : forall i u a s x, nth_error (w_log w) i = Some (u, a) -> uses a d (Some s) x -> local a d -> exists y, locked a d (s / 15)%nat y /\ (x = true -> y = true)).
  { clear - R HP HC. intros i u a s x Ei Ua La. destruct a as [| |d' o l e l' rd| | | | |]; cbn [local] in La; try contradiction. subst d'. cbn [uses] in Ua. destruct Ua as [_ Ua].
    destruct (run_local w i u d o _ _ _ _ R Ei) as (w1 & s0 & so & i' & thr & a & s' & R1 & _ & G & Ht & Hb & _).
    pose proof (reach_wi c st HC P n w1 HP R1) as I. destruct (wi_box _ _ _ I d s0 Hb) as (k & ep & D).
    destruct (use_lock c _ _ _ _ _ _ _ _ _ (d_inv _ _ _ _ _ _ _ _ _ D) (proj2 (view_at (w_now w1) d u o _) Ht) Ua) as (y & Ly & Ey). exists y. cbn [locked]. auto. }
  assert (Y : forall a m x, uses a d m x -> (local a d /\ (m = None -> x = false)) \/ (replaces a d /\ x = true)).
  { clear. intros a m x U. destruct a; cbn [uses] in U; try contradiction; [left|right; tauto]. destruct U as [-> U]. cbn [local]. split; [reflexivity|]. intros ->. exact U. }
  destruct (Y _ _ _ Ua) as [[La Na]|[Ra ->]], (Y _ _ _ Ub) as [[Lb Nb]|[Rb ->]]; auto.
  left. destruct m as [s|]; [|rewrite Na, Nb in Hxy by reflexivity; discriminate].
  destruct (Z _ _ _ _ _ Ei Ua La) as (x' & L1 & E1), (Z _ _ _ _ _ Ej Ub Lb) as (y' & L2 & E2). exists (s / 15)%nat, x', y'. split; [exact L1|]. split; [exact L2|].
  destruct x; [rewrite E1 by reflexivity; reflexivity|]. cbn [orb] in Hxy. rewrite (E2 Hxy). apply orb_true_r.
Qed.
End Runs.
End WFind.
