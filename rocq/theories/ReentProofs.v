From Coq Require Import Bool List Arith Lia.
From Verif Require Import ReentModel ReentSpec.
Import ListNotations.

(** the list of entry traces from pe on, below depth d *)
Fixpoint chain (m : mem) (pe : option nat) (enc : list nat) (d : nat) : Prop :=
  match enc with
  | [] => pe = None
  | x :: r => match pe with Some i => i < d /\ px (objs m i) = Some x /\ chain m (next (objs m i)) r i | None => False end
  end.
Lemma chain_ext m m' enc : forall pe d, (forall i, i < d -> objs m' i = objs m i) -> chain m pe enc d -> chain m' pe enc d.
Proof.
  induction enc as [|x r IH]; intros pe d H C; cbn [chain] in *; [exact C|]. destruct pe as [i|]; [|exact C]. destruct C as (L & P & C). rewrite (H i L). split; [exact L|]. split; [exact P|].
  apply IH; [|exact C]. intros j Hj. apply H. lia.
Qed.
Lemma chain_len m enc : forall pe d, chain m pe enc d -> length enc <= d.
Proof. induction enc as [|x r IH]; intros pe d C; cbn [length]; [lia|]. cbn [chain] in C. destruct pe as [i|]; [|contradiction]. destruct C as (L & _ & C). apply IH in C. lia. Qed.
Lemma find_chain m x enc : forall pe d fuel, chain m pe enc d -> d <= fuel -> find fuel m pe x = inside x enc.
Proof.
  induction enc as [|y r IH]; intros pe d fuel C L; cbn [chain] in C.
  - subst pe. destruct fuel; reflexivity.
  - destruct pe as [i|]; [|contradiction]. destruct C as (Li & P & C). destruct fuel as [|fuel]; [lia|]. cbn [find]. rewrite P. unfold inside. cbn [existsb]. rewrite (Nat.eqb_sym x y). destruct (y =? x); [reflexivity|].
    cbn [orb]. apply (IH _ i); [exact C|lia].
Qed.
Lemma chain_weak m enc pe d d' : chain m pe enc d -> d <= d' -> chain m pe enc d'.
Proof. destruct enc as [|x r]; cbn [chain]; [auto|]. destruct pe; [|auto]. intros (A & B) L. split; [lia|exact B]. Qed.
Lemma enter_ok m d x enc : chain m (header m) enc d ->
  if inside x enc then enter m d (Some x) = None
  else exists m1, enter m d (Some x) = Some m1 /\ header m1 = Some d /\ objs m1 d = Ent (Some x) (header m) /\ (forall i, i <> d -> objs m1 i = objs m i) /\ chain m1 (header m1) (x :: enc) (S d).
Proof.
  intros C. unfold enter. set (m1 := store m d (Ent (Some x) (header m))). assert (forall i, i <> d -> objs m1 i = objs m i) as E.
  { intros i N. cbn. apply Nat.eqb_neq in N. rewrite N. reflexivity. }
  assert (chain m1 (header m1) enc d) as C1 by (apply (chain_ext m); [intros i L; apply E; lia|exact C]).
  rewrite (find_chain m1 x enc _ d (S d) C1) by lia. destruct (inside x enc); [reflexivity|]. eexists. split; [reflexivity|]. assert (objs m1 d = Ent (Some x) (header m)) as Ed by (cbn; rewrite Nat.eqb_refl; reflexivity).
  split; [reflexivity|]. split; [exact Ed|]. split; [exact E|]. cbn [chain set_header header]. split; [lia|]. cbn [objs set_header]. rewrite Ed. split; [reflexivity|]. apply (chain_ext m1); [reflexivity|exact C1].
Qed.
Lemma enter_none m d enc : chain m (header m) enc d -> exists m1, enter m d None = Some m1 /\ header m1 = header m /\ objs m1 d = Ent None (header m) /\ (forall i, i <> d -> objs m1 i = objs m i) /\ chain m1 (header m1) enc (S d).
Proof.
  intros C. unfold enter. eexists. split; [reflexivity|]. split; [reflexivity|]. split; [cbn; rewrite Nat.eqb_refl; reflexivity|]. assert (forall i, i <> d -> objs (store m d (Ent None (header m))) i = objs m i) as E.
  { intros i N. cbn. apply Nat.eqb_neq in N. rewrite N. reflexivity. }
  split; [exact E|]. apply (chain_weak _ _ _ d); [|lia]. apply (chain_ext m); [intros i L; apply E; lia|exact C].
Qed.
(** m' is m with other objects at depth d and above *)
Definition same (d : nat) (m m' : mem) : Prop := header m' = header m /\ forall i, i < d -> objs m' i = objs m i.
Lemma clear_some m d x n : objs m d = Ent (Some x) n -> header (clear m d) = n /\ (forall i, i <> d -> objs (clear m d) i = objs m i) /\ px (objs (clear m d) d) = None.
Proof.
  intros E. unfold clear. rewrite E. cbn. split; [reflexivity|]. split; [intros i N; apply Nat.eqb_neq in N; rewrite N; reflexivity|]. rewrite Nat.eqb_refl. reflexivity.
Qed.
Lemma clear_none m d : px (objs m d) = None -> clear m d = m. Proof. intros E. unfold clear. rewrite E. reflexivity. Qed.
Lemma same_chain d m m' enc : same d m m' -> chain m (header m) enc d -> chain m' (header m') enc d.
Proof. intros (A & B) C. rewrite A. apply (chain_ext m); assumption. Qed.
Lemma same_trans d m m1 m2 : same d m m1 -> same d m1 m2 -> same d m m2.
Proof. intros (A & B) (A2 & B2). split; [congruence|]. intros i L. rewrite B2, B by exact L. reflexivity. Qed.

Theorem run_checked p : forall d m enc, chain m (header m) enc d -> exists m', run p d m = (fst (checked p enc), snd (checked p enc), m') /\ same d m m'.
Proof.
  induction p as [|a IHa b IHb| |a IHa|x ex a IHa|x y a IHa|x ex a IHa b IHb]; intros d m enc C; cbn [run checked].
  - exists m. repeat split.
  - destruct (IHa d m enc C) as (m1 & E & S1). rewrite E. destruct (checked a enc) as [[|] l]; cbn [fst snd].
    + destruct (IHb d m1 enc (same_chain _ _ _ _ S1 C)) as (m2 & E2 & S2). rewrite E2. exists m2. split; [reflexivity|]. exact (same_trans _ _ _ _ S1 S2).
    + exists m1. split; [reflexivity|exact S1].
  - exists m. repeat split.
  - destruct (IHa d m enc C) as (m1 & E & S1). rewrite E. exists m1. split; [reflexivity|exact S1].
  - pose proof (enter_ok m d x enc C) as X. destruct (inside x enc); [rewrite X; exists m; repeat split|]. destruct X as (m1 & -> & H1 & O1 & R1 & C1).
    destruct (IHa (S d) m1 (x :: enc) C1) as (m2 & E & (S1 & S2)). rewrite E. eexists. split; [reflexivity|]. assert (objs m2 d = Ent (Some x) (header m)) as O2 by (rewrite S2 by lia; exact O1).
    destruct (clear_some m2 d x _ O2) as (A1 & A2 & _). split; [exact A1|]. intros i L. rewrite A2 by lia. rewrite S2 by lia. apply R1. lia.
  - pose proof (enter_ok m d x enc C) as X. destruct (inside x enc) eqn:Ix; [rewrite X; exists m; repeat split|]. destruct X as (m1 & -> & H1 & O1 & R1 & C1). destruct (Nat.eqb_spec x y) as [<-|N].
    + destruct (enter_none m1 (S d) (x :: enc) C1) as (m2 & -> & H2 & O2 & R2 & C2). destruct (IHa (S (S d)) m2 (x :: enc) C2) as (m3 & E & (S1 & S2)). rewrite E, Ix.
      eexists. split; [reflexivity|]. rewrite (clear_none m3 (S d)) by (rewrite S2 by lia; rewrite O2; reflexivity).
      assert (objs m3 d = Ent (Some x) (header m)) as O3 by (rewrite S2 by lia; rewrite R2 by lia; exact O1). destruct (clear_some m3 d x _ O3) as (A1 & A2 & _). split; [exact A1|]. intros i L. rewrite A2 by lia. rewrite S2 by lia. rewrite R2 by lia. apply R1. lia.
    + pose proof (enter_ok m1 (S d) y (x :: enc) C1) as Y. assert (inside y (x :: enc) = inside y enc) as Ey by (unfold inside; cbn [existsb]; rewrite (proj2 (Nat.eqb_neq y x)) by congruence; reflexivity). rewrite Ey in Y.
      destruct (inside y enc).
      * rewrite Y. destruct (clear_some m1 d x _ O1) as (A1 & A2 & _). eexists. split; [reflexivity|]. split; [exact A1|]. intros i L. rewrite A2 by lia. apply R1. lia.
      * destruct Y as (m2 & -> & H2 & O2 & R2 & C2). destruct (IHa (S (S d)) m2 (y :: x :: enc) C2) as (m3 & E & (S1 & S2)). rewrite E. eexists. split; [reflexivity|].
        assert (objs m3 (S d) = Ent (Some y) (header m1)) as O3 by (rewrite S2 by lia; exact O2). destruct (clear_some m3 (S d) y _ O3) as (A1 & A2 & _).
        assert (objs (clear m3 (S d)) d = Ent (Some x) (header m)) as O4 by (rewrite A2, S2, R2 by lia; exact O1). destruct (clear_some (clear m3 (S d)) d x _ O4) as (B1 & B2 & _).
        split; [exact B1|]. intros i L. rewrite B2, A2, S2, R2 by lia. apply R1. lia.
  - pose proof (enter_ok m d x enc C) as X. destruct (inside x enc); [rewrite X; exists m; repeat split|]. destruct X as (m1 & -> & H1 & O1 & R1 & C1).
    destruct (IHa (S d) m1 (x :: enc) C1) as (m2 & E & (S1 & S2)). rewrite E. assert (objs m2 d = Ent (Some x) (header m)) as O2 by (rewrite S2 by lia; exact O1).
    destruct (clear_some m2 d x _ O2) as (A1 & A2 & A3). assert (same d m (clear m2 d)) as SM by (split; [exact A1|intros i L; rewrite A2, S2 by lia; apply R1; lia]).
    destruct (checked a (x :: enc)) as [[|] l]; cbn [fst snd].
    + pose proof (chain_weak _ _ _ d (S d) (same_chain _ _ _ _ SM C) ltac:(lia)) as C3. destruct (IHb (S d) (clear m2 d) enc C3) as (m4 & E4 & (T1 & T2)). rewrite E4. eexists. split; [reflexivity|].
      rewrite (clear_none m4 d) by (rewrite T2 by lia; exact A3). destruct SM as (U1 & U2). split; [congruence|]. intros i L. rewrite T2 by lia. apply U2. exact L.
    + eexists. split; [reflexivity|exact SM].
Qed.
Lemma start_chain : chain start (header start) [] 0. Proof. reflexivity. Qed.

(** *** locks *)
Lemma has_after_app h l1 l2 : has_after h (l1 ++ l2) = has_after (has_after h l1) l2.
Proof. revert h. induction l1 as [|e l1 IH]; intros h; [reflexivity|]. cbn [app has_after]. destruct e; apply IH. Qed.
(** no lock the thread has is requested *)
Fixpoint fine (h : list nat) (l : list event) : Prop :=
  match l with
  | [] => True
  | ELock x _ :: r => ~ In x h /\ fine (x :: h) r
  | EUnlock x _ :: r => fine (remove Nat.eq_dec x h) r
  | EAssert _ :: r => fine h r
  end.
Lemma fine_app h l1 l2 : fine h (l1 ++ l2) <-> fine h l1 /\ fine (has_after h l1) l2.
Proof.
  revert h. induction l1 as [|e l1 IH]; intros h; cbn [app fine has_after]; [tauto|]. destruct e; rewrite IH; tauto.
Qed.
Lemma fine_self l h : fine h l <-> ~ exists l1 x ex l2, l = l1 ++ ELock x ex :: l2 /\ In x (has_after h l1).
Proof.
  split.
  - intros F (l1 & x & ex & l2 & -> & I). apply fine_app in F as [_ F]. cbn [fine] in F. apply (proj1 F I).
  - revert h. induction l as [|e l IH]; intros h N; cbn [fine]; [exact Logic.I|]. destruct e as [x ex|x ex|x].
    + split; [intros I; apply N; exists [], x, ex, l; auto|]. apply IH. intros (l1 & y & ey & l2 & -> & I). apply N. exists (ELock x ex :: l1), y, ey, l2. auto.
    + apply IH. intros (l1 & y & ey & l2 & -> & I). apply N. exists (EUnlock x ex :: l1), y, ey, l2. auto.
    + apply IH. intros (l1 & y & ey & l2 & -> & I). apply N. exists (EAssert x :: l1), y, ey, l2. auto.
Qed.
Lemma fine_dec h l : fine h l \/ exists l1 x ex l2, l = l1 ++ ELock x ex :: l2 /\ In x (has_after h l1).
Proof.
  revert h. induction l as [|e l IH]; intros h; [left; exact Logic.I|]. destruct e as [x ex|x ex|x]; cbn [fine].
  - destruct (in_dec Nat.eq_dec x h) as [I|N]; [right; exists [], x, ex, l; auto|]. destruct (IH (x :: h)) as [F|(l1 & y & ey & l2 & -> & I)]; [left; auto|right]. exists (ELock x ex :: l1), y, ey, l2. auto.
  - destruct (IH (remove Nat.eq_dec x h)) as [F|(l1 & y & ey & l2 & -> & I)]; [left; auto|right]. exists (EUnlock x ex :: l1), y, ey, l2. auto.
  - destruct (IH h) as [F|(l1 & y & ey & l2 & -> & I)]; [left; auto|right]. exists (EAssert x :: l1), y, ey, l2. auto.
Qed.
Lemma not_fine_self l : ~ fine [] l -> self_lock l.
Proof. intros N. destruct (fine_dec [] l) as [F|S]; [contradiction|exact S]. Qed.
Lemma inside_in x enc : inside x enc = true <-> In x enc.
Proof. unfold inside. rewrite existsb_exists. split; [intros (y & I & E); apply Nat.eqb_eq in E; subst; exact I|intros I; exists x; split; [exact I|apply Nat.eqb_refl]]. Qed.
Lemma inside_not x enc : inside x enc = false -> ~ In x enc. Proof. intros E I. apply inside_in in I. congruence. Qed.
Lemma remove_cons x h : ~ In x h -> remove Nat.eq_dec x (x :: h) = h.
Proof. intros N. cbn. destruct (Nat.eq_dec x x); [|congruence]. apply notin_remove. exact N. Qed.
Lemma has_lock x ex l h : ~ In x h -> has_after (x :: h) l = x :: h -> has_after h (ELock x ex :: l ++ [EUnlock x ex]) = h.
Proof. intros N E. cbn [has_after]. rewrite has_after_app, E. cbn [has_after]. apply remove_cons. exact N. Qed.
(** the two-container guard: enc as a set is enough *)
Lemma lohi x y : x <> y -> (lo x y = x /\ hi x y = y) \/ (lo x y = y /\ hi x y = x).
Proof. unfold lo, hi. lia. Qed.

Definition set_eq (h enc : list nat) : Prop := forall z, In z h <-> In z enc.
Lemma set_eq_cons h enc x : set_eq h enc -> set_eq (x :: h) (x :: enc). Proof. intros E z. cbn [In]. rewrite (E z). tauto. Qed.
Lemma set_eq_two h enc x y : x <> y -> set_eq h enc -> set_eq (hi x y :: lo x y :: h) (y :: x :: enc).
Proof. intros N E z. cbn [In]. rewrite (E z). destruct (lohi x y N) as [(-> & ->)|(-> & ->)]; tauto. Qed.
Lemma fine_one x ex l h : ~ In x h -> fine (x :: h) l -> has_after (x :: h) l = x :: h -> fine h (ELock x ex :: l ++ [EUnlock x ex]) /\ has_after h (ELock x ex :: l ++ [EUnlock x ex]) = h.
Proof.
  intros N F E. split; [|apply has_lock; assumption]. cbn [fine]. split; [exact N|]. apply fine_app. split; [exact F|]. cbn. exact Logic.I.
Qed.
Lemma fine_two x y l h : x <> y -> ~ In x h -> ~ In y h -> fine (hi x y :: lo x y :: h) l -> has_after (hi x y :: lo x y :: h) l = hi x y :: lo x y :: h ->
  let l' := ELock (lo x y) true :: ELock (hi x y) true :: l ++ [EUnlock (hi x y) true; EUnlock (lo x y) true] in fine h l' /\ has_after h l' = h.
Proof.
  intros N Nx Ny F E l'. assert (lo x y <> hi x y) as Nl by (unfold lo, hi; lia). assert (~ In (lo x y) h) as N1 by (destruct (lohi x y N) as [(-> & _)|(-> & _)]; assumption).
  assert (~ In (hi x y) (lo x y :: h)) as N2 by (intros [H|H]; [congruence|]; destruct (lohi x y N) as [(_ & Q)|(_ & Q)]; rewrite Q in H; contradiction).
  unfold l'. cbn [fine has_after]. split.
  - split; [exact N1|]. split; [exact N2|]. apply fine_app. split; [exact F|]. cbn. exact Logic.I.
  - rewrite has_after_app, E. cbn [has_after]. rewrite (remove_cons _ _ N2). apply remove_cons. exact N1.
Qed.
(** in a checked run no lock the thread has is requested, and all locks are released *)
Theorem checked_fine p : forall enc h, set_eq h enc -> fine h (snd (checked p enc)) /\ has_after h (snd (checked p enc)) = h.
Proof.
  induction p as [|a IHa b IHb| |a IHa|x ex a IHa|x y a IHa|x ex a IHa b IHb]; intros enc h Q; cbn [checked].
  - split; [exact Logic.I|reflexivity].
  - destruct (IHa enc h Q) as (A1 & A2). destruct (checked a enc) as [[|] l]; cbn [fst snd] in *; [|auto]. destruct (IHb enc h Q) as (B1 & B2). rewrite has_after_app, A2. split; [|exact B2]. apply fine_app. rewrite A2. auto.
  - split; [exact Logic.I|reflexivity].
  - exact (IHa enc h Q).
  - destruct (inside x enc) eqn:Ix; [cbn; auto|]. cbn [snd]. destruct (IHa (x :: enc) (x :: h) (set_eq_cons _ _ _ Q)) as (A1 & A2). apply inside_not in Ix. rewrite <- (Q x) in Ix. apply fine_one; assumption.
  - destruct (inside x enc) eqn:Ix; [cbn; auto|]. apply inside_not in Ix. rewrite <- (Q x) in Ix. destruct (inside y enc) eqn:Iy; [cbn; auto|]. apply inside_not in Iy. rewrite <- (Q y) in Iy. destruct (Nat.eqb_spec x y) as [<-|N]; cbn [snd].
    + destruct (IHa (x :: enc) (x :: h) (set_eq_cons _ _ _ Q)) as (A1 & A2). apply fine_one; assumption.
    + destruct (IHa (y :: x :: enc) (hi x y :: lo x y :: h) (set_eq_two _ _ _ _ N Q)) as (A1 & A2). apply fine_two; assumption.
  - destruct (inside x enc) eqn:Ix; [cbn; auto|]. apply inside_not in Ix. rewrite <- (Q x) in Ix. destruct (IHa (x :: enc) (x :: h) (set_eq_cons _ _ _ Q)) as (A1 & A2).
    destruct (checked a (x :: enc)) as [[|] l]; cbn [fst snd] in *; [|apply fine_one; assumption]. destruct (IHb enc h Q) as (B1 & B2). destruct (fine_one x ex l h Ix A1 A2) as (F1 & F2).
    change (ELock x ex :: l ++ EUnlock x ex :: snd (checked b enc)) with ((ELock x ex :: l) ++ [EUnlock x ex] ++ snd (checked b enc)). rewrite app_assoc. change ((ELock x ex :: l) ++ [EUnlock x ex]) with (ELock x ex :: l ++ [EUnlock x ex]).
    rewrite has_after_app, F2. split; [|exact B2]. apply fine_app. rewrite F2. auto.
Qed.
(** compared with the unchecked run *)
Definition rep (l : list event) : Prop := exists x, In (EAssert x) l.
Lemma rep_app l1 l2 : rep (l1 ++ l2) <-> rep l1 \/ rep l2.
Proof. unfold rep. split; [intros (x & I); apply in_app_or in I as [I|I]; eauto|intros [(x & I)|(x & I)]; exists x; apply in_or_app; auto]. Qed.
Lemma rep_dec l : rep l \/ ~ rep l.
Proof. induction l as [|e l IH]; [right; intros (x & [])|]. destruct e as [x ex|x ex|x]; [| |left; exists x; left; reflexivity]; (destruct IH as [(y & I)|N]; [left; exists y; right; exact I|right; intros (y & [I|I]); [discriminate|apply N; exists y; exact I]]). Qed.
Lemma rep_lock x ex l : rep (ELock x ex :: l) <-> rep l.
Proof. unfold rep. split; [intros (y & [I|I]); [discriminate|eauto]|intros (y & I); exists y; right; exact I]. Qed.
Lemma rep_unlock x ex l : rep (EUnlock x ex :: l) <-> rep l.
Proof. unfold rep. split; [intros (y & [I|I]); [discriminate|eauto]|intros (y & I); exists y; right; exact I]. Qed.
Lemma rep_nil : ~ rep []. Proof. intros (x & []). Qed.
Ltac reps := repeat first [rewrite rep_lock in * | rewrite rep_unlock in * | rewrite rep_app in *].
Lemma not_fine_lock x ex h l : ~ fine (x :: h) l -> ~ fine h (ELock x ex :: l). Proof. intros N F. apply N. apply F. Qed.
Lemma not_fine_app h l1 l2 : ~ fine h l1 -> ~ fine h (l1 ++ l2). Proof. intros N F. apply fine_app in F. tauto. Qed.
Theorem checked_or_reported p : forall enc h, set_eq h enc ->
  (~ rep (snd (checked p enc)) -> run_unchecked p = checked p enc) /\ (rep (snd (checked p enc)) -> ~ fine h (snd (run_unchecked p))).
Proof.
  induction p as [|a IHa b IHb| |a IHa|x ex a IHa|x y a IHa|x ex a IHa b IHb]; intros enc h Q.
  - split; [reflexivity|intros H; destruct (rep_nil H)].
  - destruct (IHa enc h Q) as (A1 & A2). destruct (checked_fine a enc h Q) as (F1 & F2). cbn [checked run_unchecked]. destruct (checked a enc) as [ra l] eqn:Ea. cbn [fst snd] in *. destruct (rep_dec l) as [R|R].
    + specialize (A2 R). split.
      * intros N. exfalso. apply N. destruct ra; cbn [snd]; [apply rep_app; left; exact R|exact R].
      * intros _. destruct (run_unchecked a) as [ra' l']. cbn [snd] in A2. destruct ra'; [destruct (run_unchecked b) as [rb lb]; cbn [snd]; apply not_fine_app; exact A2|exact A2].
    + rewrite (A1 R). destruct ra; [|cbn [snd]; split; [reflexivity|intros H; contradiction]]. cbn [snd]. destruct (IHb enc h Q) as (B1 & B2). destruct (run_unchecked b) as [rb lb]. cbn [snd] in B2. split.
      * intros N. rewrite rep_app in N. rewrite <- B1 by tauto. reflexivity.
      * intros N. rewrite rep_app in N. destruct N as [N|N]; [contradiction|]. intros F. apply fine_app in F as [_ F]. rewrite F2 in F. exact (B2 N F).
  - split; [reflexivity|intros H; destruct (rep_nil H)].
  - destruct (IHa enc h Q) as (A1 & A2). cbn [checked run_unchecked snd]. destruct (run_unchecked a) as [ra l]. cbn [snd] in A2. split; [intros N; rewrite <- (A1 N); reflexivity|exact A2].
  - cbn [checked run_unchecked]. destruct (run_unchecked a) as [ra l] eqn:Eu. destruct (inside x enc) eqn:Ix.
    + apply inside_in in Ix. rewrite <- (Q x) in Ix. split; [intros N; exfalso; apply N; exists x; left; reflexivity|]. intros _ F. apply (proj1 F Ix).
    + destruct (IHa (x :: enc) (x :: h) (set_eq_cons _ _ _ Q)) as (A1 & A2). cbn [snd] in *. reps. split.
      * intros N. assert (~ rep (snd (checked a (x :: enc)))) as N' by tauto. rewrite <- (A1 N'). reflexivity.
      * intros [N|N]; [|destruct (rep_nil N)]. apply not_fine_lock, not_fine_app, A2, N.
  - cbn [checked run_unchecked]. destruct (run_unchecked a) as [ra l] eqn:Eu.
    assert (x <> y -> In x h \/ In y h -> forall l, ~ fine h (ELock (lo x y) true :: ELock (hi x y) true :: l)) as Two.
    { intros N I l0 (F1 & F2 & _). cbn [In] in F2. destruct (lohi x y N) as [(E1 & E2)|(E1 & E2)]; rewrite E1, E2 in *; destruct I; tauto. }
    destruct (inside x enc) eqn:Ix.
    + apply inside_in in Ix. rewrite <- (Q x) in Ix. split; [intros N; exfalso; apply N; exists x; left; reflexivity|]. intros _. destruct (Nat.eqb_spec x y) as [<-|N]; cbn [snd]; [intros F; apply (proj1 F Ix)|apply Two; auto].
    + destruct (inside y enc) eqn:Iy.
      * destruct (Nat.eqb_spec x y) as [<-|N]; [congruence|]. apply inside_in in Iy. rewrite <- (Q y) in Iy. split; [intros M; exfalso; apply M; exists y; left; reflexivity|]. intros _. cbn [snd]. apply Two; auto.
      * destruct (Nat.eqb_spec x y) as [<-|N]; cbn [snd].
        -- destruct (IHa (x :: enc) (x :: h) (set_eq_cons _ _ _ Q)) as (A1 & A2). cbn [snd] in *. reps. split.
           ++ intros N. assert (~ rep (snd (checked a (x :: enc)))) as N' by tauto. rewrite <- (A1 N'). reflexivity.
           ++ intros [N|N]; [|destruct (rep_nil N)]. apply not_fine_lock, not_fine_app, A2, N.
        -- destruct (IHa (y :: x :: enc) (hi x y :: lo x y :: h) (set_eq_two _ _ _ _ N Q)) as (A1 & A2). cbn [snd] in *. reps. split.
           ++ intros M. assert (~ rep (snd (checked a (y :: x :: enc)))) as N' by tauto. rewrite <- (A1 N'). reflexivity.
           ++ intros [M|M]; [|destruct (rep_nil M)]. apply not_fine_lock, not_fine_lock, not_fine_app, A2, M.
  - cbn [checked run_unchecked]. destruct (run_unchecked a) as [ra' l'] eqn:Eu. destruct (inside x enc) eqn:Ix.
    + apply inside_in in Ix. rewrite <- (Q x) in Ix. split; [intros N; exfalso; apply N; exists x; left; reflexivity|]. intros _. destruct ra'; [destruct (run_unchecked b)|]; cbn [snd]; intros F; apply (proj1 F Ix).
    + destruct (IHa (x :: enc) (x :: h) (set_eq_cons _ _ _ Q)) as (A1 & A2). destruct (checked_fine a (x :: enc) (x :: h) (set_eq_cons _ _ _ Q)) as (F1 & F2). apply inside_not in Ix. rewrite <- (Q x) in Ix.
      destruct (checked a (x :: enc)) as [ra l] eqn:Ea. cbn [fst snd] in *. destruct (rep_dec l) as [R|R].
      * specialize (A2 R). split.
        -- intros N. exfalso. apply N. destruct ra; cbn [snd]; reps; tauto.
        -- intros _. destruct ra'; [destruct (run_unchecked b) as [rb lb]|]; cbn [snd]; apply not_fine_lock, not_fine_app, A2.
      * assert ((ra', l') = (ra, l)) as E by (apply A1; exact R). injection E as -> ->. destruct ra; cbn [snd].
        -- destruct (IHb enc h Q) as (B1 & B2). destruct (run_unchecked b) as [rb lb]. cbn [snd] in B2. reps. split.
           ++ intros N. assert (~ rep (snd (checked b enc))) as N' by tauto. rewrite <- (B1 N'). reflexivity.
           ++ intros [N|N]; [contradiction|]. intros F. cbn [fine snd] in F. destruct F as (_ & F). apply fine_app in F as [_ F]. rewrite F2 in F. cbn [fine] in F. rewrite (remove_cons _ _ Ix) in F. exact (B2 N F).
        -- split; [reflexivity|]. reps. intros [N|N]; [contradiction|]. destruct (rep_nil N).
Qed.

(** *** several threads *)
Fixpoint ordered (h : list (nat * bool)) (l : list event) : Prop :=
  match l with
  | [] => h = []
  | ELock x ex :: r => (forall y, In y h -> fst y < x) /\ ordered ((x, ex) :: h) r
  | EUnlock x _ :: r => ordered (rm x h) r
  | EAssert _ :: r => ordered h r
  end.
Lemma rm_cons x ex h : ~ In x (map fst h) -> rm x ((x, ex) :: h) = h.
Proof.
  intros N. unfold rm. cbn [filter fst]. rewrite Nat.eqb_refl. cbn [negb]. induction h as [|[y b] h IH]; [reflexivity|]. cbn [filter fst]. cbn [map In fst] in N. rewrite (proj2 (Nat.eqb_neq y x)) by tauto. cbn [negb]. rewrite IH by tauto. reflexivity.
Qed.
Lemma inc_inside x enc : (forall z, In z enc -> z < x) -> inside x enc = false.
Proof. intros H. destruct (inside x enc) eqn:E; [|reflexivity]. apply inside_in in E. specialize (H x E). lia. Qed.
Lemma set_eq_two' (h : list nat) enc x y : set_eq h enc -> x <> y -> set_eq (hi x y :: lo x y :: h) (y :: x :: enc).
Proof. intros E N. apply set_eq_two; assumption. Qed.
Lemma inc_ordered p : forall enc h r, increasing p enc -> set_eq (map fst h) enc -> ordered h r -> ordered h (snd (checked p enc) ++ r) /\ ~ rep (snd (checked p enc)).
Proof.
  assert (forall x ex l h r, ~ In x (map fst h) -> (forall y, In y h -> fst y < x) -> (forall r', ordered ((x, ex) :: h) r' -> ordered ((x, ex) :: h) (l ++ r')) -> ordered h r -> ordered h ((ELock x ex :: l ++ [EUnlock x ex]) ++ r)) as One.
  { intros x ex l h r N L B O. cbn [app ordered]. split; [exact L|]. rewrite <- app_assoc. apply B. cbn [app ordered]. rewrite (rm_cons _ _ _ N). exact O. }
  induction p as [|a IHa b IHb| |a IHa|x ex a IHa|x y a IHa|x ex a IHa b IHb]; intros enc h r Inc Q O; cbn [checked increasing] in *.
  - split; [exact O|apply rep_nil].
  - destruct Inc as (I1 & I2). destruct (IHb enc h r I2 Q O) as (B1 & B2). destruct (checked a enc) as [ra l] eqn:Ea. destruct ra; cbn [snd].
    + rewrite <- app_assoc. destruct (IHa enc h _ I1 Q B1) as (A1 & A2). rewrite Ea in A1, A2. cbn [snd] in A1, A2. split; [exact A1|]. rewrite rep_app. tauto.
    + destruct (IHa enc h _ I1 Q O) as (A1 & A2). rewrite Ea in A1, A2. auto.
  - split; [exact O|apply rep_nil].
  - exact (IHa enc h r Inc Q O).
  - destruct Inc as (L & I1). rewrite (inc_inside x enc L). cbn [snd]. assert (forall y, In y h -> fst y < x) as L' by (intros y Iy; apply L; apply Q; apply in_map; exact Iy). split.
    + apply One; [intros I; apply in_map_iff in I as (z & <- & I); specialize (L' z I); lia|exact L'| |exact O]. intros r' O'. apply (IHa (x :: enc) ((x, ex) :: h) r' I1 (set_eq_cons _ _ _ Q) O').
    + reps. intros [N|N]; [|destruct (rep_nil N)]. assert (ordered ((x, ex) :: h) (EUnlock x ex :: r)) as O'. { cbn [ordered]. rewrite rm_cons; [exact O|]. intros I. apply in_map_iff in I as (z & <- & I). specialize (L' z I). lia. }
      apply (proj2 (IHa (x :: enc) ((x, ex) :: h) _ I1 (set_eq_cons _ _ _ Q) O') N).
  - destruct Inc as (L & I1). rewrite (inc_inside x enc) by (intros z I; apply (L z I)). rewrite (inc_inside y enc) by (intros z I; apply (L z I)).
    assert (forall z, In z h -> fst z < x /\ fst z < y) as L' by (intros z Iz; apply L; apply Q; apply in_map; exact Iz).
    assert (forall w, w = x \/ w = y -> ~ In w (map fst h)) as NI by (intros w Hw I; apply in_map_iff in I as (z & <- & I); specialize (L' z I); lia).
    destruct (Nat.eqb_spec x y) as [<-|N]; cbn [snd].
    + assert (forall r', ordered ((x, true) :: h) r' -> ordered ((x, true) :: h) (snd (checked a (x :: enc)) ++ r') /\ ~ rep (snd (checked a (x :: enc)))) as B.
      { intros r' O'. apply (IHa (x :: enc) ((x, true) :: h)); [|apply set_eq_cons; exact Q|exact O'].
        assert (forall p e1 e2, (forall z, In z e2 -> In z e1) -> increasing p e1 -> increasing p e2) as Mono.
        { clear. induction p as [|a IHa b IHb| |a IHa|x ex a IHa|x y a IHa|x ex a IHa b IHb]; intros e1 e2 H; cbn [increasing]; auto.
          - intros (A & B). split; eauto.
          - apply IHa. exact H.
          - intros (A & B). split; [auto|]. apply (IHa (x :: e1)); [|exact B]. intros z [I|I]; [left; exact I|right; auto].
          - intros (A & B). split; [auto|]. apply (IHa (y :: x :: e1)); [|exact B]. intros z [I|[I|I]]; [left; exact I|right; left; exact I|right; right; auto].
          - intros (A & B & C). split; [auto|]. split; [apply (IHa (x :: e1)); [|exact B]; intros z [I|I]; [left; exact I|right; auto]|eauto]. }
        apply (Mono a (x :: x :: enc)); [|exact I1]. intros z [I|I]; [left; exact I|right; right; exact I]. }
      split; [apply One; [apply NI; auto|intros z Iz; apply L'; exact Iz| |exact O]; intros r' O'; apply B; exact O'|].
      reps. intros [M|M]; [|destruct (rep_nil M)]. assert (ordered ((x, true) :: h) (EUnlock x true :: r)) as O' by (cbn [ordered]; rewrite rm_cons; [exact O|apply NI; auto]). apply (proj2 (B _ O') M).
    + assert (set_eq (map fst ((hi x y, true) :: (lo x y, true) :: h)) (y :: x :: enc)) as Q2 by (cbn [map fst]; apply set_eq_two; assumption).
      assert (lo x y < hi x y) as Lt by (unfold lo, hi; lia). assert (~ In (lo x y) (map fst h)) as N1 by (apply NI; unfold lo; lia). assert (~ In (hi x y) (map fst ((lo x y, true) :: h))) as N2.
      { cbn [map fst In]. intros [I|I]; [lia|]. revert I. apply NI. unfold hi. lia. }
      assert (ordered ((hi x y, true) :: (lo x y, true) :: h) ([EUnlock (hi x y) true; EUnlock (lo x y) true] ++ r)) as O'.
      { cbn [app ordered]. rewrite (rm_cons _ _ _ N2), (rm_cons _ _ _ N1). exact O. }
      destruct (IHa _ _ _ I1 Q2 O') as (A1 & A2). split.
      * cbn [app ordered]. split; [intros z Iz; specialize (L' z Iz); unfold lo; lia|]. split; [intros z [<-|Iz]; [exact Lt|specialize (L' z Iz); unfold hi; lia]|]. rewrite <- app_assoc. exact A1.
      * reps. intros [M|M]; [exact (A2 M)|destruct (rep_nil M)].
  - destruct Inc as (L & I1 & I2). rewrite (inc_inside x enc L). assert (forall y, In y h -> fst y < x) as L' by (intros y Iy; apply L; apply Q; apply in_map; exact Iy).
    assert (~ In x (map fst h)) as NI by (intros I; apply in_map_iff in I as (z & <- & I); specialize (L' z I); lia).
    destruct (IHb enc h r I2 Q O) as (B1 & B2). destruct (checked a (x :: enc)) as [ra l] eqn:Ea.
    assert (forall r', ordered h r' -> ordered ((x, ex) :: h) (l ++ EUnlock x ex :: r') /\ ~ rep l) as A.
    { intros r' O'. pose proof (IHa (x :: enc) ((x, ex) :: h) (EUnlock x ex :: r') I1 (set_eq_cons _ _ _ Q)) as X. rewrite Ea in X. cbn [snd] in X. apply X. cbn [ordered]. rewrite (rm_cons _ _ _ NI). exact O'. }
    destruct ra; cbn [snd].
    + split; [cbn [app ordered]; split; [exact L'|]; rewrite <- app_assoc; cbn [app]; apply A; exact B1|]. reps. intros [M|M]; [exact (proj2 (A _ B1) M)|exact (B2 M)].
    + split; [cbn [app ordered]; split; [exact L'|]; rewrite <- app_assoc; cbn [app]; apply A; exact O|]. reps. intros [M|M]; [exact (proj2 (A _ O) M)|destruct (rep_nil M)].
Qed.
Definition wt (u : thread) : Prop := ordered (held u) (todo u).
Lemma wt_after u : wt u -> wt (after u).
Proof. unfold wt, after. destruct (todo u) as [|[x ex|x ex|x] r] eqn:E; cbn [ordered held todo]; [rewrite E; auto|tauto|auto|auto]. Qed.
Lemma wt_steps strict S S' : steps strict S S' -> Forall wt S -> Forall wt S'.
Proof.
  intros H F. induction H as [S|S l u r H IH C]; [exact F|]. specialize (IH F). apply Forall_app in IH as [A B]. apply Forall_app. split; [exact A|]. inversion B; subst. constructor; [apply wt_after; assumption|assumption].
Qed.
(** the lock a thread waits for *)
Definition wanted (u : thread) : option nat := match todo u with ELock x _ :: _ => Some x | _ => None end.
Lemma max_wanted S : (forall u, In u S -> todo u <> [] -> wanted u <> None) -> (exists u, In u S /\ todo u <> []) ->
  exists u x, In u S /\ wanted u = Some x /\ forall v z, In v S -> wanted v = Some z -> z <= x.
Proof.
  induction S as [|w S IH]; intros H (u & I & N); [destruct I|].
  destruct (wanted w) as [x|] eqn:W.
  - assert ((exists u, In u S /\ todo u <> []) \/ forall v z, In v S -> wanted v = Some z -> False) as D.
    { clear. induction S as [|v S IH]; [right; intros v z []|]. destruct (todo v) as [|e r] eqn:T.
      - destruct IH as [(u & I & N)|IH]; [left; exists u; split; [right; exact I|exact N]|right]. intros w z [<-|I]; [unfold wanted; rewrite T; discriminate|apply IH; exact I].
      - left. exists v. split; [left; reflexivity|congruence]. }
    destruct D as [D|D].
    + destruct (IH (fun u I => H u (or_intror I)) D) as (u' & x' & I' & W' & M). destruct (le_lt_dec x x') as [L|L].
      * exists u', x'. split; [right; exact I'|]. split; [exact W'|]. intros v z [<-|Iv] E; [assert (z = x) as -> by congruence; exact L|exact (M v z Iv E)].
      * exists w, x. split; [left; reflexivity|]. split; [exact W|]. intros v z [<-|Iv] E; [assert (z = x) as -> by congruence; lia|pose proof (M v z Iv E); lia].
    + exists w, x. split; [left; reflexivity|]. split; [exact W|]. intros v z [<-|Iv] E; [assert (z = x) as -> by congruence; lia|destruct (D v z Iv E)].
  - assert (todo w = []) as Tw by (destruct (todo w) as [|e r] eqn:T; [reflexivity|exfalso; apply (H w (or_introl eq_refl)); [congruence|exact W]]).
    destruct I as [<-|I]; [congruence|]. destruct (IH (fun u I => H u (or_intror I)) (ex_intro _ u (conj I N))) as (u' & x' & I' & W' & M). exists u', x'. split; [right; exact I'|]. split; [exact W'|].
    intros v z [<-|Iv] E; [congruence|exact (M v z Iv E)].
Qed.
Lemma wanted_ex x S : existsb (fun v => wants_ex v x) S = true -> exists u, In u S /\ wants_ex u x = true.
Proof. intros H. apply existsb_exists in H. exact H. Qed.
Theorem progress S : Forall wt S -> (exists u, In u S /\ todo u <> []) -> exists l u r, S = l ++ u :: r /\ can_step true u (l ++ r) = true.
Proof.
  intros F D. rewrite Forall_forall in F.
  assert ((exists u, In u S /\ todo u <> [] /\ wanted u = None) \/ forall u, In u S -> todo u <> [] -> wanted u <> None) as [(u & I & N & W)|A].
  { clear F D. induction S as [|v S IH]; [right; intros u []|]. destruct IH as [(u & I & N & W)|IH]; [left; exists u; split; [right; exact I|auto]|]. destruct (wanted v) eqn:W.
    - right. intros u [<-|I]; [congruence|apply IH; exact I].
    - destruct (todo v) as [|e r] eqn:T; [right; intros u [<-|I]; [congruence|apply IH; exact I]|left; exists v; split; [left; reflexivity|]; split; [congruence|exact W]]. }
  { apply in_split in I as (l & r & ->). exists l, u, r. split; [reflexivity|]. unfold can_step, wanted in *. destruct (todo u) as [|[x ex|x ex|x] t]; [congruence|discriminate|reflexivity|reflexivity]. }
  destruct (max_wanted S A D) as (u & x & I & W & M).
  assert (forall v, In v S -> holds v x = false) as NH.
  { intros v Iv. destruct (holds v x) eqn:H; [|reflexivity]. exfalso. unfold holds in H. apply existsb_exists in H as (p & Ip & E). apply Nat.eqb_eq in E. specialize (F v Iv). unfold wt in F.
    destruct (todo v) as [|e r] eqn:T; [cbn [ordered] in F; rewrite F in Ip; destruct Ip|]. assert (todo v <> []) as Nv by congruence. pose proof (A v Iv Nv) as Wv. destruct (wanted v) as [z|] eqn:Ez; [|congruence]. pose proof (M v z Iv Ez) as Lz.
    unfold wanted in Ez. rewrite T in Ez. destruct e as [z' ex| |]; try discriminate. injection Ez as ->. cbn [ordered] in F. destruct F as (F & _). specialize (F p Ip). lia. }
  assert (forall v, In v S -> holds_ex v x = false) as NX.
  { intros v Iv. specialize (NH v Iv). unfold holds in NH. unfold holds_ex. destruct (existsb (fun p => (fst p =? x) && snd p) (held v)) eqn:E; [|reflexivity]. apply existsb_exists in E as (p & Ip & E). apply andb_prop in E as [E _].
    assert (existsb (fun p => fst p =? x) (held v) = true) as X by (apply existsb_exists; exists p; auto). congruence. }
  assert (forall f (l r : list thread) w, S = l ++ w :: r -> (forall v, In v S -> f v = false) -> existsb f (w :: l ++ r) = false) as EX.
  { intros f l r w E H. destruct (existsb f (w :: l ++ r)) eqn:X; [|reflexivity]. apply existsb_exists in X as (v & Iv & Ev). rewrite H in Ev; [discriminate|]. rewrite E. destruct Iv as [<-|Iv]; [apply in_or_app; right; left; reflexivity|]. apply in_app_or in Iv as [Iv|Iv]; apply in_or_app; [left|right; right]; exact Iv. }
  destruct (existsb (fun v => wants_ex v x) S) eqn:WE.
  - apply existsb_exists in WE as (w & Iw & Ew). apply in_split in Iw as (l & r & E). exists l, w, r. split; [exact E|]. unfold can_step. unfold wants_ex in Ew. destruct (todo w) as [|[y [|]|y ex|y] t]; try discriminate. apply Nat.eqb_eq in Ew. subst y.
    unfold may_lock. rewrite (EX (fun v => holds v x) l r w E NH). reflexivity.
  - apply in_split in I as (l & r & E). exists l, u, r. split; [exact E|]. unfold can_step. unfold wanted in W. destruct (todo u) as [|[y ex| |] t]; try discriminate. injection W as ->. unfold may_lock. destruct ex.
    + rewrite (EX (fun v => holds v x) l r u E NH). reflexivity.
    + rewrite (EX (fun v => holds_ex v x) l r u E NX). cbn [negb orb andb]. assert (existsb (fun v => wants_ex v x) (l ++ r) = false) as ->; [|reflexivity].
      rewrite E, existsb_app in WE. cbn [existsb] in WE. apply orb_false_iff in WE as [A1 A2]. apply orb_false_iff in A2 as [_ A2]. rewrite existsb_app, A1, A2. reflexivity.
Qed.
Lemma threads_wt ps : Forall (fun p => increasing p []) ps -> Forall wt (threads ps).
Proof.
  intros F. unfold threads. apply Forall_forall. intros u I. apply in_map_iff in I as (p & <- & I). rewrite Forall_forall in F. specialize (F p I). unfold wt. cbn [held todo].
  destruct (inc_ordered p [] [] [] F (fun z => iff_refl _) eq_refl) as (A & _). rewrite app_nil_r in A. exact A.
Qed.
