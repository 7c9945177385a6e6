(** C32, C33: the reader-writer spinlock (detail/foa/rw_spinlock.hpp), for any number of threads and every interleaving of their atomic accesses. *)
From Coq Require Import NArith ZArith Bool List Arith Lia ZifyBool ZifyNat ZifyN.
From Verif Require Import RwSpinlockModel RwSpinlockProofs.
Import ListNotations.
Local Open Scope N_scope.

(** * Specification vocabulary *)
Definition at_pc (cf : config) (i : nat) (p : pc) : Prop := nth_error (fst cf) i = Some p.
Definition owns_exclusive cf i := at_pc cf i OwnsExclusive.
Definition owns_shared cf i := at_pc cf i OwnsShared.
Definition no_owner cf := forall i, ~ owns_exclusive cf i /\ ~ owns_shared cf i.
Definition number_of_shared_owners (cf : config) : nat :=
  length (filter (fun p => match p with OwnsShared => true | _ => false end) (fst cf)).
(** inside a call of lock() (resp. lock_shared()) that has not returned *)
Definition in_lock cf i := exists p, at_pc cf i p /\ match p with Lock | LockCas _ | LockPend _ => True | _ => False end.
Definition in_lock_shared cf i := exists p, at_pc cf i p /\ match p with LockShared | LockSharedCas _ => True | _ => False end.
Definition writer_pending (cf : config) : Prop := N.testbit (snd cf) 30 = true.

(** a step that is not a spurious failure of a weak compare-exchange *)
Definition spurious (cf cf' : config) (i : nat) : Prop :=
  snd cf' = snd cf /\ (at_pc cf i (LockCas (snd cf)) \/ at_pc cf i (LockPend (snd cf)) \/ at_pc cf i (LockSharedCas (snd cf))).
Definition sstep cf i cf' : Prop := step cf i cf' /\ ~ spurious cf cf' i.

(** running alone, thread i inevitably reaches [goal] within k of its own steps *)
Inductive inevitably (goal : config -> Prop) (i : nat) : nat -> config -> Prop :=
| inev_now k cf : goal cf -> inevitably goal i k cf
| inev_later k cf : (exists cf', sstep cf i cf') -> (forall cf', sstep cf i cf' -> inevitably goal i k cf') -> inevitably goal i (S k) cf.

(** * Lemmas *)
Lemma owner_counts cf : (no_owner cf <-> count isX (fst cf) = 0 /\ count isS (fst cf) = 0).
Proof.
  split.
  - intros H. split.
    + destruct (N.eq_dec (count isX (fst cf)) 0) as [E|E]; [exact E|]. destruct (proj1 (count_pos isX (fst cf))) as (i & p & Hi & F); [lia|].
      destruct p; try discriminate. destruct (H i) as [A _]. now destruct A.
    + destruct (N.eq_dec (count isS (fst cf)) 0) as [E|E]; [exact E|]. destruct (proj1 (count_pos isS (fst cf))) as (i & p & Hi & F); [lia|].
      destruct p; try discriminate. destruct (H i) as [_ A]. now destruct A.
  - intros [A B] i. split; intros O.
    + assert (0 < count isX (fst cf)) by (apply count_pos; exists i, OwnsExclusive; split; [exact O|reflexivity]). lia.
    + assert (0 < count isS (fst cf)) by (apply count_pos; exists i, OwnsShared; split; [exact O|reflexivity]). lia.
Qed.
Lemma shared_count cf : N.of_nat (number_of_shared_owners cf) = count isS (fst cf).
Proof. reflexivity. Qed.
Lemma word_bit30 x p s : x <= 1 -> p <= 1 -> s < 2 ^ 30 -> N.testbit (word x p s) 30 = (p =? 1).
Proof.
  intros Hx Hp Hs. rewrite N.testbit_eqb. unfold word. change (2 ^ 30) with 1073741824 in *.
  replace ((2147483648 * x + 1073741824 * p + s) / 1073741824) with (2 * x + p); [|apply (N.div_unique _ _ _ s); lia].
  assert (x = 0 \/ x = 1) as [-> | ->] by lia; assert (p = 0 \/ p = 1) as [-> | ->] by lia; reflexivity.
Qed.
Lemma word_bit31 x p s : x <= 1 -> p <= 1 -> s < 2 ^ 30 -> N.testbit (word x p s) 31 = (x =? 1).
Proof.
  intros Hx Hp Hs. rewrite N.testbit_eqb. unfold word. change (2 ^ 31) with 2147483648. change (2 ^ 30) with 1073741824 in Hs.
  replace ((2147483648 * x + 1073741824 * p + s) / 2147483648) with x; [|apply (N.div_unique _ _ _ (1073741824 * p + s)); lia].
  assert (x = 0 \/ x = 1) as [-> | ->] by lia; reflexivity.
Qed.
Lemma upd_same l i p x : nth_error l i = Some p -> nth_error (upd l i x) i = Some x.
Proof. intros H. rewrite (nth_upd _ _ _ _ _ H), Nat.eqb_refl. reflexivity. Qed.
Lemma at_inj cf i p q : at_pc cf i p -> at_pc cf i q -> p = q.
Proof. unfold at_pc. intros A B. congruence. Qed.

(** * C32 *)
Theorem C32_mutual_exclusion : forall n cf, reachable n cf ->
  (forall i j, owns_exclusive cf i -> owns_exclusive cf j -> i = j) /\
  (forall i j, owns_exclusive cf i -> owns_shared cf j -> False).
Proof.
  intros n cf R. pose proof (reachable_inv _ _ R) as [_ Hx Hxs _ _ _ _]. split.
  - intros i j A B. destruct (Nat.eq_dec i j) as [E|Ne]; [exact E|exfalso]. unfold owns_exclusive, at_pc in *.
    pose proof (count_upd isX _ _ _ Idle A) as C. cbn [isX b2n] in C.
    assert (0 < count isX (upd (fst cf) i Idle)); [|lia]. apply count_pos. exists j, OwnsExclusive. split; [|reflexivity].
    rewrite (nth_upd _ _ _ _ _ A). destruct (Nat.eqb_spec j i); [congruence|exact B].
  - intros i j A B. assert (0 < count isX (fst cf)) by (apply count_pos; exists i, OwnsExclusive; split; [exact A|reflexivity]).
    assert (0 < count isS (fst cf)) by (apply count_pos; exists j, OwnsShared; split; [exact B|reflexivity]). lia.
Qed.
(** the state word encodes exactly the current owners: bit 31 iff somebody owns exclusively, bits 29..0 the number of shared owners (which never overflows) *)
Theorem C32_state_encodes_owners : forall n cf, reachable n cf ->
  (N.testbit (snd cf) 31 = true <-> exists i, owns_exclusive cf i) /\
  N.of_nat (number_of_shared_owners cf) = snd cf mod 2 ^ 30 /\
  N.of_nat (number_of_shared_owners cf) < 2 ^ 30.
Proof.
  intros n cf R. pose proof (reachable_inv _ _ R) as [(p & Hp & Hw & _) Hx Hxs Hs _ _ _].
  split; [|split].
  - rewrite Hw, word_bit31 by auto. rewrite N.eqb_eq. split.
    + intros E. destruct (proj1 (count_pos isX (fst cf))) as (i & q & Hi & F); [lia|]. destruct q; try discriminate. now exists i.
    + intros [i O]. assert (0 < count isX (fst cf)) by (apply count_pos; exists i, OwnsExclusive; split; [exact O|reflexivity]). lia.
  - rewrite shared_count, Hw. unfold word.
    replace (2147483648 * count isX (fst cf) + 1073741824 * p + count isS (fst cf)) with (count isS (fst cf) + (2 * count isX (fst cf) + p) * 2 ^ 30) by (change (2 ^ 30) with 1073741824; lia).
    rewrite N.mod_add by discriminate. symmetry. apply N.mod_small. exact Hs.
  - rewrite shared_count. exact Hs.
Qed.
Print Assumptions C32_mutual_exclusion.
Print Assumptions C32_state_encodes_owners.

(** * C33 *)
(** a thread inside lock() running alone while nobody owns the lock gets it within three steps, whatever was pending and however old the value it loaded *)
Theorem C33_lock_alone_succeeds : forall n cf i, reachable n cf -> no_owner cf -> in_lock cf i ->
  inevitably (fun cf' => owns_exclusive cf' i) i 3 cf.
Proof.
  intros n cf i R NO (q & A & Q). pose proof (reachable_inv _ _ R) as [(p & Hp & Hw & _) Hx Hxs Hs _ _ Hpc].
  apply owner_counts in NO as [X0 S0]. rewrite X0, S0 in Hw. destruct cf as [ts w]. cbn [fst snd] in *. unfold at_pc in A. cbn [fst] in A.
  assert (N.land w locked_exclusive_mask = 0) as LE by (rewrite Hw; apply land_excl; lia).
  assert (N.land w reader_lock_count_mask = 0) as LR by (rewrite Hw; apply land_readers; lia).
  (* at the compare-exchange with the current value *)
  assert (forall ts' k, nth_error ts' i = Some (LockCas w) -> inevitably (fun cf' => owns_exclusive cf' i) i (S k) (ts', w)) as CAS.
  { intros ts' k B. apply inev_later.
    - exists (upd ts' i OwnsExclusive, locked_exclusive_mask). split; [econstructor; [exact B|constructor]|]. intros [E _]. cbn in E. rewrite <- E in LE. discriminate LE.
    - intros cf' [St Sp]. inversion St as [ts0 w0 i0 q0 q' w' B' T]; subst. rewrite B in B'. injection B' as <-. inversion T; subst.
      + apply inev_now. unfold owns_exclusive, at_pc. cbn [fst]. eapply upd_same; eauto.
      + exfalso. apply Sp. split; [reflexivity|]. left. exact B. }
  assert (forall ts' k, nth_error ts' i = Some Lock -> inevitably (fun cf' => owns_exclusive cf' i) i (S (S k)) (ts', w)) as LK.
  { intros ts' k B. apply inev_later.
    - exists (upd ts' i (LockCas w), w). split; [econstructor; [exact B|now constructor]|]. intros [_ [E|[E|E]]]; pose proof (at_inj _ _ _ _ E B); discriminate.
    - intros cf' [St Sp]. inversion St as [ts0 w0 i0 q0 q' w' B' T]; subst ts0 w0 i0 cf'. rewrite B in B'. injection B' as <-. inversion T; subst; try congruence.
      apply CAS. eapply upd_same; eauto. }
  destruct q; try contradiction Q.
  - apply (LK ts 1%nat). exact A.
  - destruct (N.eq_dec st w) as [->|Ne]; [apply (CAS ts 2%nat); exact A|]. apply inev_later.
    + exists (upd ts i Lock, w). split; [econstructor; [exact A|constructor]|]. intros [_ [E|[E|E]]]; pose proof (at_inj _ _ _ _ E A) as EE; cbn [snd] in EE; congruence.
    + intros cf' [St Sp]. inversion St as [ts0 w0 i0 q0 q' w' B' T]; subst ts0 w0 i0 cf'. rewrite A in B'. injection B' as <-. inversion T; subst; try congruence.
      apply (LK _ 0%nat). eapply upd_same; eauto.
  - assert (st <> w) as Ne by (intros ->; destruct (Hpc i w A) as (_ & _ & B); auto). apply inev_later.
    + exists (upd ts i Lock, w). split; [econstructor; [exact A|constructor]|]. intros [_ [E|[E|E]]]; pose proof (at_inj _ _ _ _ E A) as EE; cbn [snd] in EE; congruence.
    + intros cf' [St Sp]. inversion St as [ts0 w0 i0 q0 q' w' B' T]; subst ts0 w0 i0 cf'. rewrite A in B'. injection B' as <-. inversion T; subst; try congruence.
      apply (LK _ 0%nat). eapply upd_same; eauto.
Qed.
Print Assumptions C33_lock_alone_succeeds.

(** a thread inside lock_shared() running alone gets the lock within three steps when nobody owns it exclusively, no writer is pending and
    fewer than 2^30 - 1 threads share it *)
Theorem C33_lock_shared_alone_succeeds : forall n cf i, reachable n cf -> (forall j, ~ owns_exclusive cf j) -> ~ writer_pending cf ->
  N.of_nat (number_of_shared_owners cf) < 2 ^ 30 - 1 -> in_lock_shared cf i ->
  inevitably (fun cf' => owns_shared cf' i) i 3 cf.
Proof.
  intros n cf i R NX NP Sm (q & A & Q). pose proof (reachable_inv _ _ R) as [(p & Hp & Hw & _) Hx Hxs Hs _ _ _].
  rewrite shared_count in Sm. change (2 ^ 30 - 1) with 1073741823 in Sm.
  assert (count isX (fst cf) = 0) as X0.
  { destruct (N.eq_dec (count isX (fst cf)) 0) as [E|E]; [exact E|]. destruct (proj1 (count_pos isX (fst cf))) as (j & p' & Hj & F); [lia|].
    destruct p'; try discriminate. now destruct (NX j). }
  assert (p = 0) as ->. { destruct (N.eq_dec p 0) as [E|E]; [exact E|]. exfalso. apply NP. unfold writer_pending. rewrite Hw, word_bit30 by auto. apply N.eqb_eq. lia. }
  destruct cf as [ts w]. cbn [fst snd] in *. unfold at_pc in A. cbn [fst] in A. rewrite X0 in Hw.
  assert (w < 1073741823) as Small by (rewrite Hw; unfold word; lia).
  assert (forall ts' k, nth_error ts' i = Some (LockSharedCas w) -> inevitably (fun cf' => owns_shared cf' i) i (S k) (ts', w)) as CAS.
  { intros ts' k B. apply inev_later.
    - exists (upd ts' i OwnsShared, (w + 1) mod 2 ^ 32). split; [econstructor; [exact B|constructor]|]. intros [E _]. cbn [snd] in E. change (2 ^ 32) with 4294967296 in E. rewrite N.mod_small in E by lia. lia.
    - intros cf' [St Sp]. inversion St as [ts0 w0 i0 q0 q' w' B' T]; subst ts0 w0 i0 cf'. rewrite B in B'. injection B' as <-. inversion T; subst q' w'.
      + apply inev_now. unfold owns_shared, at_pc. cbn [fst]. eapply upd_same; eauto.
      + exfalso. apply Sp. split; [reflexivity|]. right; right. exact B. }
  assert (forall ts' k, nth_error ts' i = Some LockShared -> inevitably (fun cf' => owns_shared cf' i) i (S (S k)) (ts', w)) as LK.
  { intros ts' k B. apply inev_later.
    - exists (upd ts' i (LockSharedCas w), w). split; [econstructor; [exact B|now constructor]|]. intros [_ [E|[E|E]]]; pose proof (at_inj _ _ _ _ E B); discriminate.
    - intros cf' [St Sp]. inversion St as [ts0 w0 i0 q0 q' w' B' T]; subst ts0 w0 i0 cf'. rewrite B in B'. injection B' as <-. inversion T; subst q' w'.
      + change reader_lock_count_mask with 1073741823 in *. lia.
      + apply CAS. eapply upd_same; eauto. }
  destruct q; try contradiction Q.
  - apply (LK ts 1%nat). exact A.
  - destruct (N.eq_dec st w) as [->|Ne]; [apply (CAS ts 2%nat); exact A|]. apply inev_later.
    + exists (upd ts i LockShared, w). split; [econstructor; [exact A|constructor]|]. intros [_ [E|[E|E]]]; pose proof (at_inj _ _ _ _ E A) as EE; cbn [snd] in EE; congruence.
    + intros cf' [St Sp]. inversion St as [ts0 w0 i0 q0 q' w' B' T]; subst ts0 w0 i0 cf'. rewrite A in B'. injection B' as <-. inversion T; subst; try congruence.
      apply (LK _ 0%nat). eapply upd_same; eauto.
Qed.
Print Assumptions C33_lock_shared_alone_succeeds.

(** the pending mark is never left behind: while it is set some thread is inside lock(); by C33_lock_alone_succeeds that thread gets the lock once the owners have left *)
Theorem C33_pending_mark_has_a_writer : forall n cf, reachable n cf -> writer_pending cf ->
  (forall j, ~ owns_exclusive cf j) /\ exists i, in_lock cf i.
Proof.
  intros n cf R NP. pose proof (reachable_inv _ _ R) as [(p & Hp & Hw & Hpw) Hx Hxs Hs _ _ _].
  unfold writer_pending in NP. rewrite Hw, word_bit30 in NP by auto. apply N.eqb_eq in NP. destruct (Hpw NP) as [W X0]. split.
  - intros j O. assert (0 < count isX (fst cf)) by (apply count_pos; exists j, OwnsExclusive; split; [exact O|reflexivity]). lia.
  - apply count_pos in W as (i & q & Hi & F). exists i, q. split; [exact Hi|]. destruct q; try discriminate; exact I.
Qed.
Print Assumptions C33_pending_mark_has_a_writer.

(** a pending writer is not starved by readers: while the mark is set no step makes a new shared owner, and the mark stays until somebody owns the lock exclusively *)
Theorem C33_pending_writer_not_starved : forall n cf i cf', reachable n cf -> writer_pending cf -> step cf i cf' ->
  (forall j, owns_shared cf' j -> owns_shared cf j) /\ (writer_pending cf' \/ owns_exclusive cf' i).
Proof.
  intros n cf i cf' R WP St. pose proof (reachable_inv _ _ R) as IV. pose proof (reachable_inv _ _ (r_step _ _ _ _ R St)) as IV'.
  destruct IV as [(p & Hp & Hw & Hpw) Hx Hxs Hs Hc Hl Hpc]. unfold writer_pending in WP. rewrite Hw, word_bit30 in WP by auto. apply N.eqb_eq in WP. subst p.
  destruct (Hpw eq_refl) as [_ X0]. rewrite X0 in Hw. change (2 ^ 30) with 1073741824 in Hs.
  destruct St as [ts w i q q' w' Hi T]. cbn [fst snd] in *. pose proof (fun j => nth_upd ts i q q' j Hi) as NU.
  assert (1073741823 <= w) as Big by (rewrite Hw; unfold word; lia).
  assert (w' = w -> N.testbit w' 30 = true) as SAMEW by (intros ->; rewrite Hw, word_bit30 by lia; reflexivity).
  split.
  - intros j O. unfold owns_shared, at_pc in *. cbn [fst] in *. rewrite NU in O. destruct (Nat.eqb_spec j i) as [Eji|Ne]; [rewrite Eji|exact O]. injection O as ->.
    inversion T; subst.
    + specialize (Hc i (word 0 1 (count isS ts)) (or_introl Hi)). change reader_lock_count_mask with 1073741823 in Hc. lia.
    + specialize (Hc i (word 0 1 (count isS ts)) (or_intror Hi)). change reader_lock_count_mask with 1073741823 in Hc. lia.
  - unfold writer_pending, owns_exclusive, at_pc. cbn [fst snd]. rewrite NU, Nat.eqb_refl.
    destruct T; try (left; apply SAMEW; reflexivity); try (right; reflexivity); left.
    + specialize (Hc i w (or_introl Hi)). change reader_lock_count_mask with 1073741823 in Hc. lia.
    + specialize (Hc i w (or_intror Hi)). change reader_lock_count_mask with 1073741823 in Hc. lia.
    + (* unlock_shared *) rewrite Hw. assert (0 < count isS ts) by (apply count_pos; exists i, OwnsShared; split; [exact Hi|reflexivity]).
      rewrite word_dec by lia. rewrite word_bit30 by lia. reflexivity.
    + (* LockPend *) destruct (Hpc i w Hi) as (_ & B & _). rewrite Hw in B. apply land_pending in B; lia.
    + assert (0 < count isX ts) by (apply count_pos; exists i, OwnsExclusive; split; [exact Hi|reflexivity]). lia.
Qed.
Print Assumptions C33_pending_writer_not_starved.

(** nobody is locked out: if no thread owns the lock and some thread is waiting for it (exclusively or shared), some waiting thread running alone gets it within three steps *)
Theorem C33_someone_gets_in : forall n cf i, reachable n cf -> no_owner cf -> in_lock cf i \/ in_lock_shared cf i ->
  exists j, (in_lock cf j /\ inevitably (fun cf' => owns_exclusive cf' j) j 3 cf) \/ (in_lock_shared cf j /\ inevitably (fun cf' => owns_shared cf' j) j 3 cf).
Proof.
  intros n cf i R NO [W|W]; [exists i; left; split; [exact W|eapply C33_lock_alone_succeeds; eauto]|].
  destruct (N.testbit (snd cf) 30) eqn:B.
  - destruct (C33_pending_mark_has_a_writer n cf R B) as [_ [j J]]. exists j. left. split; [exact J|eapply C33_lock_alone_succeeds; eauto].
  - exists i. right. split; [exact W|]. eapply C33_lock_shared_alone_succeeds; eauto.
    + intros j. apply NO.
    + unfold writer_pending. congruence.
    + apply owner_counts in NO as [_ S0]. rewrite shared_count, S0. reflexivity.
Qed.
Print Assumptions C33_someone_gets_in.

(** * A concrete execution: three threads; 0 and 1 share the lock, 2 marks itself pending, both readers leave, 2 acquires *)
Lemma go n ts w i q q' w' : reachable n (ts, w) -> nth_error ts i = Some q -> tstep q w q' w' -> reachable n (upd ts i q', w').
Proof. intros R H T. eapply r_step; [exact R|]. econstructor; eauto. Qed.
Example C32_C33_pending_state : reachable 3 ([OwnsShared; OwnsShared; Lock], 2 ^ 30 + 2).
Proof.
  pose proof (r_init 3) as R. cbn [repeat] in R.
  pose proof (go _ _ _ 0%nat Idle LockShared 0 R eq_refl ltac:(constructor)) as R'. clear R. rename R' into R. cbn [upd firstn skipn app] in R.
  pose proof (go _ _ _ 0%nat LockShared (LockSharedCas 0) 0 R eq_refl ltac:(now constructor)) as R'. clear R. rename R' into R. cbn [upd firstn skipn app] in R.
  pose proof (go _ _ _ 0%nat (LockSharedCas 0) OwnsShared 1 R eq_refl ltac:(exact (ls_ok 0))) as R'. clear R. rename R' into R. cbn [upd firstn skipn app] in R.
  pose proof (go _ _ _ 1%nat Idle TryShared 1 R eq_refl ltac:(constructor)) as R'. clear R. rename R' into R. cbn [upd firstn skipn app] in R.
  pose proof (go _ _ _ 1%nat TryShared (TrySharedCas 1) 1 R eq_refl ltac:(now constructor)) as R'. clear R. rename R' into R. cbn [upd firstn skipn app] in R.
  pose proof (go _ _ _ 1%nat (TrySharedCas 1) OwnsShared 2 R eq_refl ltac:(exact (ts_ok 1))) as R'. clear R. rename R' into R. cbn [upd firstn skipn app] in R.
  pose proof (go _ _ _ 2%nat Idle Lock 2 R eq_refl ltac:(constructor)) as R'. clear R. rename R' into R. cbn [upd firstn skipn app] in R.
  pose proof (go _ _ _ 2%nat Lock (LockPend 2) 2 R eq_refl ltac:(now constructor)) as R'. clear R. rename R' into R. cbn [upd firstn skipn app] in R.
  pose proof (go _ _ _ 2%nat (LockPend 2) Lock (2 ^ 30 + 2) R eq_refl ltac:(exact (l_pend 2))) as R'. clear R. rename R' into R. exact R.
Qed.
Example C33_pending_then_free : reachable 3 ([Idle; Idle; Lock], 2 ^ 30) /\ no_owner ([Idle; Idle; Lock], 2 ^ 30) /\ in_lock ([Idle; Idle; Lock], 2 ^ 30) 2 /\ writer_pending ([Idle; Idle; Lock], 2 ^ 30).
Proof.
  split.
  - pose proof C32_C33_pending_state as R.
    pose proof (go _ _ _ 0%nat OwnsShared Idle (2 ^ 30 + 1) R eq_refl ltac:(exact (us (2 ^ 30 + 2)))) as R'. clear R. rename R' into R. cbn [upd firstn skipn app] in R.
    pose proof (go _ _ _ 1%nat OwnsShared Idle (2 ^ 30) R eq_refl ltac:(exact (us (2 ^ 30 + 1)))) as R'. clear R. rename R' into R. exact R.
  - split; [|split; [exists Lock; split; [reflexivity|exact I]|reflexivity]].
    intros [|[|[|i]]]; (split; intros H; [inversion H|inversion H]); destruct i; discriminate.
Qed.
Example C32_exclusive_state : reachable 2 ([Idle; OwnsExclusive], 2 ^ 31).
Proof.
  pose proof (r_init 2) as R. cbn [repeat] in R.
  pose proof (go _ _ _ 1%nat Idle TryLock 0 R eq_refl ltac:(constructor)) as R'. clear R. rename R' into R. cbn [upd firstn skipn app] in R.
  pose proof (go _ _ _ 1%nat TryLock (TryLockCas 0) 0 R eq_refl ltac:(now constructor)) as R'. clear R. rename R' into R. cbn [upd firstn skipn app] in R.
  pose proof (go _ _ _ 1%nat (TryLockCas 0) OwnsExclusive (2 ^ 31) R eq_refl ltac:(exact (tl_ok 0))) as R'. clear R. rename R' into R. exact R.
Qed.
