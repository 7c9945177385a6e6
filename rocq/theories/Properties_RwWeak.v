(** C58: the reader-writer spinlock of the concurrent containers under the C++ memory model: its memory orders are strong enough for any number of threads and every
    execution, including those in which loads return old values of the state word. *)
From Coq Require Import NArith ZArith Bool List Arith Lia ZifyBool ZifyNat ZifyN.
From Verif Require Import RwSpinlockModel RwSpinlockProofs RwWeakModel RwWeakProofs RwWeakHb.
Import ListNotations.

(** * Specification vocabulary *)
Definition thread_at (w : wconf) (t : nat) (p : pc) : Prop := nth_error (w_pcs w) t = Some p.
Definition event (w : wconf) (i : nat) (e : ev) : Prop := nth_error (w_log w) i = Some e.
Definition owner (p : pc) : Prop := p = OwnsExclusive \/ p = OwnsShared.
(** the access with which a thread gets the lock (in either mode), and the one with which it gives it up *)
Definition locks (e : ev) : Prop := ~ owner (e_from e) /\ owner (e_to e).
Definition unlocks (e : ev) : Prop := owner (e_from e) /\ ~ owner (e_to e).
(** what a thread does while it has the lock, up to and including the unlocking *)
Definition while_exclusive (e : ev) : Prop := e_from e = OwnsExclusive.
Definition while_owner (e : ev) : Prop := owner (e_from e).
(** the current value of state_: the last one in its modification order *)
Definition latest_value (w : wconf) : N := m_val (last (w_mo w) (mkMsg None 0%N false)).
Definition shared_owners (w : wconf) : nat := length (filter (fun p => match p with OwnsShared => true | _ => false end) (w_pcs w)).
Definition writes (e : ev) : bool := match e_act e with ARmw _ _ _ _ | AStore _ _ => true | _ => false end.

(** * Lemmas *)
Lemma owner_owning p : owner p <-> owning p = true.
Proof. split; [intros [-> | ->]; reflexivity|apply owning_cases]. Qed.
Lemma not_owner_owning p : ~ owner p <-> owning p = false.
Proof. rewrite owner_owning. destruct (owning p); split; congruence. Qed.
Lemma event_shape e : e = mkEv (e_thread e) (e_from e) (e_act e) (e_to e) (e_rf e).
Proof. destruct e; reflexivity. Qed.
Lemma unlocks_released n w i e : exec n w -> event w i e -> (unlocks e <-> released e).
Proof.
  intros X H. pose proof (hi_steps _ (exec_hinv _ _ X) _ _ H) as T. unfold unlocks. rewrite owner_owning, not_owner_owning.
  rewrite (event_shape e) at 3. symmetry. apply unlocks_iff. exact T.
Qed.
Lemma locks_acquired n w i e : exec n w -> event w i e -> (locks e <-> acquired e).
Proof.
  intros X H. pose proof (hi_steps _ (exec_hinv _ _ X) _ _ H) as T. unfold locks. rewrite not_owner_owning, owner_owning.
  rewrite (event_shape e) at 3. symmetry. apply locks_iff. exact T.
Qed.

(** * C58 *)
(** however old the values that its loads return, the lock excludes: one exclusive owner at most, and no shared owner beside it *)
Theorem C58_mutual_exclusion : forall n w, exec n w ->
  (forall s t, thread_at w s OwnsExclusive -> thread_at w t OwnsExclusive -> s = t) /\
  (forall s t, thread_at w s OwnsExclusive -> thread_at w t OwnsShared -> False).
Proof.
  intros n w X. pose proof (mi_inv _ (exec_minv _ _ X)) as V. split; intros s t Hs Ht.
  - exact (inv_x_uniq _ _ _ _ V Hs Ht).
  - exact (inv_x_no_s _ _ _ _ V Hs Ht).
Qed.
(** the latest value of state_ tells exactly who owns the lock; the number of shared owners never overflows *)
Theorem C58_latest_value_encodes_owners : forall n w, exec n w ->
  (N.testbit (latest_value w) 31 = true <-> exists t, thread_at w t OwnsExclusive) /\
  N.of_nat (shared_owners w) = (latest_value w mod 2 ^ 30)%N /\ (N.of_nat (shared_owners w) < 2 ^ 30)%N.
Proof.
  intros n w X. pose proof (mi_inv _ (exec_minv _ _ X)) as V. change (last_val (w_mo w)) with (latest_value w) in V.
  destruct (v_word _ V) as (p & Hp & Hw & _). pose proof (v_x _ V) as Hx. pose proof (v_s _ V) as Hs. cbn [fst snd] in *.
  change (N.of_nat (shared_owners w)) with (count isS (w_pcs w)).
  split; [|split; [|exact Hs]].
  - assert (N.testbit (latest_value w) 31 = (count isX (w_pcs w) =? 1)%N) as ->.
    { rewrite Hw, N.testbit_eqb. unfold word. change (2 ^ 31)%N with 2147483648%N. change (2 ^ 30)%N with 1073741824%N in Hs.
      set (x := count isX (w_pcs w)) in *. set (s := count isS (w_pcs w)) in *.
      replace ((2147483648 * x + 1073741824 * p + s) / 2147483648)%N with x; [|apply (N.div_unique _ _ _ (1073741824 * p + s)%N); lia].
      assert (x = 0 \/ x = 1)%N as [-> | ->] by lia; reflexivity. }
    rewrite N.eqb_eq. split.
    + intros E. assert (0 < count isX (w_pcs w))%N as Pos by lia. apply count_pos in Pos as (t & q & Ht & Hq). exists t. unfold thread_at. destruct q; try discriminate. exact Ht.
    + intros (t & Ht). assert (0 < count isX (w_pcs w))%N by (apply count_pos; exists t, OwnsExclusive; auto). lia.
  - rewrite Hw. unfold word. change (2 ^ 30)%N with 1073741824%N in *. set (x := count isX (w_pcs w)) in *. set (s := count isS (w_pcs w)) in *.
    replace (2147483648 * x + 1073741824 * p + s)%N with (s + (2 * x + p) * 1073741824)%N by lia.
    rewrite N.mod_add by discriminate. symmetry. apply N.mod_small. exact Hs.
Qed.
(** nothing is ever written into the past: the modification order of state_ is the order in which the writes were made *)
Theorem C58_writes_in_order : forall n w, exec n w ->
  map m_id (w_mo w) = None :: map Some (filter (fun i => match nth_error (w_log w) i with Some e => writes e | None => false end) (seq 0 (length (w_log w)))).
Proof.
  intros n w X. induction X as [|ts vs mo log t q a q' s rf mo' s' X IH Hq T Hs M]; [reflexivity|].
  destruct (step_minv _ _ _ _ _ _ _ _ _ _ _ _ (exec_minv _ _ X) Hq T Hs M) as [_ MS]. cbn [w_mo w_log] in *. clear M.
  rewrite app_length, Nat.add_1_r, seq_S, filter_app, map_app. cbn [filter plus].
  rewrite nth_last.
  assert (filter (fun i => match nth_error (log ++ [mkEv t q a q' rf]) i with Some e => writes e | None => false end) (seq 0 (length log))
    = filter (fun i => match nth_error log i with Some e => writes e | None => false end) (seq 0 (length log))) as ->.
  { apply filter_ext_in. intros i Hi. apply in_seq in Hi. rewrite nth_error_app1 by lia. reflexivity. }
  set (F := filter _ _) in *.
  destruct MS as [a rf Qa|acq rel v|rel v Ex]; cbn [writes e_act].
  - replace (writes (mkEv t q a q' rf)) with false by (destruct a; cbn in Qa |- *; tauto). cbn [map]. rewrite app_nil_r. exact IH.
  - rewrite map_app, IH. reflexivity.
  - rewrite map_app, IH. reflexivity.
Qed.
(** every unlocking, shared or exclusive, happens before every later locking, shared or exclusive *)
Theorem C58_unlocking_happens_before_locking : forall n w i j e f, exec n w -> event w i e -> event w j f ->
  unlocks e -> locks f -> (i < j)%nat -> happens_before (w_log w) i j.
Proof.
  intros n w i j e f X Hi Hj U L Lt. apply (unlocks_released _ _ _ _ X Hi) in U. apply (locks_acquired _ _ _ _ X Hj) in L.
  exact (hi_acq _ (exec_hinv _ _ X) i j e f Hi Hj U L Lt).
Qed.
(** what is done while having the lock exclusively never races with what other threads do while having the lock in either mode: the one done first
    happens before the other *)
Theorem C58_critical_sections_are_ordered : forall n w i j e f, exec n w -> event w i e -> event w j f ->
  while_owner e -> while_owner f -> while_exclusive e \/ while_exclusive f -> e_thread e <> e_thread f -> (i < j)%nat -> happens_before (w_log w) i j.
Proof.
  intros n w i j e f X Hi Hj O1 O2 Ex Ne L. apply (hi_order _ (exec_hinv _ _ X) i j e f Hi Hj L Ne).
  split; [now apply owner_owning|]. split; [now apply owner_owning|exact Ex].
Qed.
(** happens-before is consistent: no event happens before itself or before an earlier one *)
Theorem C58_happens_before_goes_forward : forall n w i j, exec n w -> happens_before (w_log w) i j -> (i < j)%nat.
Proof.
  intros n w i j X. assert (forall k e r, event w k e -> e_rf e = Some r -> (r < k)%nat) as RF.
  { clear i j. induction X as [|ts vs mo log t q a q' s rf mo' s' X IH Hq T Hs M]; [intros [|k] e r H; discriminate|].
    intros k e r H E. unfold event in *. cbn [w_log] in *. apply nth_snoc in H as [[_ H]|[-> ->]]; [eauto|].
    pose proof (mi_ids _ (exec_minv _ _ X)) as ID. cbn [w_mo w_log] in ID. cbn [e_rf] in E.
    destruct M; try discriminate; apply (ID m r); auto; apply in_or_app; right; now left. }
  assert (forall i k, release_sequence (w_log w) i k -> (i <= k)%nat) as RS.
  { intros a k H. induction H as [e H R|k k' e H IH Hk Rm E]; [lia|]. pose proof (RF k' e k Hk E). lia. }
  unfold happens_before. induction 1 as [a b [(L & _)|(e & k & E1 & _ & E3 & E4)]|a b c _ I1 _ I2]; [exact L| |lia].
  pose proof (RF b e k E1 E3). pose proof (RS a k E4). lia.
Qed.

(** * A concrete execution: thread 0 locks exclusively, works, unlocks; thread 1, in lock_shared(), then loads the
    initial value of state_ although it was overwritten twice; its compare-exchange takes the latest value *)
Definition example_log : list ev :=
  [ mkEv 0 Idle ACall Lock None; mkEv 0 Lock (ALoad 0) (LockCas 0) None; mkEv 0 (LockCas 0) (ARmw true false 0 2147483648) OwnsExclusive None;
    mkEv 0 OwnsExclusive AOther OwnsExclusive None; mkEv 1 Idle ACall LockShared None; mkEv 0 OwnsExclusive (AStore true 0) Idle None;
    mkEv 1 LockShared (ALoad 0) (LockSharedCas 0) None; mkEv 1 (LockSharedCas 0) (ARmw true false 0 1) OwnsShared (Some 5%nat);
    mkEv 1 OwnsShared AOther OwnsShared None ]%N.
Definition example : wconf :=
  mkW [Idle; OwnsShared] [Some 5; Some 7]%nat [mkMsg None 0 false; mkMsg (Some 2%nat) 2147483648 true; mkMsg (Some 5%nat) 0 false; mkMsg (Some 7%nat) 1 true] example_log.
Example C58_stale_load : exec 2 example.
Proof.
  Local Ltac go H X := pose proof X as H'; clear H; rename H' into H; cbn [length app upd setn firstn skipn nth_error] in H.
  pose proof (x_init 2) as H. cbn [repeat] in H.
  go H (x_step 2 _ _ _ _ 0 _ _ _ _ _ _ _ H eq_refl wk_call_lock eq_refl (mem_call _ _ _)).
  assert (current_for None []) as C by (intros []).
  go H (x_step 2 _ _ _ _ 0 _ _ _ _ _ _ _ H eq_refl (wk_l_free 0 eq_refl eq_refl) eq_refl (mem_load 1 None [] (mkMsg None 0 false) [] C)).
  go H (x_step 2 _ _ _ _ 0 _ _ _ _ _ _ _ H eq_refl (wk_l_ok 0) eq_refl (mem_rmw 2 None [] (mkMsg None 0 false) [] true false _ C Logic.I)).
  go H (x_step 2 _ _ _ _ 0 _ _ _ _ _ _ _ H eq_refl wk_exclusive eq_refl (mem_other _ _ _)).
  go H (x_step 2 _ _ _ _ 1 _ _ _ _ _ _ _ H eq_refl wk_call_lock_shared eq_refl (mem_call _ _ _)).
  go H (x_step 2 _ _ _ _ 0 _ _ _ _ _ _ _ H eq_refl wk_ux eq_refl
    (mem_store 5 (Some 2) [mkMsg None 0 false] (mkMsg (Some 2) 2147483648 true) [] true 0 (fun F => match F with end) Logic.I)).
  assert (current_for None [mkMsg (Some 2) 2147483648 true; mkMsg (Some 5) 0 false]) as C' by (intros [F|[F|[]]]; discriminate).
  go H (x_step 2 _ _ _ _ 1 _ _ _ _ _ _ _ H eq_refl (wk_ls_load 0 eq_refl) eq_refl (mem_load 6 None [] (mkMsg None 0 false) _ C')).
  go H (x_step 2 _ _ _ _ 1 _ _ _ _ _ _ _ H eq_refl (wk_ls_ok 0) eq_refl
    (mem_rmw 7 None [mkMsg None 0 false; mkMsg (Some 2) 2147483648 true] (mkMsg (Some 5) 0 false) [] true false _ C Logic.I)).
  go H (x_step 2 _ _ _ _ 1 _ _ _ _ _ _ _ H eq_refl wk_shared eq_refl (mem_other _ _ _)).
  exact H.
Qed.
Example C58_stale_load_ordered : happens_before example_log 3 8.
Proof.
  apply (C58_critical_sections_are_ordered 2 example 3 8 _ _ C58_stale_load eq_refl eq_refl); cbn.
  - now left.
  - now right.
  - now left.
  - discriminate.
  - lia.
Qed.
Print Assumptions C58_mutual_exclusion.
Print Assumptions C58_latest_value_encodes_owners.
Print Assumptions C58_writes_in_order.
Print Assumptions C58_unlocking_happens_before_locking.
Print Assumptions C58_critical_sections_are_ordered.
Print Assumptions C58_happens_before_goes_forward.
