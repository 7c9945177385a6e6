From Coq Require Import NArith ZArith Bool List Arith Lia ZifyBool ZifyNat ZifyN.
From Verif Require Import RwSpinlockModel.
Import ListNotations.
Local Open Scope N_scope.

Definition isS (p : pc) : bool := match p with OwnsShared => true | _ => false end.
Definition isX (p : pc) : bool := match p with OwnsExclusive => true | _ => false end.
Definition isW (p : pc) : bool := match p with Lock | LockCas _ | LockPend _ => true | _ => false end.
Definition count (f : pc -> bool) (l : list pc) : N := N.of_nat (length (filter f l)).
Definition b2n (b : bool) : N := if b then 1 else 0.

Lemma masks : locked_exclusive_mask = 2147483648 /\ writer_pending_mask = 1073741824 /\ reader_lock_count_mask = 1073741823.
Proof. repeat split; reflexivity. Qed.

Lemma count_app f a b : count f (a ++ b) = count f a + count f b.
Proof. unfold count. rewrite filter_app, app_length. lia. Qed.
Lemma count_cons f x l : count f (x :: l) = b2n (f x) + count f l.
Proof. unfold count. cbn. destruct (f x); cbn [length b2n]; lia. Qed.
Lemma count_upd f l i p x : nth_error l i = Some p -> count f (upd l i x) + b2n (f p) = count f l + b2n (f x).
Proof.
  intros H. unfold upd. destruct (nth_error_split _ _ H) as (l1 & l2 & -> & <-).
  rewrite firstn_app, Nat.sub_diag, firstn_all. cbn [firstn]. rewrite app_nil_r.
  replace (skipn (S (length l1)) (l1 ++ p :: l2)) with l2.
  - rewrite !count_app, !count_cons. lia.
  - rewrite skipn_app, skipn_all2 by lia. replace (S (length l1) - length l1)%nat with 1%nat by lia. reflexivity.
Qed.
Lemma count_pos f l : 0 < count f l <-> exists i p, nth_error l i = Some p /\ f p = true.
Proof.
  unfold count. split.
  - intros H. destruct (filter f l) as [|p r] eqn:E; [cbn in H; lia|].
    assert (In p (filter f l)) as I by (rewrite E; now left). apply filter_In in I as [I F]. apply In_nth_error in I as [i Hi]. eauto.
  - intros (i & p & Hi & F). assert (In p (filter f l)) as I by (apply filter_In; split; [eapply nth_error_In; eauto|exact F]).
    destruct (filter f l); [destruct I|cbn; lia].
Qed.

(** words: exclusive bit, pending bit, readers *)
Definition word (x p s : N) : N := 2147483648 * x + 1073741824 * p + s.
Lemma land_excl x p s : x <= 1 -> p <= 1 -> s < 2 ^ 30 -> (N.land (word x p s) locked_exclusive_mask = 0 <-> x = 0).
Proof.
  intros Hx Hp Hs. change locked_exclusive_mask with (2 ^ 31). 
  assert (N.land (word x p s) (2 ^ 31) = if N.testbit (word x p s) 31 then 2 ^ 31 else 0) as E.
  { apply N.bits_inj. intros j. rewrite N.land_spec, N.pow2_bits_eqb. destruct (N.eqb_spec 31 j) as [<-|Ne].
    - destruct (N.testbit (word x p s) 31); [reflexivity|now rewrite N.bits_0].
    - rewrite andb_false_r. destruct (N.testbit (word x p s) 31); [rewrite N.pow2_bits_false; auto|now rewrite N.bits_0]. }
  rewrite E. assert (N.testbit (word x p s) 31 = (x =? 1)) as ->.
  { rewrite N.testbit_eqb. unfold word. change (2 ^ 31) with 2147483648. change (2 ^ 30) with 1073741824 in Hs.
    replace ((2147483648 * x + 1073741824 * p + s) / 2147483648) with x; [|apply (N.div_unique _ _ _ (1073741824 * p + s)); lia].
    assert (x = 0 \/ x = 1) as [-> | ->] by lia; reflexivity. }
  destruct (N.eqb_spec x 1); split; intros; try lia; discriminate.
Qed.
Lemma land_readers x p s : x <= 1 -> p <= 1 -> s < 2 ^ 30 -> N.land (word x p s) reader_lock_count_mask = s.
Proof.
  intros Hx Hp Hs. change reader_lock_count_mask with (N.ones 30). rewrite N.land_ones. unfold word.
  replace (2147483648 * x + 1073741824 * p + s) with (s + (2 * x + p) * 2 ^ 30) by (change (2 ^ 30) with 1073741824; lia).
  rewrite N.mod_add by discriminate. apply N.mod_small. exact Hs.
Qed.
Lemma land_pending x p s : x <= 1 -> p <= 1 -> s < 2 ^ 30 -> (N.land (word x p s) writer_pending_mask = 0 <-> p = 0).
Proof.
  intros Hx Hp Hs. change writer_pending_mask with (2 ^ 30).
  assert (N.land (word x p s) (2 ^ 30) = if N.testbit (word x p s) 30 then 2 ^ 30 else 0) as E.
  { apply N.bits_inj. intros j. rewrite N.land_spec, N.pow2_bits_eqb. destruct (N.eqb_spec 30 j) as [<-|Ne].
    - destruct (N.testbit (word x p s) 30); [reflexivity|now rewrite N.bits_0].
    - rewrite andb_false_r. destruct (N.testbit (word x p s) 30); [rewrite N.pow2_bits_false; auto|now rewrite N.bits_0]. }
  rewrite E. assert (N.testbit (word x p s) 30 = (p =? 1)) as ->.
  { rewrite N.testbit_eqb. unfold word. change (2 ^ 30) with 1073741824 in *.
    replace ((2147483648 * x + 1073741824 * p + s) / 1073741824) with (2 * x + p); [|apply (N.div_unique _ _ _ s); lia].
    assert (x = 0 \/ x = 1) as [-> | ->] by lia; assert (p = 0 \/ p = 1) as [-> | ->] by lia; reflexivity. }
  destruct (N.eqb_spec p 1); split; intros; try lia; discriminate.
Qed.
Lemma lor_pending s : s < 2 ^ 30 -> N.lor (word 0 0 s) writer_pending_mask = word 0 1 s.
Proof.
  intros Hs. unfold word. change writer_pending_mask with (1 * 2 ^ 30).
  replace (2147483648 * 0 + 1073741824 * 1 + s) with (1 * 2 ^ 30 + s) by (change (2 ^ 30) with 1073741824; lia).
  replace (2147483648 * 0 + 1073741824 * 0 + s) with s by lia.
  rewrite <- N.shiftl_mul_pow2. rewrite N.lor_comm. symmetry. 
  rewrite N.add_nocarry_lxor.
  - apply N.bits_inj. intros j. rewrite N.lxor_spec, N.lor_spec.
    destruct (N.lt_ge_cases j 30) as [L|G]; [rewrite N.shiftl_spec_low by exact L; destruct (N.testbit s j); reflexivity|].
    assert (N.testbit s j = false) as ->.
    { destruct (N.eq_dec s 0) as [->|Nz]; [apply N.bits_0|]. apply N.bits_above_log2. assert (N.log2 s < 30) by (apply N.log2_lt_pow2; lia). lia. }
    destruct (N.testbit _ j); reflexivity.
  - apply N.bits_inj. intros j. rewrite N.land_spec, N.bits_0.
    destruct (N.lt_ge_cases j 30) as [L|G]; [rewrite N.shiftl_spec_low by exact L; reflexivity|].
    assert (N.testbit s j = false) as ->; [|apply andb_false_r].
    destruct (N.eq_dec s 0) as [->|Nz]; [apply N.bits_0|]. apply N.bits_above_log2. assert (N.log2 s < 30) by (apply N.log2_lt_pow2; lia). lia.
Qed.

Record Inv (cf : config) : Prop := {
  v_word : exists p, p <= 1 /\ snd cf = word (count isX (fst cf)) p (count isS (fst cf)) /\ (p = 1 -> 0 < count isW (fst cf) /\ count isX (fst cf) = 0);
  v_x : count isX (fst cf) <= 1;
  v_xs : count isX (fst cf) = 1 -> count isS (fst cf) = 0;
  v_s : count isS (fst cf) < 2 ^ 30;
  (* values remembered between a load and a compare-exchange *)
  v_cas : forall i st, nth_error (fst cf) i = Some (TrySharedCas st) \/ nth_error (fst cf) i = Some (LockSharedCas st) -> st < reader_lock_count_mask;
  v_lcas : forall i st, nth_error (fst cf) i = Some (TryLockCas st) \/ nth_error (fst cf) i = Some (LockCas st) -> N.land st locked_exclusive_mask = 0 /\ N.land st reader_lock_count_mask = 0;
  v_pcas : forall i st, nth_error (fst cf) i = Some (LockPend st) -> N.land st locked_exclusive_mask = 0 /\ N.land st writer_pending_mask = 0 /\ N.land st reader_lock_count_mask <> 0
}.

Lemma nth_upd (l : list pc) i p x j : nth_error l i = Some p -> nth_error (upd l i x) j = if Nat.eqb j i then Some x else nth_error l j.
Proof.
  intros H. unfold upd. destruct (nth_error_split _ _ H) as (l1 & l2 & -> & <-).
  rewrite firstn_app, Nat.sub_diag, firstn_all. cbn [firstn]. rewrite app_nil_r.
  replace (skipn (S (length l1)) (l1 ++ p :: l2)) with l2.
  2:{ rewrite skipn_app, skipn_all2 by lia. replace (S (length l1) - length l1)%nat with 1%nat by lia. reflexivity. }
  destruct (Nat.eqb_spec j (length l1)) as [->|Ne].
  - rewrite nth_error_app2, Nat.sub_diag by lia. reflexivity.
  - destruct (Nat.lt_ge_cases j (length l1)); [rewrite !nth_error_app1 by lia; reflexivity|]. rewrite !nth_error_app2 by lia.
    destruct (j - length l1)%nat eqn:E; [lia|]. reflexivity.
Qed.

Lemma init_inv n : Inv (repeat Idle n, 0).
Proof.
  assert (forall f, f Idle = false -> count f (repeat Idle n) = 0) as C.
  { intros f Hf. unfold count. induction n as [|m IH]; [reflexivity|]. cbn. rewrite Hf. exact IH. }
  assert (forall i p, nth_error (repeat Idle n) i = Some p -> p = Idle) as R by (intros i p H; apply nth_error_In, repeat_spec in H; exact H).
  constructor; cbn [fst snd]; rewrite ?(C isX eq_refl), ?(C isS eq_refl); try lia.
  - exists 0. split; [lia|]. split; [reflexivity|]. intros H. discriminate.
  - intros i st [H|H]; apply R in H; discriminate.
  - intros i st [H|H]; apply R in H; discriminate.
  - intros i st H; apply R in H; discriminate.
Qed.

Lemma word_inj_small x p s w : w = word x p s -> x <= 1 -> p <= 1 -> w < 1073741823 -> x = 0 /\ p = 0.
Proof. intros -> Hx Hp H. unfold word in H. lia. Qed.
Lemma word_inc s : s < 1073741823 -> (word 0 0 s + 1) mod 2 ^ 32 = word 0 0 (s + 1).
Proof. intros H. unfold word. change (2 ^ 32) with 4294967296. rewrite N.mod_small; lia. Qed.
Lemma word_dec x p s : x <= 1 -> p <= 1 -> 0 < s -> s < 1073741824 -> (word x p s + 2 ^ 32 - 1) mod 2 ^ 32 = word x p (s - 1).
Proof.
  intros Hx Hp H H2. unfold word. change (2 ^ 32) with 4294967296.
  replace (2147483648 * x + 1073741824 * p + s + 4294967296 - 1) with ((2147483648 * x + 1073741824 * p + (s - 1)) + 1 * 4294967296) by lia.
  rewrite N.mod_add by discriminate. apply N.mod_small. lia.
Qed.

Lemma step_inv cf i cf' : Inv cf -> step cf i cf' -> Inv cf'.
Proof.
  intros [(p & Hp & Hw & Hpw) Hx Hxs Hs Hc Hl Hpc] St. destruct St as [ts w i q q' w' Hi T]. cbn [fst snd] in *.
  pose proof (fun f => count_upd f ts i q q' Hi) as CU.
  pose proof (CU isX) as CX. pose proof (CU isS) as CS. pose proof (CU isW) as CW.
  pose proof (fun j => nth_upd ts i q q' j Hi) as NU.
  assert (forall f, f q = true -> 0 < count f ts) as POS by (intros f Hf; apply count_pos; eauto).
  pose proof (POS isX) as PX. pose proof (POS isS) as PS. pose proof (POS isW) as PW.
  clear CU POS.
  set (X := count isX ts) in *. set (S := count isS ts) in *. set (W := count isW ts) in *.
  set (X' := count isX (upd ts i q')) in *. set (S' := count isS (upd ts i q')) in *. set (W' := count isW (upd ts i q')) in *.
  change (2 ^ 30) with 1073741824 in Hs.
  pose proof (land_excl X p S Hx Hp Hs) as LE. pose proof (land_readers X p S Hx Hp Hs) as LR. pose proof (land_pending X p S Hx Hp Hs) as LP.
  pose proof (Hc i) as Hc'. pose proof (Hl i) as Hl'. pose proof (Hpc i) as Hpc'.
  change reader_lock_count_mask with 1073741823 in Hc'.
  (* what each step does to the counts and the word *)
  assert (exists p', p' <= 1 /\ w' = word X' p' S' /\ (p' = 1 -> 0 < W' /\ X' = 0) /\ X' <= 1 /\ (X' = 1 -> S' = 0) /\ S' < 1073741824) as (p' & A1 & A2 & A3 & A4 & A5 & A6).
  { assert ((w' = w /\ isX q = isX q' /\ isS q = isS q' /\ (isW q = true -> isW q' = true)) -> exists p', p' <= 1 /\ w' = word X' p' S' /\ (p' = 1 -> 0 < W' /\ X' = 0) /\ X' <= 1 /\ (X' = 1 -> S' = 0) /\ S' < 1073741824) as SAME.
    { intros (-> & E1 & E2 & E3). rewrite E1 in CX. rewrite E2 in CS. exists p. replace X' with X by lia. replace S' with S by lia.
      split; [exact Hp|]. split; [exact Hw|]. split; [|auto]. intros Ep. destruct (Hpw Ep) as [P1 P2]. split; [|exact P2].
      destruct (isW q) eqn:F; [rewrite (E3 eq_refl) in CW; lia|]. cbn [b2n] in CW. lia. }
    destruct T; try (apply SAME; repeat split; (reflexivity || (intros; assumption) || (cbn; intros; congruence))).
    all: clear SAME; cbn [isX isS isW b2n] in CX, CS, CW.
    - (* try_lock_shared succeeds *) pose proof (Hc' w (or_introl Hi)) as B. destruct (word_inj_small _ _ _ _ Hw Hx Hp B) as [-> ->].
      exists 0. replace X' with 0 by lia. replace S' with (S + 1) by lia. rewrite Hw in *. unfold word in B. rewrite word_inc by lia. repeat split; lia.
    - pose proof (Hc' w (or_intror Hi)) as B. destruct (word_inj_small _ _ _ _ Hw Hx Hp B) as [-> ->].
      exists 0. replace X' with 0 by lia. replace S' with (S + 1) by lia. rewrite Hw in *. unfold word in B. rewrite word_inc by lia. repeat split; lia.
    - (* unlock_shared *) specialize (PS eq_refl). exists p. replace X' with X by lia. replace S' with (S - 1) by lia. rewrite Hw.
      split; [exact Hp|]. split; [apply word_dec; lia|]. split; [intros Ep; destruct (Hpw Ep); split; lia|]. repeat split; lia.
    - (* try_lock *) destruct (Hl' w (or_introl Hi)) as [B1 B2]. rewrite Hw in B1, B2. apply LE in B1. rewrite LR in B2. exists 0.
      replace X' with 1 by lia. replace S' with 0 by lia. split; [lia|]. split; [reflexivity|]. repeat split; lia.
    - (* lock *) destruct (Hl' w (or_intror Hi)) as [B1 B2]. rewrite Hw in B1, B2. apply LE in B1. rewrite LR in B2. exists 0.
      replace X' with 1 by lia. replace S' with 0 by lia. split; [lia|]. split; [reflexivity|]. repeat split; lia.
    - (* pending bit *) specialize (PW eq_refl). destruct (Hpc' w Hi) as (B1 & B2 & B3). rewrite Hw in B1, B2, B3. apply LE in B1. apply LP in B2. exists 1.
      replace X' with X by lia. replace S' with S by lia. rewrite B1, B2 in *. rewrite Hw, lor_pending by exact Hs. split; [lia|]. split; [reflexivity|]. repeat split; lia.
    - (* unlock *) specialize (PX eq_refl). assert (X = 1) as EX by lia. specialize (Hxs EX). exists 0. replace X' with 0 by lia. replace S' with 0 by lia.
      split; [lia|]. split; [reflexivity|]. repeat split; lia. }
  clear LE LR LP PX PS PW CX CS CW.
  constructor; cbn [fst snd]; fold X' S' W'; auto.
  - exists p'. auto.
  - intros j st. rewrite NU. destruct (Nat.eqb_spec j i) as [->|Ne]; [|apply Hc].
    destruct T; intros [E|E]; try discriminate; injection E as <-; assumption.
  - intros j st. rewrite NU. destruct (Nat.eqb_spec j i) as [->|Ne]; [|apply Hl].
    destruct T; intros [E|E]; try discriminate; injection E as <-; auto.
  - intros j st. rewrite NU. destruct (Nat.eqb_spec j i) as [->|Ne]; [|apply Hpc].
    destruct T; intros E; try discriminate; injection E as <-; auto.
Qed.

Lemma reachable_inv n cf : reachable n cf -> Inv cf.
Proof. induction 1; [apply init_inv|eapply step_inv; eauto]. Qed.
