(** C57: the concurrent containers under the C++ memory model (WeakModel.v): the group metadata are relaxed atomics read without a lock, so a thread may
    read old values of them. [run n w]: n threads, from no container, have made the events [w_log w]; [hb]: happens-before.
    All theorems hold with ([st] = true) and without ([st] = false) the synchronization given by sharing container mutexes, reader locks and the size counter. *)
From Coq Require Import NArith Bool List Arith Lia Permutation.
From Verif Require Import SizeModel FoaModel FoaBase FoaFind FoaArr FoaInv FoaSpec FoaWorld FoaExamples ConcSpec ConcModel ConcInv ConcStep2 ConcSys ConcSys2 ConcProps ConcExec ConcWrap
  WeakSpec WeakModel WeakHb WeakStep WeakInv WeakSee WeakSys WeakSys2 WeakLook WeakFind WeakIns WeakLin WeakExec WeakExamples WeakSB.
From Verif Require Properties_Conc.
Import ListNotations.
Local Open Scope N_scope.
Notation stored := Properties_Conc.stored.
Notation holds := Properties_Conc.holds.

(** after the first m events, container d has an element whose key is equivalent to q *)
Definition present_at {K V} (c : Cfg K V) (w : @W K V) (d : nat) (q : K) (m : nat) : Prop :=
  exists C s e, at_time w m = Some C /\ holds C d s /\ In e (stored s) /\ keqf c (pid (tb s)) q (fst e) = true.
(** events c0 and r0: a call of o on container d by thread t, and its return with answer r *)
Definition call_of {K V} (w : @W K V) (t d : nat) (o : cop K V) (c0 r0 : nat) (r : cres K V) : Prop :=
  (c0 < r0)%nat /\ nth_error (w_log w) c0 = Some (t, WCall d o) /\ nth_error (w_log w) r0 = Some (t, WRet d r) /\
  forall j d' o', (c0 < j < r0)%nat -> nth_error (w_log w) j <> Some (t, WCall d' o').
(** what event a does with the non-atomic data of container d: with the element in slot i ([Some i]) and with the rest, that is, hash function, predicate, allocator,
    arrays ([None]); wr: it may change it *)
Definition accesses {K V} (a : @wact K V) (d : nat) (m : option nat) (wr : bool) : Prop :=
  match a with
  | WLocal d' o l _ _ _ => d' = d /\ match m with Some i => slot_use d (ConcModel.At d o l) = Some (i, wr) | None => wr = false end
  | WExcl ds made => (In d ds \/ In d made) /\ wr = true
  | _ => False
  end.

Section P.
Context {K V : Type} (c : Cfg K V) (st : bool).
Hypothesis HC : good_cfg c.
Notation run := (wruns c st counters_fit).
Notation hb := (@hb K V st).
Let fits : forall C : @conf K V, counters_fit C -> counters_fit C := fun _ H => H.
Lemma run_wi n w : run n w -> WI c st w. Proof. exact (reach_wi c st HC counters_fit n w fits). Qed.
Lemma run_inv n w : run n w -> GInv c (w_now w). Proof. intros R. exact (wi_ginv c st w (run_wi n w R)). Qed.
Lemma run_fits n w : run n w -> counters_fit (w_now w). Proof. intros R. exact (run_fit c st counters_fit n w R). Qed.
Lemma present_ok w d q m : present_at c w d q m <-> Present c w d q m.
Proof.
  unfold present_at, Present, hist. split.
  - intros (C & s & e & E & Hb & Hi & Hk). rewrite E. apply Properties_Conc.holds_box in Hb. assert (exists i, lives s i e) as (i & Hl); [|exists s, i, e; auto].
    unfold stored in Hi. unfold lives, cells, A. destruct (a_elems (arr (tb s))) as [cs|]; [|destruct Hi]. apply in_flat_map in Hi as (x & Hx & He). destruct x; try destruct He as [<-|[]]; try destruct He.
    apply In_nth_error in Hx. exact Hx.
  - intros (s & i & e & E & Hl & Hk). destruct (at_time w m) as [C|]; [|discriminate]. exists C, s, e. split; [reflexivity|]. split; [|split; [|exact Hk]].
    + unfold holds, box in *. destruct (nth_error (boxes C) d) as [[x|]|]; try discriminate. injection E as ->. reflexivity.
    + unfold lives, cells, A in Hl. unfold stored. destruct (a_elems (arr (tb s))) as [cs|]; [|destruct i; discriminate]. apply in_flat_map. exists (Live e). split; [eapply nth_error_In; exact Hl|now left].
Qed.

(** *** no data race: two accesses to the same non-atomic data, one of which may change it, are ordered by happens-before *)
Theorem C57_no_data_race : forall n w i j u v a b d m x y, run n w -> (i < j)%nat ->
  nth_error (w_log w) i = Some (u, a) -> nth_error (w_log w) j = Some (v, b) -> accesses a d m x -> accesses b d m y -> x || y = true ->
  hb (w_log w) i j.
Proof.
  assert (forall (a : @wact K V) d m x, accesses a d m x -> uses a d m x) as Acc by (intros a d m x H; destruct a; exact H).
  intros n w i j u v a b d m x y R L Hi Hj Ha Hb X. exact (no_race c st HC counters_fit n fits w i j u v a b d m x y R Hi Hj L (Acc _ _ _ _ Ha) (Acc _ _ _ _ Hb) X).
Qed.

(** *** only the unlocked reads of the metadata and of the insertion counter may be out of date: whatever a thread may read, every other step does
    what it would do in the current state *)
Definition unlocked_read (l : @loc K V) : Prop := match l with LScan _ _ _ | LOvf _ | LCount _ => True | _ => False end.
Theorem C57_other_reads_are_current : forall n w t d o l s so i thr, run n w -> nth_error (th (w_now w)) t = Some (ConcModel.At d o l) -> holds (w_now w) d s ->
  sees st w t d so -> sz (tb so) = sz (tb s) -> ml (tb so) = ml (tb s) -> (forall x n, l = LCnt x n -> cnt so = cnt s) -> ~ unlocked_read l ->
  lstep c (free_for (w_now w) t d) so o l i thr = lstep c (free_for (w_now w) t d) s o l i thr.
Proof.
  intros n w t d o l s so i thr R Ht Hb Se Es Em Ec Nu. pose proof (run_wi _ _ R) as I. apply Properties_Conc.holds_box in Hb.
  destruct (wi_box _ _ _ I d s Hb) as (k & ep & D). pose proof (proj2 (view_at (w_now w) d t o l) Ht) as Hv.
  apply (reads_current c st w t d o l s so k ep (free_for (w_now w) t d) i thr (wi_len _ _ _ I) D Hv Se Es Em Ec). destruct l; try reflexivity; destruct (Nu Logic.I).
Qed.

(** *** no step is undefined, whatever it reads *)
Theorem C57_steps_are_defined : forall n w t d o l s so i thr, run n w -> nth_error (th (w_now w)) t = Some (ConcModel.At d o l) -> holds (w_now w) d s ->
  l <> LFull -> (forall r, l <> LRet r) -> sees st w t d so -> sz (tb so) = sz (tb s) -> ml (tb so) = ml (tb s) -> (forall x n, l = LCnt x n -> cnt so = cnt s) ->
  match lstep c (free_for (w_now w) t d) so o l i thr with Blocked => True | Ub => False | Step e _ _ => apply e s <> None end.
Proof.
  intros n w t d o l s so i thr R Ht Hb Nf Nr Se Es Em Ec. pose proof (run_wi _ _ R) as I. pose proof (run_fits _ _ R) as NW. apply Properties_Conc.holds_box in Hb.
  destruct (wi_box _ _ _ I d s Hb) as (k & ep & D). pose proof (proj2 (view_at (w_now w) d t o l) Ht) as Hv.
  assert (nowrap s l) as Fit by (destruct l; try exact Logic.I; cbn [nowrap]; intros m Hm; eapply NW; [exact Ht|exact Hb|exact Hm]).
  pose proof (local_good c st w t d o l s so k ep (free_for (w_now w) t d) i thr (wi_len _ _ _ I) D Hv Se Es Em Ec Fit (fun g x => free_ok (w_now w) t d g x) Nf Nr) as G.
  destruct (lstep _ _ _ _ _ _ _) as [| |e l' a]; auto. destruct G as (s' & E & _). congruence.
Qed.
Theorem C57_growth_is_defined : forall n w t d o s k, run n w -> nth_error (th (w_now w)) t = Some (ConcModel.At d o LFull) -> holds (w_now w) d s ->
  alone (w_now w) t d = true -> rehash_if_full c (tb s) k <> Undef.
Proof. intros n w t d o s k R Ht Hb. eapply ginv_defined_full; [exact HC|eapply run_inv, R|exact Ht|apply Properties_Conc.holds_box, Hb]. Qed.
Theorem C57_whole_operations_are_defined : forall n w o k, run n w -> wpre c o (idle_world (w_now w) o) -> wexec c o (idle_world (w_now w) o) k <> Undef.
Proof. intros n w o k R. apply ginv_defined_whole; [exact HC|eapply run_inv, R]. Qed.

(** *** no two equivalent elements, at any moment *)
Theorem C57_no_equivalent_elements : forall n w d s i j e e', run n w -> holds (w_now w) d s -> i <> j ->
  nth_error (stored s) i = Some e -> nth_error (stored s) j = Some e' -> keqf c (pid (tb s)) (fst e) (fst e') = false.
Proof.
  intros n w d s i j e e' R Hb N Hi Hj. destruct (Properties_Conc.live_positions _ _ _ _ _ N Hi Hj) as (i' & j' & N' & E1 & E2).
  apply (ginv_uniq c _ d s (run_inv _ _ R) (Properties_Conc.holds_box _ _ _ Hb) i' j' e e' N'); unfold get_cell; destruct (a_elems (arr (tb s))); auto; destruct i', j'; discriminate.
Qed.
(** *** the size counter counts the elements and at most the operations in flight *)
Theorem C57_size_counter : forall n w d s, run n w -> holds (w_now w) d s ->
  let m := N.of_nat (length (stored s)) in
  m <= ml (tb s) /\ m <= sz (tb s) <= m + N.of_nat (length (filter (inside d) (th (w_now w)))) /\ ml (tb s) <= capacity (arr (tb s)) < 2 ^ 64.
Proof. intros n w d s R Hb. apply (ginv_size c _ d s (run_inv _ _ R) (Properties_Conc.holds_box _ _ _ Hb)). Qed.

(** *** the calls and returns are those of the atomic machine of C36, except that lookups and erasures may answer "not found" although the key is present *)
Theorem C57_only_lookups_can_miss : forall n w, run n w -> missing_history (keqf c) (moves c) (history (w_log w)).
Proof. intros n w R. exact (weak_history c st HC counters_fit n w fits R). Qed.

(** *** but not if the presence of the key happens before the lookup: the key becomes present by event i, which happens before the call, and stays so until the return *)
Theorem C57_known_keys_are_found : forall n w t d p c0 r0 r i, run n w -> call_of w t d (Point p) c0 r0 r ->
  hb (w_log w) i c0 -> ~ present_at c w d (pkey p) i -> (forall m, (i < m <= r0)%nat -> present_at c w d (pkey p) m) -> r <> RNone.
Proof.
  intros n w t d p c0 r0 r i R (L & Hc & Hr & Nc) H1 H2 H3 ->.
  apply (lookup_finds c st HC counters_fit n fits w t d p c0 r0 i R Hc Hr Nc L H1); [rewrite <- present_ok; exact H2|]. intros m Lm. apply present_ok, H3, Lm.
Qed.
(** an insertion that answered "inserted" has made its key present, by one event between its call and its return *)
Theorem C57_insertions_insert : forall n w t d p c0 r0, run n w -> call_of w t d (Point p) c0 r0 RIns ->
  exists i a, (c0 < i < r0)%nat /\ nth_error (w_log w) i = Some (t, a) /\ ~ present_at c w d (pkey p) i /\ present_at c w d (pkey p) (S i).
Proof.
  intros n w t d p c0 r0 R (L & Hc & Hr & Nc). destruct (inserted_event c st HC counters_fit n fits w t d p c0 r0 R Hc Hr Nc L) as (i & a & H1 & H2 & H3 & H4).
  exists i, a. rewrite !present_ok. auto.
Qed.
(** hence: if the return of an insertion (of key k, by thread u) happens before the call of a lookup of k (by thread t; always if u = t) that answers "not found",
    then k was absent at some moment between the two *)
Theorem C57_inserted_keys_are_found : forall n w u d p c1 r1 t p' c2 r2, run n w -> call_of w u d (Point p) c1 r1 RIns -> call_of w t d (Point p') c2 r2 RNone ->
  pkey p' = pkey p -> hb (w_log w) r1 c2 \/ (u = t /\ r1 < c2)%nat ->
  exists i m, (c1 < i < r1)%nat /\ present_at c w d (pkey p) (S i) /\ (S i < m <= r2)%nat /\ ~ present_at c w d (pkey p) m.
Proof.
  intros n w u d p c1 r1 t p' c2 r2 R H1 H2 Ek Hb. destruct (C57_insertions_insert _ _ _ _ _ _ _ R H1) as (i & a & Li & Hi & Ab & Pr). exists i.
  assert (hb (w_log w) r1 c2) as Hb'.
  { destruct Hb as [Hb|[-> L]]; [exact Hb|]. apply hb_sb. destruct H1 as (_ & _ & H1 & _). destruct H2 as (_ & H2 & _). eexists _, _, _. split; [exact H1|]. split; [exact H2|exact L]. }
  assert (hb (w_log w) i c2) as Hi2. { apply hb_trans with r1; [|exact Hb']. apply hb_sb. destruct H1 as (_ & _ & H1 & _). exists u, a. eexists. split; [exact Hi|]. split; [exact H1|lia]. }
  pose proof (hb_bounds _ _ _ _ Hi2) as B. assert (forall m, {present_at c w d (pkey p) m} + {~ present_at c w d (pkey p) m}) as Dec.
  { intros m. unfold present_at. destruct (at_time w m) as [C|]; [|right; intros (C & _ & _ & E & _); discriminate]. destruct (nth_error (boxes C) d) as [[s|]|] eqn:E.
    2,3: right; intros (C' & s & _ & [= <-] & E' & _); unfold Properties_Conc.holds in E'; congruence.
    destruct (existsb (fun e => keqf c (pid (tb s)) (pkey p) (fst e)) (stored s)) eqn:X; [left|right].
    - apply existsb_exists in X as (e & He & Hk). exists C, s, e. auto.
    - intros (C' & s' & e & [= <-] & E' & He & Hk). unfold Properties_Conc.holds in E'. assert (s' = s) as -> by congruence.
      apply (not_true_iff_false _) in X. apply X. apply existsb_exists. eauto. }
  assert (forall N, (exists m, (S i < m <= N)%nat /\ ~ present_at c w d (pkey p) m) \/ forall m, (S i < m <= N)%nat -> present_at c w d (pkey p) m) as Srch.
  { induction N as [|N [(m & Lm & Hm)|IH]]; [right; intros; lia|left; exists m; split; [lia|exact Hm]|]. destruct (Dec (S N)) as [D|D].
    - right. intros m Lm. destruct (Nat.eq_dec m (S N)) as [->|]; [exact D|apply IH; lia].
    - destruct (le_lt_dec (S N) (S i)) as [L|L]; [right; intros m Lm; assert (m = S N \/ m <= N)%nat as [->|] by lia; [lia|apply IH; lia]|left; exists (S N); split; [lia|exact D]]. }
  destruct (Srch r2) as [(m & Lm & Hm)|All]; [exists m; auto|]. exfalso.
  refine (C57_known_keys_are_found n w t d p' c2 r2 RNone i R H2 Hi2 _ _ eq_refl); rewrite Ek; [exact Ab|]. intros m Lm. destruct (Nat.eq_dec m (S i)) as [->|]; [exact Pr|apply All; lia].
Qed.
End P.

(** *** lookups are not linearizable, nor sequentially consistent: there is an execution of two threads, each of which inserts a key ("inserted") and then looks up the
    key of the other ("not found"), whose calls are not those of any execution of the atomic machine, in whatever order the calls of the two threads are put *)
Definition by_thread {K V} (t : nat) (e : event K V) : bool := match e with ECall t' _ | ELin t' _ | ERet t' _ => Nat.eqb t' t end.
Definition call_ofb {K V} (w : @W K V) (t c0 r0 : nat) : bool :=
  forallb (fun j => match nth_error (w_log w) j with Some (t', WCall _ _) => negb (Nat.eqb t' t) | _ => true end) (seq (S c0) (r0 - S c0)).
Lemma call_of_b {K V} (w : @W K V) t d o c0 r0 r : (c0 < r0)%nat -> nth_error (w_log w) c0 = Some (t, WCall d o) -> nth_error (w_log w) r0 = Some (t, WRet d r) -> call_ofb w t c0 r0 = true ->
  call_of w t d o c0 r0 r.
Proof.
  intros L H1 H2 B. split; [exact L|]. split; [exact H1|]. split; [exact H2|]. intros j d' o' Lj E. unfold call_ofb in B. rewrite forallb_forall in B. specialize (B j). rewrite E, Nat.eqb_refl in B.
  assert (In j (seq (S c0) (r0 - S c0))) as I by (apply in_seq; lia). specialize (B I). discriminate B.
Qed.
Lemma by_mine (t : nat) (h : list (event N N)) : (forall e, In e h -> visible e = true) -> filter (by_thread t) h = mine t h.
Proof. intros H. unfold mine. apply filter_ext_in. intros e He. rewrite (H e He). reflexivity. Qed.
Theorem C57_lookups_are_not_sequentially_consistent : forall st, exists w, wruns wcfg st counters_fit 2 w /\
  (exists c0 r0 c1 r1 c2 r2 c3 r3, call_of w 0 0 (ins1 5) c0 r0 RIns /\ call_of w 0 0 (vis1 6) c1 r1 RNone /\ (r0 < c1)%nat /\
     call_of w 1 0 (ins1 6) c2 r2 RIns /\ call_of w 1 0 (vis1 5) c3 r3 RNone /\ (r2 < c3)%nat) /\
  forall h, (forall t, filter (by_thread t) h = filter (by_thread t) (history (w_log w))) -> ~ atomic_history (keqf wcfg) (moves wcfg) h.
Proof.
  intros st. exists (snd (sb3 st)). split; [apply sb3_runs|]. split.
  - exists 5%nat, 57%nat, 65%nat, 107%nat, 6%nat, 64%nat, 66%nat, 108%nat.
    destruct st; (split; [apply call_of_b; [lia|vm_compute; reflexivity|vm_compute; reflexivity|vm_compute; reflexivity]|split; [apply call_of_b; [lia|vm_compute; reflexivity|vm_compute; reflexivity|vm_compute; reflexivity]|split; [lia|split; [apply call_of_b; [lia|vm_compute; reflexivity|vm_compute; reflexivity|vm_compute; reflexivity]|split; [apply call_of_b; [lia|vm_compute; reflexivity|vm_compute; reflexivity|vm_compute; reflexivity]|lia]]]]]).
  - intros h Hh A. apply (sb_not_explained h); [|exact A]. destruct A as (es & s & R & Eh). intros t. rewrite <- (sb3_mine st t).
    rewrite <- !by_mine; [apply Hh| |].
    + intros e. rewrite sb3_calls. cbn. intuition (subst; reflexivity).
    + intros e. rewrite Eh. intros He. apply filter_In in He. apply He.
Qed.

(** *** concrete cases: the hypotheses of the theorems above are met *)
Definition present_atb (w : @W N N) (q : N) (m : nat) : bool :=
  match at_time w m with
  | Some C => match nth_error (boxes C) 0 with Some (Some s) => existsb (fun e => keqf wcfg (pid (tb s)) q (fst e)) (stored s) | _ => false end
  | None => false end.
Lemma present_at_b w q m : present_at wcfg w 0 q m <-> present_atb w q m = true.
Proof.
  unfold present_at, present_atb. split.
  - intros (C & s & e & -> & H & Hi & Hk). unfold Properties_Conc.holds in H. rewrite H. apply existsb_exists. eauto.
  - destruct (at_time w m) as [C|]; [|discriminate]. destruct (nth_error (boxes C) 0) as [[s|]|] eqn:E; try discriminate. intros H. apply existsb_exists in H as (e & Hi & Hk).
    exists C, s, e. auto.
Qed.
(** thread 0 inserts key 5 (event 54 constructs the element in slot 0), tells thread 1, and thread 1 finds it; it reads slot 0 in event 88 *)
Example C57_message : forall st, let w := snd (msg' st) in wruns wcfg st counters_fit 2 w /\
  call_of w 0 0 (ins1 5) 5 57 RIns /\ call_of w 1 0 (vis1 5) 67 92 (RSeen (5, 105)) /\ hb st (w_log w) 54 67 /\
  ~ present_at wcfg w 0 5 54 /\ (forall m, (54 < m <= 92)%nat -> present_at wcfg w 0 5 m) /\
  (exists a b, nth_error (w_log w) 54 = Some (0%nat, a) /\ nth_error (w_log w) 88 = Some (1%nat, b) /\ accesses a 0 (Some 0%nat) true /\ accesses b 0 (Some 0%nat) false).
Proof.
  intros st w. split; [apply msg_runs|]. split; [destruct st; (apply call_of_b; [lia|vm_compute; reflexivity|vm_compute; reflexivity|vm_compute; reflexivity])|].
  split; [destruct st; (apply call_of_b; [lia|vm_compute; reflexivity|vm_compute; reflexivity|vm_compute; reflexivity])|].
  split; [|split; [|split]].
  - assert (exists a b e, nth_error (w_log w) 54 = Some (0%nat, a) /\ nth_error (w_log w) 65 = Some (0%nat, WSend 8) /\ nth_error (w_log w) 66 = Some (1%nat, WRecv 8) /\ nth_error (w_log w) 67 = Some (1%nat, b) /\ e = a) as (a & b & _ & H1 & H2 & H3 & H4 & _).
    { destruct st; (eexists; eexists; eexists; split; [vm_compute; reflexivity|]; split; [vm_compute; reflexivity|]; split; [vm_compute; reflexivity|]; split; [vm_compute; reflexivity|reflexivity]). }
    apply hb_trans with 65%nat; [apply hb_sb; exists 0%nat, a; eexists; split; [exact H1|split; [exact H2|lia]]|].
    apply hb_trans with 66%nat; [|apply hb_sb; exists 1%nat; eexists; eexists; split; [exact H3|split; [exact H4|lia]]].
    apply hb_sw. eexists _, _, _, _. split; [exact H2|]. split; [exact H3|]. split; [lia|]. eapply s_msg; reflexivity.
  - rewrite present_at_b. destruct st; vm_compute; discriminate.
  - intros m Lm. apply present_at_b. assert (forallb (present_atb w 5) (seq 55 38) = true) as H by (destruct st; vm_compute; reflexivity).
    rewrite forallb_forall in H. apply H. apply in_seq. lia.
  - destruct st; (eexists; eexists; split; [vm_compute; reflexivity|]; split; [vm_compute; reflexivity|]; split; vm_compute; split; reflexivity).
Qed.
(** in the execution of C57_lookups_are_not_sequentially_consistent, what is stored when the lookups begin is known to one thread only *)
Example C57_stored : forall st, exists s, holds (w_now (snd (sb2 st))) 0 s /\ stored s = [(5, 105); (6, 106)] /\ sz (tb s) = 2.
Proof. intros st. destruct st; (eexists; split; [vm_compute; reflexivity|split; vm_compute; reflexivity]). Qed.

(** one query for all theorems of this file *)
Definition all_theorems := (@C57_no_data_race, @C57_other_reads_are_current, @C57_steps_are_defined, @C57_growth_is_defined, @C57_whole_operations_are_defined,
  @C57_no_equivalent_elements, @C57_size_counter, @C57_only_lookups_can_miss, @C57_known_keys_are_found, @C57_insertions_insert, @C57_inserted_keys_are_found,
  @C57_lookups_are_not_sequentially_consistent).
Print Assumptions all_theorems.
