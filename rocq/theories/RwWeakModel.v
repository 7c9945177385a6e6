(** detail/foa/rw_spinlock.hpp under the C++ memory model: the accesses to the atomic state_ with the memory orders they have in the source.
    RwSpinlockModel treats state_ as a variable whose current value every access sees; here
    - the writes of state_ form its modification order ([w_mo]); a load, or the load of a failed compare-exchange, returns the value of any write that the
      thread has not already seen overwritten (coherence); a store may enter the modification order anywhere after what the thread has seen; a
      read-modify-write takes the value of the write that immediately precedes its own in the modification order;
    - happens-before is built from sequenced-before and from the release and acquire orders of the source, through release sequences
      ([intro.races] of C++20: a release sequence is continued by read-modify-writes only).
    Simplifications: an execution is a sequence of accesses in which no access reads from a later one (sequenced-before and reads-from have no cycle, as in RC11);
    coherence is required only between the accesses of one thread, which allows more executions than the standard does. yield() (l.36-69) has no
    effect. *)
From Coq Require Import NArith Bool List Arith.
From Coq Require Export Relation_Operators.
From Verif Require Import RwSpinlockModel.
Import ListNotations.
Local Open Scope N_scope.

(** one access: [ARmw acq rel old new] is a successful compare-exchange or a fetch_sub; a failed compare-exchange is a load. [AOther]: whatever
    else the thread does between calls on the lock, such as accesses to the data that the lock protects. *)
Inductive act :=
| ACall | AOther
| ALoad (v : N)                      (* memory_order_relaxed *)
| ARmw (acq rel : bool) (old new : N) (* memory_order_acquire / _release / _relaxed *)
| AStore (rel : bool) (v : N).

(** l.74-177: the member functions; the positions [pc] are those of RwSpinlockModel *)
Inductive lstep : pc -> act -> pc -> Prop :=
| wk_idle : lstep Idle AOther Idle
| wk_shared : lstep OwnsShared AOther OwnsShared
| wk_exclusive : lstep OwnsExclusive AOther OwnsExclusive
| wk_call_try_shared : lstep Idle ACall TryShared
| wk_call_lock_shared : lstep Idle ACall LockShared
| wk_call_try_lock : lstep Idle ACall TryLock
| wk_call_lock : lstep Idle ACall Lock
(* try_lock_shared, l.74-87: load relaxed; compare_exchange_strong acquire, relaxed *)
| wk_ts_full v : reader_lock_count_mask <= v -> lstep TryShared (ALoad v) Idle
| wk_ts_load v : v < reader_lock_count_mask -> lstep TryShared (ALoad v) (TrySharedCas v)
| wk_ts_ok st : lstep (TrySharedCas st) (ARmw true false st ((st + 1) mod 2 ^ 32)) OwnsShared
| wk_ts_fail st v : v <> st -> lstep (TrySharedCas st) (ALoad v) Idle
(* lock_shared, l.89-103: load relaxed; compare_exchange_weak acquire, relaxed *)
| wk_ls_full v : reader_lock_count_mask <= v -> lstep LockShared (ALoad v) LockShared
| wk_ls_load v : v < reader_lock_count_mask -> lstep LockShared (ALoad v) (LockSharedCas v)
| wk_ls_ok st : lstep (LockSharedCas st) (ARmw true false st ((st + 1) mod 2 ^ 32)) OwnsShared
| wk_ls_fail st v : lstep (LockSharedCas st) (ALoad v) LockShared
(* unlock_shared, l.105-113: fetch_sub release *)
| wk_us w : lstep OwnsShared (ARmw false true w ((w + 2 ^ 32 - 1) mod 2 ^ 32)) Idle
(* try_lock, l.115-134: load relaxed; compare_exchange_strong acquire, relaxed *)
| wk_tl_excl v : N.land v locked_exclusive_mask <> 0 -> lstep TryLock (ALoad v) Idle
| wk_tl_read v : N.land v locked_exclusive_mask = 0 -> N.land v reader_lock_count_mask <> 0 -> lstep TryLock (ALoad v) Idle
| wk_tl_load v : N.land v locked_exclusive_mask = 0 -> N.land v reader_lock_count_mask = 0 -> lstep TryLock (ALoad v) (TryLockCas v)
| wk_tl_ok st : lstep (TryLockCas st) (ARmw true false st locked_exclusive_mask) OwnsExclusive
| wk_tl_fail st v : v <> st -> lstep (TryLockCas st) (ALoad v) Idle
(* lock, l.136-171: load relaxed; compare_exchange_weak acquire, relaxed, or relaxed, relaxed to set the pending bit *)
| wk_l_excl v : N.land v locked_exclusive_mask <> 0 -> lstep Lock (ALoad v) Lock
| wk_l_free v : N.land v locked_exclusive_mask = 0 -> N.land v reader_lock_count_mask = 0 -> lstep Lock (ALoad v) (LockCas v)
| wk_l_wait v : N.land v locked_exclusive_mask = 0 -> N.land v reader_lock_count_mask <> 0 -> N.land v writer_pending_mask <> 0 -> lstep Lock (ALoad v) Lock
| wk_l_read v : N.land v locked_exclusive_mask = 0 -> N.land v reader_lock_count_mask <> 0 -> N.land v writer_pending_mask = 0 -> lstep Lock (ALoad v) (LockPend v)
| wk_l_ok st : lstep (LockCas st) (ARmw true false st locked_exclusive_mask) OwnsExclusive
| wk_l_fail st v : lstep (LockCas st) (ALoad v) Lock
| wk_l_pend st : lstep (LockPend st) (ARmw false false st (N.lor st writer_pending_mask)) Lock
| wk_l_pend_fail st v : lstep (LockPend st) (ALoad v) Lock
(* unlock, l.173-177: store release *)
| wk_ux : lstep OwnsExclusive (AStore true 0) Idle.

(** *** the memory: the modification order of state_. A write is named by the event that made it, the initial value (l.29) by None. *)
Record msg := mkMsg { m_id : option nat; m_val : N; m_rmw : bool }.
(** the write [m] may be read, or directly followed by a new write, by a thread whose last access saw [seen]: [seen] is not later than [m] *)
Definition current_for (seen : option nat) (later : list msg) : Prop := ~ In seen (map m_id later).
(** nothing comes between a read-modify-write and the write it read *)
Definition splittable (later : list msg) : Prop := match later with [] => True | m :: _ => m_rmw m = false end.
(** access number n of the execution: from the modification order to the new one, with the write that was read and what the thread has then seen *)
Inductive mem (n : nat) (seen : option nat) : list msg -> act -> option nat -> list msg -> option nat -> Prop :=
| mem_call mo : mem n seen mo ACall None mo seen
| mem_other mo : mem n seen mo AOther None mo seen
| mem_load l1 m l2 : current_for seen l2 -> mem n seen (l1 ++ m :: l2) (ALoad (m_val m)) (m_id m) (l1 ++ m :: l2) (m_id m)
| mem_rmw l1 m l2 acq rel v : current_for seen l2 -> splittable l2 ->
    mem n seen (l1 ++ m :: l2) (ARmw acq rel (m_val m) v) (m_id m) (l1 ++ m :: mkMsg (Some n) v true :: l2) (Some n)
| mem_store l1 m l2 rel v : current_for seen l2 -> splittable l2 ->
    mem n seen (l1 ++ m :: l2) (AStore rel v) None (l1 ++ m :: mkMsg (Some n) v false :: l2) (Some n).

(** *** executions *)
Record ev := mkEv { e_thread : nat; e_from : pc; e_act : act; e_to : pc; e_rf : option nat }.
Record wconf := mkW { w_pcs : list pc; w_seen : list (option nat); w_mo : list msg; w_log : list ev }.
Definition setn {A} (l : list A) (i : nat) (x : A) : list A := firstn i l ++ x :: skipn (S i) l.
Inductive exec (n : nat) : wconf -> Prop :=
| x_init : exec n (mkW (repeat Idle n) (repeat None n) [mkMsg None 0 false] [])
| x_step ts vs mo log t q a q' s rf mo' s' : exec n (mkW ts vs mo log) ->
    nth_error ts t = Some q -> lstep q a q' ->
    nth_error vs t = Some s -> mem (length log) s mo a rf mo' s' ->
    exec n (mkW (upd ts t q') (setn vs t s') mo' (log ++ [mkEv t q a q' rf])).

(** *** happens-before, on the numbers of the events of a log *)
Definition released (e : ev) : Prop := match e_act e with ARmw _ true _ _ | AStore true _ => True | _ => False end.
Definition acquired (e : ev) : Prop := match e_act e with ARmw true _ _ _ => True | _ => False end.
Definition is_rmw (e : ev) : Prop := match e_act e with ARmw _ _ _ _ => True | _ => False end.
(** event k is in the release sequence headed by event i *)
Inductive release_sequence (log : list ev) (i : nat) : nat -> Prop :=
| rs_head e : nth_error log i = Some e -> released e -> release_sequence log i i
| rs_next k k' e : release_sequence log i k -> nth_error log k' = Some e -> is_rmw e -> e_rf e = Some k -> release_sequence log i k'.
Definition synchronizes (log : list ev) (i j : nat) : Prop :=
  exists e k, nth_error log j = Some e /\ acquired e /\ e_rf e = Some k /\ release_sequence log i k.
Definition sequenced (log : list ev) (i j : nat) : Prop :=
  (i < j)%nat /\ exists e f, nth_error log i = Some e /\ nth_error log j = Some f /\ e_thread e = e_thread f.
Definition happens_before (log : list ev) : nat -> nat -> Prop := clos_trans nat (fun i j => sequenced log i j \/ synchronizes log i j).
