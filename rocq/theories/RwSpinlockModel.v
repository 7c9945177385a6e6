(** detail/foa/rw_spinlock.hpp: the reader-writer spinlock, as the interleaving of the atomic accesses of any number of threads. *)
From Coq Require Import NArith Bool List Arith.
Import ListNotations.
Local Open Scope N_scope.

(** l.25-27 *)
Definition locked_exclusive_mask : N := N.shiftl 1 31.
Definition writer_pending_mask : N := N.shiftl 1 30.
Definition reader_lock_count_mask : N := writer_pending_mask - 1.

(** where a thread is: outside, between the load and the compare-exchange of one of the
    member functions (st is the value loaded), or owning the lock. Between calls a thread that owns nothing is [Idle]. *)
Inductive pc :=
| Idle
| TryShared | TrySharedCas (st : N)          (* l.74-87 try_lock_shared *)
| LockShared | LockSharedCas (st : N)        (* l.89-103 lock_shared *)
| TryLock | TryLockCas (st : N)              (* l.115-134 try_lock *)
| Lock | LockCas (st : N) | LockPend (st : N) (* l.136-171 lock *)
| OwnsShared | OwnsExclusive.

(** one atomic access by a thread: (pc, state_) -> (pc, state_). Compare-exchanges succeed only if state_ still is st; the weak ones may also
    fail spuriously. yield() (l.36-69) does nothing to the state. *)
Inductive tstep : pc -> N -> pc -> N -> Prop :=
| call_try_shared w : tstep Idle w TryShared w
| call_lock_shared w : tstep Idle w LockShared w
| call_try_lock w : tstep Idle w TryLock w
| call_lock w : tstep Idle w Lock w
(* try_lock_shared *)
| ts_full w : reader_lock_count_mask <= w -> tstep TryShared w Idle w
| ts_load w : w < reader_lock_count_mask -> tstep TryShared w (TrySharedCas w) w
| ts_ok w : tstep (TrySharedCas w) w OwnsShared ((w + 1) mod 2 ^ 32)
| ts_fail st w : w <> st -> tstep (TrySharedCas st) w Idle w
(* lock_shared *)
| ls_full w : reader_lock_count_mask <= w -> tstep LockShared w LockShared w
| ls_load w : w < reader_lock_count_mask -> tstep LockShared w (LockSharedCas w) w
| ls_ok w : tstep (LockSharedCas w) w OwnsShared ((w + 1) mod 2 ^ 32)
| ls_fail st w : tstep (LockSharedCas st) w LockShared w
(* unlock_shared, l.105-113: fetch_sub *)
| us w : tstep OwnsShared w Idle ((w + 2 ^ 32 - 1) mod 2 ^ 32)
(* try_lock *)
| tl_excl w : N.land w locked_exclusive_mask <> 0 -> tstep TryLock w Idle w
| tl_read w : N.land w locked_exclusive_mask = 0 -> N.land w reader_lock_count_mask <> 0 -> tstep TryLock w Idle w
| tl_load w : N.land w locked_exclusive_mask = 0 -> N.land w reader_lock_count_mask = 0 -> tstep TryLock w (TryLockCas w) w
| tl_ok w : tstep (TryLockCas w) w OwnsExclusive locked_exclusive_mask
| tl_fail st w : w <> st -> tstep (TryLockCas st) w Idle w
(* lock *)
| l_excl w : N.land w locked_exclusive_mask <> 0 -> tstep Lock w Lock w
| l_free w : N.land w locked_exclusive_mask = 0 -> N.land w reader_lock_count_mask = 0 -> tstep Lock w (LockCas w) w
| l_wait w : N.land w locked_exclusive_mask = 0 -> N.land w reader_lock_count_mask <> 0 -> N.land w writer_pending_mask <> 0 -> tstep Lock w Lock w
| l_read w : N.land w locked_exclusive_mask = 0 -> N.land w reader_lock_count_mask <> 0 -> N.land w writer_pending_mask = 0 -> tstep Lock w (LockPend w) w
| l_ok w : tstep (LockCas w) w OwnsExclusive locked_exclusive_mask
| l_fail st w : tstep (LockCas st) w Lock w
| l_pend w : tstep (LockPend w) w Lock (N.lor w writer_pending_mask)
| l_pend_fail st w : tstep (LockPend st) w Lock w
(* unlock, l.173-177 *)
| ux w : tstep OwnsExclusive w Idle 0.

(** a configuration: the program counters of the threads, and state_ *)
Definition config := (list pc * N)%type.
Definition upd (l : list pc) (i : nat) (x : pc) : list pc := firstn i l ++ x :: skipn (S i) l.
Inductive step : config -> nat -> config -> Prop :=
| step_at ts w i p p' w' : nth_error ts i = Some p -> tstep p w p' w' -> step (ts, w) i (upd ts i p', w').
Inductive reachable (n : nat) : config -> Prop :=
| r_init : reachable n (repeat Idle n, 0)
| r_step cf i cf' : reachable n cf -> step cf i cf' -> reachable n cf'.
