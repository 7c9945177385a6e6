(** Container-level locking of the concurrent containers: which rw_spinlocks the operations of detail/foa/concurrent_table.hpp acquire, in which
    order and mode, on top of the atomic-access model of rw_spinlock. *)
From Coq Require Import NArith Bool List Arith.
From Verif Require Import RwSpinlockModel.
Import ListNotations.
Local Open Scope N_scope.

(** M c k: element k of the multimutex of the container whose multimutex has address c (l.106-124, 1107); G c g: the mutex of a group_access of that
    container (l.220-234; arrays may be replaced, g names the group_access object itself) *)
Inductive lockid := M (c k : N) | G (c g : N).
Inductive mode := Sh | Ex.
Definition lockid_eqb (a b : lockid) : bool :=
  match a, b with M c k, M c' k' => (c =? c') && (k =? k') | G c k, G c' k' => (c =? c') && (k =? k') | _, _ => false end.

(** what a thread does while the guards it has constructed are alive. [Whole c]: work on container c as a whole; [Peek c]: lock-free accesses to the
    metadata and counters of c; [Access c g m]: access to the elements of group g. *)
Inductive work := Whole (c : N) | Peek (c : N) | Access (c g : N) (m : mode).
Definition on (a : work) : N := match a with Whole c => c | Peek c => c | Access c _ _ => c end.
(** Acq: a guard is constructed; Rel: the most recently constructed guard (resp. mutex of a guard) still alive is released *)
Inductive action := Acq (l : lockid) (m : mode) | Rel | Do (a : work).

Definition mutexes : nat := 128. (* l.1107 *)
(** l.119-120 multimutex::lock, unlock *)
Definition mm_lock (c : N) : list action := map (fun k => Acq (M c (N.of_nat k)) Ex) (seq 0 mutexes).
Definition mm_unlock : list action := repeat Rel mutexes.

(** one locked access to a group: auto lck=access(mode,pos) in its scope (l.1158-1167; uses at 1316, 1384, 1699, 1767, 1802, 1824) *)
Definition group_section (c : N) (x : N * mode) : list action := [Acq (G c (fst x)) (snd x); Do (Access c (fst x) (snd x)); Rel; Do (Peek c)].

(** the operations of concurrent_table.hpp by the locks they take *)
Inductive op :=
| ElementOp (c : N) (gs : list (N * mode))  (* visit, erase, insert attempt, visit_all, size... *)
| WholeOp (c : N)                            (* clear, rehash, reserve, rehash_if_full, copy/move construction from c, = {...}, save/load *)
| BiOp (x y : N).                             (* swap, merge, assignment, == *)

(** id t: the mutex index of thread t (l.1127-1132). User functions called under the locks do not lock concurrent containers. *)
Definition plan (id : nat -> N) (t : nat) (o : op) : list action :=
  match o with
  | ElementOp c gs => [Acq (M c (id t mod N.of_nat mutexes)) Sh; Do (Peek c)] ++ flat_map (group_section c) gs ++ [Rel] (* l.131-134 shared_lock *)
  | WholeOp c => mm_lock c ++ [Do (Whole c)] ++ mm_unlock (* l.151-162 lock_guard *)
  | BiOp x y => (* l.166-200 scoped_bilock *)
      let mutex_lt := x <? y in
      let pm1 := if mutex_lt then x else y in
      if x =? y then mm_lock pm1 ++ [Do (Whole x)] ++ mm_unlock
      else let pm2 := if mutex_lt then y else x in
           mm_lock pm1 ++ mm_lock pm2 ++ [Do (Whole x); Do (Whole y)] ++ mm_unlock ++ mm_unlock
  end.

(** A system of n threads: the state of every spinlock (with the position of every thread in it), and for every thread the guards alive (most recent first)
    and the actions left of its current operation. *)
Record sys := { locks : lockid -> config; held : nat -> list (lockid * mode); todo : nat -> list action }.
Definition setl (f : lockid -> config) l x : lockid -> config := fun l' => if lockid_eqb l' l then x else f l'.
Definition sett {A} (f : nat -> A) t x : nat -> A := fun t' => if Nat.eqb t' t then x else f t'.

(** the positions in rw_spinlock.hpp (RwSpinlockModel.v) where a mode starts to lock and has locked *)
Definition entry (m : mode) : pc := match m with Sh => LockShared | Ex => Lock end.
Definition owns (m : mode) : pc := match m with Sh => OwnsShared | Ex => OwnsExclusive end.
Definition at_ (cf : config) (t : nat) (p : pc) : Prop := nth_error (fst cf) t = Some p.

(** steps of the system; no counterpart in /repo beyond the functions cited above *)
Inductive sysstep (n : nat) (id : nat -> N) (s : sys) (t : nat) : sys -> Prop :=
| s_start o : (t < n)%nat -> todo s t = [] -> sysstep n id s t {| locks := locks s; held := held s; todo := sett (todo s) t (plan id t o) |}
| s_do a r : todo s t = Do a :: r -> sysstep n id s t {| locks := locks s; held := held s; todo := sett (todo s) t r |}
(* m.lock()/m.lock_shared() is called *)
| s_call l m r cf : todo s t = Acq l m :: r -> at_ (locks s l) t Idle -> step (locks s l) t cf -> at_ cf t (entry m) ->
    sysstep n id s t {| locks := setl (locks s) l cf; held := held s; todo := todo s |}
(* an atomic access within it *)
| s_spin l m r cf : todo s t = Acq l m :: r -> ~ at_ (locks s l) t Idle -> step (locks s l) t cf -> ~ at_ cf t (owns m) ->
    sysstep n id s t {| locks := setl (locks s) l cf; held := held s; todo := todo s |}
(* the one that acquires the lock *)
| s_acq l m r cf : todo s t = Acq l m :: r -> ~ at_ (locks s l) t Idle -> step (locks s l) t cf -> at_ cf t (owns m) ->
    sysstep n id s t {| locks := setl (locks s) l cf; held := sett (held s) t ((l, m) :: held s t); todo := sett (todo s) t r |}
| s_rel l m h r cf : todo s t = Rel :: r -> held s t = (l, m) :: h -> step (locks s l) t cf ->
    sysstep n id s t {| locks := setl (locks s) l cf; held := sett (held s) t h; todo := sett (todo s) t r |}.

(** the initial state and the reachable ones *)
Definition sys0 (n : nat) : sys := {| locks := fun _ => (repeat Idle n, 0); held := fun _ => []; todo := fun _ => [] |}.
Inductive sysreach (n : nat) (id : nat -> N) : sys -> Prop :=
| sr_init : sysreach n id (sys0 n)
| sr_step s t s' : sysreach n id s -> sysstep n id s t s' -> sysreach n id s'.
