(** The reentrancy check of the concurrent containers (reentrancy_check.hpp): member functions protect their accesses with guards that record the
    container in a thread-local list of entry traces and assert that it is not already there.
    What one thread does is a [prog]: accesses to containers through the guards of concurrent_table.hpp l.1108-1151, whose bodies (the member function and
    the user functions it calls: visitation functions, hash, predicate, constructors) may access containers again and may throw. *)
From Coq Require Import Bool List Arith Lia.
Import ListNotations.

(** what one thread does (see the head of the file); guards: concurrent_table.hpp l.1108-1151 *)
Inductive prog :=
| Skip
| Seq (a b : prog)
| Throw                                    (* a user function throws *)
| Try (a : prog)                           (* the user catches *)
| Access (x : nat) (ex : bool) (a : prog)  (* shared_access(), exclusive_access() of container x in scope a: l.1127-1137 *)
| Access2 (x y : nat) (a : prog)           (* exclusive_access(x,y): l.1139-1151 *)
| Early (x : nat) (ex : bool) (a b : prog).  (* the guard is unlocked between a and b: l.1500-1515 *)

(** what other threads and the user notice: requests of a container's lock (granted at once or later), releases, failed assertions *)
Inductive event := ELock (x : nat) (ex : bool) | EUnlock (x : nat) (ex : bool) | EAssert (x : nat).
Inductive ending := Normal | Thrown.

(** reentrancy_check.hpp l.68-69: the members of an entry_trace; addresses are stack depths *)
Record entry := Ent { px : option nat; next : option nat }.
(** l.56-60 header(), and the entry_trace objects *)
Record mem := Mem { header : option nat; objs : nat -> entry }.
Definition store (m : mem) (d : nat) (e : entry) : mem := Mem (header m) (fun i => if Nat.eqb i d then e else objs m i).
Definition set_header (m : mem) (h : option nat) : mem := Mem h (objs m).
(** l.62-68 find(px); the fuel bounds the length of the list *)
Fixpoint find (fuel : nat) (m : mem) (pe : option nat) (x : nat) : bool :=
  match fuel, pe with
  | S f, Some i => if match px (objs m i) with Some y => Nat.eqb y x | None => false end then true else find f m (next (objs m i)) x
  | _, _ => false
  end.
(** l.31-37 entry_trace(px): None if the assertion fails (the handler throws; if it aborts, the events end here) *)
Definition enter (m : mem) (d : nat) (x : option nat) : option mem :=
  let m1 := store m d (Ent x (header m)) in
  match x with
  | None => Some m1
  | Some y => if find (S d) m1 (header m1) y then None else Some (set_header m1 (Some d))
  end.
(** l.42-50 ~entry_trace(), clear() *)
Definition clear (m : mem) (d : nat) : mem :=
  match px (objs m d) with
  | None => m
  | Some _ => store (set_header m (next (objs m d))) d (Ent None (next (objs m d)))
  end.
Definition lo (x y : nat) := Nat.min x y.
Definition hi (x y : nat) := Nat.max x y.

(** running p at stack depth d. l.72-87 [reentrancy_checked], l.89-105 [reentrancy_bichecked]; scoped_bilock (concurrent_table.hpp l.166-195) locks in
    the order of addresses and unlocks in the other order *)
Fixpoint run (p : prog) (d : nat) (m : mem) : ending * list event * mem :=
  match p with
  | Skip => (Normal, [], m)
  | Throw => (Thrown, [], m)
  | Try a => let '(_, l, m1) := run a d m in (Normal, l, m1)
  | Seq a b =>
      let '(r, l, m1) := run a d m in
      match r with Thrown => (Thrown, l, m1) | Normal => let '(r2, l2, m2) := run b d m1 in (r2, l ++ l2, m2) end
  | Access x ex a =>
      match enter m d (Some x) with
      | None => (Thrown, [EAssert x], m)
      | Some m1 => let '(r, l, m2) := run a (S d) m1 in (r, ELock x ex :: l ++ [EUnlock x ex], clear m2 d)
      end
  | Access2 x y a =>
      match enter m d (Some x) with
      | None => (Thrown, [EAssert x], m)
      | Some m1 =>
          match enter m1 (S d) (if Nat.eqb x y then None else Some y) with
          | None => (Thrown, [EAssert y], clear m1 d)
          | Some m2 =>
              let '(r, l, m3) := run a (S (S d)) m2 in
              let l' := if Nat.eqb x y then ELock x true :: l ++ [EUnlock x true]
                        else ELock (lo x y) true :: ELock (hi x y) true :: l ++ [EUnlock (hi x y) true; EUnlock (lo x y) true] in
              (r, l', clear (clear m3 (S d)) d)
          end
      end
  | Early x ex a b =>
      match enter m d (Some x) with
      | None => (Thrown, [EAssert x], m)
      | Some m1 =>
          let '(r, l, m2) := run a (S d) m1 in
          match r with
          | Thrown => (Thrown, ELock x ex :: l ++ [EUnlock x ex], clear m2 d)
          | Normal =>
              let m3 := clear m2 d in      (* unlock(): l.79-83 *)
              let '(r2, l2, m4) := run b (S d) m3 in
              (r2, ELock x ex :: l ++ EUnlock x ex :: l2, clear m4 d)
          end
      end
  end.
(** a thread starts with an empty list *)
Definition start : mem := Mem None (fun _ => Ent None None).

(** the same program when the check is disabled (BOOST_UNORDERED_DISABLE_REENTRANCY_CHECK or NDEBUG): l.107-131 *)
Fixpoint run_unchecked (p : prog) : ending * list event :=
  match p with
  | Skip => (Normal, [])
  | Throw => (Thrown, [])
  | Try a => let '(_, l) := run_unchecked a in (Normal, l)
  | Seq a b => let '(r, l) := run_unchecked a in match r with Thrown => (Thrown, l) | Normal => let '(r2, l2) := run_unchecked b in (r2, l ++ l2) end
  | Access x ex a => let '(r, l) := run_unchecked a in (r, ELock x ex :: l ++ [EUnlock x ex])
  | Access2 x y a =>
      let '(r, l) := run_unchecked a in
      (r, if Nat.eqb x y then ELock x true :: l ++ [EUnlock x true]
          else ELock (lo x y) true :: ELock (hi x y) true :: l ++ [EUnlock (hi x y) true; EUnlock (lo x y) true])
  | Early x ex a b =>
      let '(r, l) := run_unchecked a in
      match r with
      | Thrown => (Thrown, ELock x ex :: l ++ [EUnlock x ex])
      | Normal => let '(r2, l2) := run_unchecked b in (r2, ELock x ex :: l ++ EUnlock x ex :: l2)
      end
  end.

(** *** several threads *)
(** each thread has the locks of [held] and will make the events of [todo] *)
Record thread := Th { held : list (nat * bool); todo : list event }.
Definition rm (x : nat) (l : list (nat * bool)) : list (nat * bool) := filter (fun p => negb (Nat.eqb (fst p) x)) l.
Definition holds (u : thread) (x : nat) : bool := existsb (fun p => Nat.eqb (fst p) x) (held u).
Definition holds_ex (u : thread) (x : nat) : bool := existsb (fun p => Nat.eqb (fst p) x && snd p) (held u).
Definition wants_ex (u : thread) (x : nat) : bool := match todo u with ELock y true :: _ => Nat.eqb y x | _ => false end.
(** thread u may take the lock of x while the other threads are [others]: an exclusive lock if nobody has it; a shared lock if nobody has it exclusively.
    [strict]: a shared lock is also refused while another thread waits for the exclusive lock (rw_spinlock.hpp l.74-106: no readers while a writer is pending) *)
Definition may_lock (strict : bool) (u : thread) (others : list thread) (x : nat) (ex : bool) : bool :=
  if ex then negb (existsb (fun v => holds v x) (u :: others))
  else negb (existsb (fun v => holds_ex v x) (u :: others)) && (negb strict || negb (existsb (fun v => wants_ex v x) others)).
Definition can_step (strict : bool) (u : thread) (others : list thread) : bool :=
  match todo u with [] => false | ELock x ex :: _ => may_lock strict u others x ex | _ => true end.
Definition after (u : thread) : thread :=
  match todo u with
  | [] => u
  | ELock x ex :: r => Th ((x, ex) :: held u) r
  | EUnlock x _ :: r => Th (rm x (held u)) r
  | EAssert _ :: r => Th (held u) r
  end.
Inductive steps (strict : bool) : list thread -> list thread -> Prop :=
| steps_refl S : steps strict S S
| steps_one S l u r : steps strict S (l ++ u :: r) -> can_step strict u (l ++ r) = true -> steps strict S (l ++ after u :: r).
