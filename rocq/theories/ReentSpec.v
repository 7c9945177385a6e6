(** What the reentrancy check should do, without entry traces: enc are the containers being accessed by enclosing calls of the same thread. *)
From Coq Require Import Bool List Arith.
From Verif Require Import ReentModel.
Import ListNotations.
Definition inside (x : nat) (enc : list nat) : bool := existsb (Nat.eqb x) enc.
Fixpoint checked (p : prog) (enc : list nat) : ending * list event :=
  match p with
  | Skip => (Normal, [])
  | Throw => (Thrown, [])
  | Try a => (Normal, snd (checked a enc))
  | Seq a b => match checked a enc with (Thrown, l) => (Thrown, l) | (Normal, l) => (fst (checked b enc), l ++ snd (checked b enc)) end
  | Access x ex a =>
      if inside x enc then (Thrown, [EAssert x])
      else (fst (checked a (x :: enc)), ELock x ex :: snd (checked a (x :: enc)) ++ [EUnlock x ex])
  | Access2 x y a =>
      if inside x enc then (Thrown, [EAssert x])
      else if inside y enc then (Thrown, [EAssert y])
      else if Nat.eqb x y then (fst (checked a (x :: enc)), ELock x true :: snd (checked a (x :: enc)) ++ [EUnlock x true])
      else (fst (checked a (y :: x :: enc)), ELock (lo x y) true :: ELock (hi x y) true :: snd (checked a (y :: x :: enc)) ++ [EUnlock (hi x y) true; EUnlock (lo x y) true])
  | Early x ex a b =>
      if inside x enc then (Thrown, [EAssert x])
      else match checked a (x :: enc) with
           | (Thrown, l) => (Thrown, ELock x ex :: l ++ [EUnlock x ex])
           | (Normal, l) => (fst (checked b enc), ELock x ex :: l ++ EUnlock x ex :: snd (checked b enc))
           end
  end.
(** the locks a thread has after events l, if it had h before *)
Fixpoint has_after (h : list nat) (l : list event) : list nat :=
  match l with
  | [] => h
  | ELock x _ :: r => has_after (x :: h) r
  | EUnlock x _ :: r => has_after (remove Nat.eq_dec x h) r
  | EAssert _ :: r => has_after h r
  end.
(** event number i requests a lock the thread already has: the thread waits for itself (or, for two shared locks, may wait for a writer that waits for it) *)
Definition self_lock (l : list event) : Prop := exists l1 x ex l2, l = l1 ++ ELock x ex :: l2 /\ In x (has_after [] l1).
Definition reported (l : list event) : Prop := exists x, In (EAssert x) l.
(** every access is to containers with greater numbers (addresses) than those being accessed by enclosing calls *)
Fixpoint increasing (p : prog) (enc : list nat) : Prop :=
  match p with
  | Skip | Throw => True
  | Try a => increasing a enc
  | Seq a b => increasing a enc /\ increasing b enc
  | Access x _ a => (forall z, In z enc -> z < x) /\ increasing a (x :: enc)
  | Access2 x y a => (forall z, In z enc -> z < x /\ z < y) /\ increasing a (y :: x :: enc)
  | Early x _ a b => (forall z, In z enc -> z < x) /\ increasing a (x :: enc) /\ increasing b enc
  end.
(** threads about to run the programs ps *)
Definition threads (ps : list prog) : list thread := map (fun p => Th [] (snd (checked p []))) ps.
