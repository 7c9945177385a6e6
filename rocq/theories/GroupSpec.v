(** What a metadata group means, independently of any layout: 15 slots, each
    empty, holding the sentinel, or full with the hash of its element; and the
    set of hash residues modulo 8 whose insertion overflowed the group. *)
From Coq Require Import NArith Bool List Arith.
Import ListNotations.
Local Open Scope N_scope.

Inductive slot := Empty | Sentinel | Full (hash : N).
Record ginfo := { slots : list slot; marks : list N }.

Inductive gop := GInit | GSet (pos : nat) (hash : N) | GSentinel | GReset (pos : nat) | GMark (hash : N).
Inductive gquery :=
  | QMatch (hash : N) | QAvailable | QOccupied
  | QIsOccupied (pos : nat) | QIsSentinel (pos : nat)
  | QNotOverflowed (hash : N) | QMaybeCausedOverflow (pos : nat).

Definition set_nth {A} (l : list A) (i : nat) (x : A) : list A :=
  firstn i l ++ match skipn i l with [] => [] | _ :: r => x :: r end.

Definition spec_init : ginfo := {| slots := repeat Empty 15; marks := [] |}.
Definition spec_op (s : ginfo) (o : gop) : ginfo :=
  match o with
  | GInit => spec_init
  | GSet p h => {| slots := set_nth (slots s) p (Full h); marks := marks s |}
  | GSentinel => {| slots := set_nth (slots s) 14 Sentinel; marks := marks s |}
  | GReset p => {| slots := set_nth (slots s) p Empty; marks := marks s |}
  | GMark h => {| slots := slots s; marks := h mod 8 :: marks s |}
  end.

(** Two hashes are indistinguishable for a group iff their low bytes agree,
    with 0 identified with 8 and 1 with 9 (0 and 1 being reserved values). *)
Definition low_class (h : N) : N :=
  let b := h mod 256 in if b <? 2 then b + 8 else b.

(** bitmask whose bit i is [f] of slot i *)
Fixpoint bits_where (f : slot -> bool) (l : list slot) : N :=
  match l with [] => 0 | s :: r => (if f s then 1 else 0) + 2 * bits_where f r end.

Definition bnum (b : bool) : N := if b then 1 else 0.

Definition spec_answer (s : ginfo) (q : gquery) : N :=
  match q with
  | QMatch h => bits_where (fun x => match x with Full h' => low_class h =? low_class h' | _ => false end) (slots s)
  | QAvailable => bits_where (fun x => match x with Empty => true | _ => false end) (slots s)
  | QOccupied => bits_where (fun x => match x with Empty => false | _ => true end) (slots s)
  | QIsOccupied p => bnum (match nth p (slots s) Empty with Empty => false | _ => true end)
  | QIsSentinel p => bnum (match nth p (slots s) Empty with Sentinel => true | _ => false end)
  | QNotOverflowed h => bnum (negb (existsb (N.eqb (h mod 8)) (marks s)))
  | QMaybeCausedOverflow p =>
      match nth p (slots s) Empty with
      | Full h => bnum (existsb (N.eqb (h mod 8)) (marks s))
      | _ => 0
      end
  end.

(** Calls allowed by the BOOST_ASSERTs (pos<N), and maybe_caused_overflow is only asked of
    a slot that holds an element. *)
Definition op_ok (o : gop) : Prop :=
  match o with GSet p _ | GReset p => (p < 15)%nat | _ => True end.
Definition query_ok (s : ginfo) (q : gquery) : Prop :=
  match q with
  | QIsOccupied p | QIsSentinel p => (p < 15)%nat
  | QMaybeCausedOverflow p => exists h, nth_error (slots s) p = Some (Full h)
  | _ => True
  end.

Definition spec_run (ops : list gop) : ginfo := fold_left spec_op ops spec_init.
