(** Vocabulary of C67: elements moved by the growth of a concurrent container. *)
From Coq Require Import NArith Bool List.
From Verif Require Import SizeModel FoaModel FoaSpec FoaWorld ConcSpec ConcModel.
Import ListNotations.
Local Open Scope N_scope.
Section S.
Context {K V : Type} (c : Cfg K V).
Notation conf := (@conf K V). Notation pc := (@pc K V). Notation At := ConcModel.At.
(** number of elements, max_load() and bucket_count() of container d *)
Definition in_slot (C : conf) (d i : nat) (e : K * V) : Prop := exists s, box C d = Some s /\ get_cell (arr (tb s)) i = Some (Live e).
Definition elements (C : conf) (d : nat) : N :=
  match box C d with Some s => match a_elems (arr (tb s)) with Some cs => N.of_nat (length (filter (fun x => match x with Live _ => true | _ => false end) cs)) | None => 0 end | None => 0 end.
Definition max_load (C : conf) (d : nat) : N := match box C d with Some s => ml (tb s) | None => 0 end.
Definition bucket_count (C : conf) (d : nat) : N := match box C d with Some s => capacity (arr (tb s)) | None => 0 end.
(** in the step from C to C', an insertion into d that was told that d is full rehashes it: rehash_if_full (l.1726-1732) *)
Definition waits (d : nat) (p : pc) : bool := match p with At d' _ LFull => Nat.eqb d' d | _ => false end.
Definition rehashes (d : nat) (C C' : conf) : bool :=
  existsb (fun pq => waits d (fst pq) && negb (waits d (snd pq))) (combine (th C) (th C')) && (elements C d =? max_load C d).
(** elements moved to another array: all of them if the rehash succeeds, those that are lost if an exception interrupts it *)
Definition moved (d : nat) (C : conf) (e : option (event K V)) (C' : conf) : N :=
  if rehashes d C C' then match e with None => elements C d | Some _ => elements C d - elements C' d end else 0.
(** executions without operations on whole containers: i elements are inserted into d, m elements of d are moved to another array; P holds in all states *)
Inductive calls (P : conf -> Prop) (d : nat) (C0 : conf) : N -> N -> conf -> Prop :=
| c_nil : P C0 -> calls P d C0 0 0 C0
| c_step i m C e C' : calls P d C0 i m C -> gstep c C e C' -> (forall t r, e <> Some (ELin t (AWhole r))) -> counters_fit C' -> P C' ->
    calls P d C0 (i + (elements C' d - elements C d)) (m + moved d C e C') C'.
End S.
