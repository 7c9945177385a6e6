(** Specification of bulk visitation, in terms of that of single visits (ConcSpec.v). *)
From Coq Require Import NArith Bool List Arith Permutation.
From Verif Require Import FoaModel ConcSpec.
Import ListNotations.

Section BulkSpec.
Context {K V : Type}.
Variable eq : N -> K -> K -> bool.
Variable moving : bool.
(** visit(k,f) for the successive keys of a range: their results, and the contents before and after *)
Inductive in_turn (p : N) (x : bool) : list (K * ufun K V) -> list (cres K V) -> list (K * V) -> list (K * V) -> Prop :=
| it_nil l l' : Permutation l l' -> in_turn p x [] [] l l'
| it_cons k f keys r rs l l1 l' : pspec eq moving p (PVisit x k f) l r l1 -> in_turn p x keys rs l1 l' -> in_turn p x ((k, f) :: keys) (r :: rs) l l'.
(** results of visits that do not throw, and how many elements were visited *)
Definition found (r : cres K V) : bool := match r with RSeen _ => true | _ => false end.
Definition no_throw (r : cres K V) : Prop := r = RNone \/ exists e, r = RSeen e.
Definition how_many (rs : list (cres K V)) : nat := length (filter found rs).
End BulkSpec.
