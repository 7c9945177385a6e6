(** Specification for C57: the atomic machine of ConcSpec.v, except that a lookup or erasure of a key may answer "not found" although an equivalent
    element is present (which elements must be found is stated separately). *)
From Coq Require Import NArith Bool List Arith.
From Verif Require Import FoaSpec ConcSpec.
Import ListNotations.

Section Spec.
Context {K V : Type}.
Variable eq : N -> K -> K -> bool.       (* predicate object -> key equality *)
Variable moving : bool.                  (* rehashing moves elements rather than copying them *)
Definition looks_up (p : pop K V) : Prop := match p with PVisit _ _ _ | PErase _ _ => True | PEmplace _ _ _ _ _ => False end.
Inductive mstep : astate K V -> option (event K V) -> astate K V -> Prop :=
| m_atomic s e s' : astep eq moving s e s' -> mstep s e s'
| m_miss st w t d p : st t = Pend (OnC d (Point p)) [] -> looks_up p ->
    mstep (AS st w) (Some (ELin t (APoint RNone))) (AS (upd_st st t (Pend (OnC d (Point p)) [APoint RNone])) w).
Inductive mruns : astate K V -> list (event K V) -> astate K V -> Prop :=
| mr_nil s : mruns s [] s
| mr_cons s e s1 es s2 : mstep s (Some e) s1 -> mruns s1 es s2 -> mruns s (e :: es) s2
| mr_tau s s1 es s2 : mstep s None s1 -> mruns s1 es s2 -> mruns s es s2.
Definition missing_history (h : list (event K V)) : Prop := exists es s, mruns (AS (fun _ => Free) []) es s /\ h = filter visible es.
End Spec.
