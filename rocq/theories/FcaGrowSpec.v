(** Vocabulary of C65: use of one closed-addressing container by operations on single elements, lookups, erasures and clear(). *)
From Coq Require Import NArith ZArith Bool List.
From Verif Require Import FoaModel FcaModel FcaSpec FcaWorld.
Import ListNotations.
Local Open Scope N_scope.

Section S.
Context {K V : Type} (c : FCfg K V).
Notation table := (FcaModel.table K V).
Notation St := (table * heap)%type.
Definition buckets (s : St) : N := bucket_count (f_b (fst s)).
Definition size (s : St) : N := f_size (fst s).
Definition inserts (o : op1 K V) : bool := match o with Insert _ _ | InsertHint _ _ _ | InsertOrAssign _ _ | Index _ _ => true | _ => false end.
Definition erases (o : op1 K V) : bool := match o with EraseKey _ | EraseNth _ | EraseRange _ _ | EraseIf _ | Clear => true | _ => false end.
(** all operations on one container except ranges, rehash, reserve and max_load_factor(z) *)
Definition single (o : op1 K V) : bool :=
  inserts o || erases o || match o with Find _ | At _ | Count _ | Contains _ | EqualRange _ | Iterate | Size => true | _ => false end.
(** s' is the container (and the heap) after operation o on s returned or threw *)
Definition after1 (s : St) (o : op1 K V) (s' : St) : Prop := exists n, match exec1 c o s n with Ret _ x _ | Exn _ x _ => x = s' | Undef => False end.
(** elements put in other buckets by an operation: none if bucket_count() stays the same (C65_elements_stay); otherwise all those that were there; if an exception
    interrupts the rehash, those that are lost *)
Definition moved (o : op1 K V) (s s' : St) : N :=
  if inserts o then (if buckets s =? buckets s' then size s - size s' else size s) else 0.
(** operations on a container, from s0 to s: i elements are inserted, m elements are moved to other buckets; P holds in all states *)
Inductive uses (P : St -> Prop) (s0 : St) : N -> N -> St -> Prop :=
| uses_nil : P s0 -> uses P s0 0 0 s0
| uses_step i m s o s' : uses P s0 i m s -> single o = true -> pre1 c o (fst s) -> after1 s o s' -> P s' ->
    uses P s0 (i + (size s' - size s)) (m + moved o s s') s'.
End S.
