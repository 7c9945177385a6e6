(** Vocabulary of C63: use of one open-addressing container by operations on single elements, lookups, erasures and clear(). *)
From Coq Require Import NArith Bool List.
From Verif Require Import SizeModel FoaModel FoaSpec FoaWorld.
Import ListNotations.
Local Open Scope N_scope.

Section S.
Context {K V : Type} (c : Cfg K V).
Notation table := (table K V).
Definition bucket_count (t : table) : N := capacity (arr t).
Definition max_load (t : table) : N := ml t.
Definition size (t : table) : N := sz t.
Definition inserts (o : op1 K V) : bool := match o with Insert _ | InsertOrAssign _ _ | Index _ _ => true | _ => false end.
(** all operations on one container except ranges of insertions (which are sequences of insertions), rehash, reserve and merge with itself *)
Definition single (o : op1 K V) : bool :=
  match o with
  | Insert _ | InsertOrAssign _ _ | Index _ _ | Erase _ | EraseIf _ | EraseLoop _ | EraseNth _ | EraseRange _ _
  | Find _ | At _ | Count _ | Contains _ | EqualRange _ | Iterate | Size | Clear => true
  | InsertRange _ | AssignList _ | Rehash _ | Reserve _ | MergeSelf => false
  end.
(** t' is the container after operation o on t returned or threw *)
Definition after1 (t : table) (o : op1 K V) (t' : table) : Prop := exists n, match exec1 c o t n with Ret _ x _ | Exn _ x _ => x = t' | Undef => False end.
(** elements moved to another array by an operation: none unless an insertion finds size() = max_load() (C63_insertions_below_max_load_move_nothing);
    then all of them if the insertion succeeds; those that are lost if an exception interrupts the rehash *)
Definition moved (o : op1 K V) (t t' : table) : N :=
  if inserts o then (if size t <? size t' then (if size t =? max_load t then size t else 0) else size t - size t') else 0.
(** operations on a container, from t0 to t: i elements are inserted, m elements are moved to another array; P holds in all states *)
Inductive uses (P : table -> Prop) (t0 : table) : N -> N -> table -> Prop :=
| uses_nil : P t0 -> uses P t0 0 0 t0
| uses_step i m t o t' : uses P t0 i m t -> single o = true -> pre1 c o t -> after1 t o t' -> P t' ->
    uses P t0 (i + (size t' - size t)) (m + moved o t t') t'.
End S.
