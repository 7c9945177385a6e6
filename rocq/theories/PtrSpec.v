(** What pointer stability means for the node-based containers, independent of the models: where the elements of a container are after an operation that returned,
    and which elements the operation may have ended. An element is at the same address afterwards unless the operation ended it. *)
From Coq Require Import NArith ZArith Bool List Arith.
From Verif Require Import FoaModel FoaSpec NodeSpec FcaSpec.
Import ListNotations.

(** *** closed-addressing containers: unordered_map, unordered_set, unordered_multimap, unordered_multiset *)
Section Closed.
Context {K V : Type}.
Notation elem := (nat * (K * V))%type.
(** the containers (named by number; n: how many there are before) that may hold, after o, the elements that were in container i *)
Definition fca_goes (n : nat) (o : FcaSpec.op K V) (i : nat) : list nat :=
  match o with
  | FcaSpec.Swap a b => if Nat.eqb i a then [b] else if Nat.eqb i b then [a] else [i]
  | FcaSpec.MoveConstruct j | FcaSpec.MoveConstructAl j _ => if Nat.eqb i j then [n] else [i]
  | FcaSpec.MoveAssign a b => if Nat.eqb i b then [a] else [i]
  | FcaSpec.Merge a b => if Nat.eqb i b then [a; b] else [i]
  | _ => [i]
  end.
(** the elements of container v, number i, that o may end: what it erases, extracts, replaces or destroys; or copies because the allocators are not equal.
    [al j]: the allocator of container j. [eq]: key equality. *)
Definition fca_ends (eq : K -> K -> bool) (pocma : bool) (al : nat -> N) (o : FcaSpec.op K V) (i : nat) (l : list elem) (x : elem) : Prop :=
  match o with
  | FcaSpec.On j o => i = j /\
      match o with
      | FcaSpec.AssignList _ | FcaSpec.Clear => True
      | FcaSpec.EraseKey k => eq k (fst (snd x)) = true
      | FcaSpec.EraseNth m => nth_error l m = Some x
      | FcaSpec.EraseRange m m2 => exists k, (m <= k < m2)%nat /\ nth_error l k = Some x
      | FcaSpec.EraseIf pr => pr (snd x) = true
      | _ => False
      end
  | FcaSpec.Destroy j | FcaSpec.CopyAssign j _ => i = j
  | FcaSpec.MoveAssign a b => i = a \/ (i = b /\ pocma = false /\ al a <> al b)
  | FcaSpec.MoveConstructAl j a => i = j /\ a <> al j
  | FcaSpec.ExtractKey j k => i = j /\ eq k (fst (snd x)) = true
  | FcaSpec.ExtractNth j m => i = j /\ nth_error l m = Some x
  | _ => False
  end.
(** the element afterwards: the same object, with the same key and value, except that insert_or_assign assigns to the value of the element with its key *)
Definition fca_same (eq : K -> K -> bool) (o : FcaSpec.op K V) (i : nat) (x x' : elem) : Prop :=
  fst x' = fst x /\
  match o with
  | FcaSpec.On j (FcaSpec.InsertOrAssign k v) => if Nat.eqb i j && eq k (fst (snd x)) then fst (snd x') = fst (snd x) /\ (snd (snd x') = v \/ x' = x) else x' = x
  | _ => x' = x
  end.
End Closed.

(** *** unordered_node_map, unordered_node_set *)
Section Node.
Context {K V : Type}.
Notation elem := (K * node V)%type.
Definition node_goes (n : nat) (o : nop K V) (i : nat) : list nat :=
  match o with
  | Box (FoaSpec.Swap a b) => if Nat.eqb i a then [b] else if Nat.eqb i b then [a] else [i]
  | Box (FoaSpec.MoveConstruct j) | Box (FoaSpec.MoveConstructAl j _) => if Nat.eqb i j then [n] else [i]
  | Box (FoaSpec.MoveAssign a b) => if Nat.eqb i b then [a] else [i]
  | Box (FoaSpec.Merge a b) => if Nat.eqb i b then [a; b] else [i]
  | _ => [i]
  end.
Definition node_ends (eq : K -> K -> bool) (o : nop K V) (i : nat) (l : list elem) (x : elem) : Prop :=
  match o with
  | Box (FoaSpec.On j o) => i = j /\
      match o with
      | FoaSpec.AssignList _ | FoaSpec.Clear => True
      | FoaSpec.Erase k => eq k (fst x) = true
      | FoaSpec.EraseNth m => nth_error l m = Some x
      | FoaSpec.EraseRange m m2 => exists k, (m <= k < m2)%nat /\ nth_error l k = Some x
      | FoaSpec.EraseIf pr | FoaSpec.EraseLoop pr => pr x = true
      | _ => False
      end
  | Box (FoaSpec.Destroy j) => i = j
  | Box (FoaSpec.MoveAssign a b) => i = a
  | NodeSpec.Extract j k => i = j /\ eq k (fst x) = true
  | NodeSpec.ExtractNth j m => i = j /\ nth_error l m = Some x
  | _ => False
  end.
End Node.
