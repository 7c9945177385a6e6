(** Node handles of the concurrent node containers (concurrent_node_map.hpp, concurrent_node_set.hpp, node_handle.hpp) on top of ConcModel.v.
    Elements are (key, node); a node has an address (NodeSpec.v). The threads of ConcModel.v operate on the containers; in addition the program has handles,
    each owning a node or empty. A handle is used by one thread at a time (handles are not synchronized).
    Simplification: all insertions take their node from a handle. emplace, insert(value), try_emplace, ... are modelled as the construction of a node (in the code:
    concurrent_table.hpp l.1495-1516 for emplace, in construct_element for the others), an insertion from it, and its destruction if it was not inserted.
    All containers use equal allocators. insert of an empty handle does not access the container (concurrent_node_map.hpp l.516-518) and is not a step here. *)
From Coq Require Import NArith Bool List Arith.
From Verif Require Import FoaModel FoaSpec FoaWorld NodeSpec ConcSpec ConcModel.
Import ListNotations.
Local Open Scope N_scope.

Section Nodes.
Context {K M : Type} (c : Cfg K (node M)).
Notation elem := (K * node M)%type.
Notation conf := (@conf K (node M)). Notation pc := (@pc K (node M)). Notation call := (call K (node M)). Notation ufun := (ufun K (node M)).

(** functions passed by users see the mapped value and may assign to it; they cannot move the node *)
Definition keeps (f : ufun) : Prop := forall e, n_addr (fst (f e)) = n_addr (snd e) /\ n_owner (fst (f e)) = n_owner (snd e).

(** operations on whole containers that make no new elements: copies, initializer lists and insertions of values are not included *)
Definition whole_plain (o : op K (node M)) : Prop :=
  match o with
  | On _ (Insert _ | InsertRange _ | AssignList _ | InsertOrAssign _ _ | Index _ _) | CopyConstruct _ _ | CopyAssign _ _ => False
  | MoveAssign i j | Swap i j | Merge i j => i <> j
  | _ => True
  end.
(** calls without handles *)
Definition plain (o : call) : Prop :=
  match o with
  | OnC _ (Point (PVisit _ _ f)) | OnC _ (Point (PErase _ f)) => keeps f
  | OnC _ (Point (PEmplace _ _ _ _ _)) => False
  | OnC _ (Bulk _ _ f) => forall n, keeps (f n)
  | OnC _ SizeOf => True
  | Whole o => whole_plain o
  end.

(** handles: [nth_error (hs N) h = Some x] for handle number h, x = None if empty. [arg N t]: the handle passed to, or to be returned by, the call in progress of thread t *)
Record nconf := NC { nc : conf; hs : list (option elem); arg : nat -> option nat }.
Definition upd (f : nat -> option nat) (t : nat) (x : option nat) : nat -> option nat := fun t' => if Nat.eqb t' t then x else f t'.
Definition unused (N : nconf) (h : nat) : Prop := forall t, arg N t <> Some h.
(** the nodes in containers and handles *)
Definition in_containers (C : conf) : list elem :=
  flat_map (fun b => match b with
                     | Some s => flat_map (fun x => match x with Live e => [e] | _ => [] end) (match a_elems (arr (tb s)) with Some cs => cs | None => [] end)
                     | None => [] end) (boxes C).
Definition in_handles (l : list (option elem)) : list elem := flat_map (fun x => match x with Some e => [e] | None => [] end) l.
Definition nodes (N : nconf) : list elem := in_containers (nc N) ++ in_handles (hs N).

(** what happens to the handle of a thread that goes from position p to p'.
    Insertion: the pointer is moved into the slot by construct_element (element_type.hpp l.34-38: the source becomes null; concurrent_node_map.hpp l.523, 616, 765).
    Extraction: ext(std::move( *p),al()) before super::erase (concurrent_table.hpp l.991-994, node_handle.hpp l.111-118 emplace). *)
Definition transfer (p p' : pc) (x : option elem) : option elem :=
  match p, p' with
  | ConcModel.At _ (Point (PEmplace _ _ _ _ _)) (LCons _ _), ConcModel.At _ _ (LUnl _ _ _) => None
  | ConcModel.At _ (Point (PErase _ f)) (LCall _ _), ConcModel.At _ _ (LMl _ _ (KP e)) => Some (fst e, fst (f e))
  | _, _ => x
  end.

(** labels of steps; no counterpart in /repo *)
Inductive label := LConc (e : option (event K (node M))) | LHandle | LNew (k : K) (a : N) | LDrop (h : nat) | LMove (h h2 : nat) | LSet (h : nat).

(** steps of the node containers and of the handles of their threads, cases cited below *)
Inductive nstep : nconf -> label -> nconf -> Prop :=
(* node_type nh; node_handle.hpp l.127 *)
| n_handle C l g : nstep (NC C l g) LHandle (NC C (l ++ [None]) g)
(* a node is allocated at an address that is not in use, and constructed *)
| n_new C l g h k a o m : nth_error l h = Some None -> unused (NC C l g) h -> ~ In a (map (fun e => n_addr (snd e)) (nodes (NC C l g))) ->
    nstep (NC C l g) (LNew k a) (NC C (set_nth l h (Some (k, Node a o m))) g)
(* ~node_handle, assignment of an empty handle: l.138-183 *)
| n_drop C l g h x : nth_error l h = Some x -> unused (NC C l g) h -> nstep (NC C l g) (LDrop h) (NC C (set_nth l h None) g)
(* move construction, assignment to an empty handle, swap with an empty one: l.129-175, 199-229 *)
| n_move C l g h h2 x : nth_error l h = Some x -> nth_error l h2 = Some None -> h <> h2 -> unused (NC C l g) h -> unused (NC C l g) h2 ->
    nstep (NC C l g) (LMove h h2) (NC C (set_nth (set_nth l h None) h2 x) g)
(* nh.key()=k, nh.mapped()=v: node_map_handle.hpp l.38-50 *)
| n_set C l g h k nd k' m' : nth_error l h = Some (Some (k, nd)) -> unused (NC C l g) h ->
    nstep (NC C l g) (LSet h) (NC C (set_nth l h (Some (k', Node (n_addr nd) (n_owner nd) m'))) g)
(* insert(std::move(nh)), insert_or_visit, insert_and_visit are called *)
| n_insert C l g C' t d x h k nd f1 f2 : nth_error l h = Some (Some (k, nd)) -> unused (NC C l g) h -> keeps f1 -> keeps f2 ->
    gstep c C (Some (ECall t (OnC d (Point (PEmplace x k nd f1 f2))))) C' ->
    nstep (NC C l g) (LConc (Some (ECall t (OnC d (Point (PEmplace x k nd f1 f2)))))) (NC C' l (upd g t (Some h)))
(* nh=extract(k), extract_if(k,f) is called *)
| n_extract C l g C' t d h k f : nth_error l h = Some None -> unused (NC C l g) h -> keeps f ->
    gstep c C (Some (ECall t (OnC d (Point (PErase k f))))) C' ->
    nstep (NC C l g) (LConc (Some (ECall t (OnC d (Point (PErase k f)))))) (NC C' l (upd g t (Some h)))
(* any other call *)
| n_call C l g C' t o : plain o -> gstep c C (Some (ECall t o)) C' -> nstep (NC C l g) (LConc (Some (ECall t o))) (NC C' l (upd g t None))
(* a step of thread t *)
| n_step C l g C' e t p p' : (forall t o, e <> Some (ECall t o)) -> (forall t a, e <> Some (ERet t a)) -> gstep c C e C' ->
    nth_error (th C) t = Some p -> nth_error (th C') t = Some p' -> (forall t', t' <> t -> nth_error (th C') t' = nth_error (th C) t') ->
    nstep (NC C l g) (LConc e)
      (NC C' (match g t with Some h => match nth_error l h with Some x => set_nth l h (transfer p p' x) | None => l end | None => l end) g)
(* a call returns *)
| n_ret C l g C' t a : gstep c C (Some (ERet t a)) C' -> nstep (NC C l g) (LConc (Some (ERet t a))) (NC C' l (upd g t None)).

(** executions of n threads, from no container and no handle *)
Inductive nruns (n : nat) : nconf -> Prop :=
| nr_nil : nruns n (NC (Conf [] (repeat Idle n)) [] (fun _ => None))
| nr_step N e N' : nruns n N -> nstep N e N' -> counters_fit (nc N') -> nruns n N'.
End Nodes.
