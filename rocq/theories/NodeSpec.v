(** Specification of unordered_node_map / unordered_node_set with their node handles, independent of the model. A container is a
    list of (key, node) pairs as in FoaSpec; a node has an address and the number of the allocator it was allocated with, so that two
    elements are the same object exactly when the addresses agree; a node handle owns an element or nothing. *)
From Coq Require Import NArith Bool List Permutation.
From Verif Require Import FoaModel FoaSpec.   (* FoaModel only for [kind], the sources of exceptions *)
Import ListNotations.
Local Open Scope N_scope.

(** a node: where it is, which allocator it came from, the mapped value (unit for sets) *)
Record node (V : Type) := Node { n_addr : N; n_owner : N; n_val : V }.
Arguments Node {V}. Arguments n_addr {V}. Arguments n_owner {V}. Arguments n_val {V}.

Section Spec.
Context {K V : Type}.
Notation elem := (K * node V)%type.
Notation view := (view K (node V)).

(** operations of a program with containers and node handles, both named by number. New containers and handles are added at the end *)
Inductive nop :=
| Box (o : op K (node V))           (* an operation of FoaSpec on the containers *)
| Extract (i : nat) (k : K)         (* auto nh=c.extract(k) *)
| ExtractNth (i m : nat)            (* auto nh=c.extract(next(c.begin(),m)) *)
| InsertNode (i j : nat)            (* auto r=c.insert(std::move(nh)); r.node is the new handle *)
| InsertNodeHint (i j : nat)        (* c.insert(hint,std::move(nh)) *)
| HNew                              (* node_type nh *)
| HMove (j : nat)                   (* node_type nh2(std::move(nh)) *)
| HAssign (i j : nat)               (* nh_i=std::move(nh_j), possibly i=j *)
| HSwap (i j : nat)                 (* nh_i.swap(nh_j), possibly i=j *)
| HSet (j : nat) (k : K) (v : V)    (* nh.key()=k, nh.mapped()=v *)
| HDestroy (j : nat).

(** what an operation returns: for insertions the element at the returned iterator (None: end()) and whether it was inserted *)
Inductive nvalue := NBox (v : value K (node V)) | NIns (x : option elem) (b : bool) | NUnit.
Inductive nresult := NDone (v : nvalue) | NThrew (k : kind).

(** the state: the containers, and for each handle (None: destroyed) the element it owns (Some None: empty handle) *)
Definition nstate := (world K (node V) * list (option (option elem)))%type.

Variable eq : N -> K -> K -> bool.
Variable moving : bool.
Notation lookup := (lookup (V:=node V) eq).

(** with other contents *)
Definition refill (v : view) (l : list elem) : view := View (v_hash v) (v_pred v) (v_alloc v) l.
(** the operations: state and result before and after *)
Definition nspec (s : nstate) (o : nop) (r : nresult) (s' : nstate) : Prop :=
  let '(w, hs) := s in
  match o with
  | Box o => hs = snd s' /\ exists r', spec eq moving w o r' (fst s') /\
      r = match r' with Done v => NDone (NBox v) | Threw k => NThrew k end
  | Extract i k => exists v, nth_error w i = Some (Some v) /\
      match r with
      | NDone NUnit => match lookup (v_pred v) k (v_elems v) with
          | Some e => exists l', Permutation (v_elems v) (e :: l') /\ s' = (set w i (Some (refill v l')), hs ++ [Some (Some e)])
          | None => s' = (w, hs ++ [Some None]) end
      | NThrew kd => (kd = KHash \/ kd = KEq) /\ s' = s
      | _ => False end
  | ExtractNth i m => exists v, nth_error w i = Some (Some v) /\ r = NDone NUnit /\
      exists l1 e l2, v_elems v = l1 ++ e :: l2 /\ length l1 = m /\ s' = (set w i (Some (refill v (l1 ++ l2))), hs ++ [Some (Some e)])
  | InsertNode i j => exists v h, nth_error w i = Some (Some v) /\ nth_error hs j = Some (Some h) /\
      match h with
      | None => r = NDone (NIns None false) /\ s' = (w, hs ++ [Some None])
      | Some e =>
          match r with
          | NDone (NIns x b) =>
              match lookup (v_pred v) (fst e) (v_elems v) with
              | Some y => x = Some y /\ b = false /\ s' = (w, set hs j (Some None) ++ [Some (Some e)])
              | None => x = Some e /\ b = true /\ exists l', Permutation l' (e :: v_elems v) /\
                        s' = (set w i (Some (refill v l')), set hs j (Some None) ++ [Some None])
              end
          | NThrew kd => s' = s \/ (kd = KHash /\ exists l' lost, Permutation (v_elems v) (lost ++ l') /\
                        s' = (set w i (Some (refill v l')), set hs j (Some None)))
          | _ => False end
      end
  | InsertNodeHint i j => exists v h, nth_error w i = Some (Some v) /\ nth_error hs j = Some (Some h) /\
      match h with
      | None => r = NDone (NIns None false) /\ s' = s
      | Some e =>
          match r with
          | NDone (NIns x b) =>
              match lookup (v_pred v) (fst e) (v_elems v) with
              | Some y => x = Some y /\ b = false /\ s' = s
              | None => x = Some e /\ b = true /\ exists l', Permutation l' (e :: v_elems v) /\
                        s' = (set w i (Some (refill v l')), set hs j (Some None))
              end
          | NThrew kd => s' = s \/ (kd = KHash /\ exists l' lost, Permutation (v_elems v) (lost ++ l') /\
                        s' = (set w i (Some (refill v l')), set hs j (Some None)))
          | _ => False end
      end
  | HNew => r = NDone NUnit /\ s' = (w, hs ++ [Some None])
  | HMove j => exists h, nth_error hs j = Some (Some h) /\ r = NDone NUnit /\ s' = (w, set hs j (Some None) ++ [Some h])
  | HAssign i j => exists hi h, nth_error hs i = Some (Some hi) /\ nth_error hs j = Some (Some h) /\ r = NDone NUnit /\
      s' = (w, if Nat.eqb i j then set hs i (Some None) else set (set hs i (Some h)) j (Some None))
  | HSwap i j => exists hi h, nth_error hs i = Some (Some hi) /\ nth_error hs j = Some (Some h) /\ r = NDone NUnit /\
      s' = (w, set (set hs i (Some h)) j (Some hi))
  | HSet j k v => exists e, nth_error hs j = Some (Some (Some e)) /\ r = NDone NUnit /\
      s' = (w, set hs j (Some (Some (k, Node (n_addr (snd e)) (n_owner (snd e)) v))))
  | HDestroy j => exists h, nth_error hs j = Some (Some h) /\ r = NDone NUnit /\ s' = (w, set hs j None)
  end.

(** a history *)
Inductive nhistory : nstate -> list (nop * nresult) -> nstate -> Prop :=
| nh_nil s : nhistory s [] s
| nh_cons s o r s1 rs s2 : nspec s o r s1 -> nhistory s1 rs s2 -> nhistory s ((o, r) :: rs) s2.

(** the addresses of the nodes owned by containers and handles *)
Definition owned (s : nstate) : list elem :=
  flat_map (fun o => match o with Some v => v_elems v | None => [] end) (fst s) ++
  flat_map (fun o => match o with Some (Some e) => [e] | _ => [] end) (snd s).
Definition addresses (s : nstate) : list N := map (fun e => n_addr (snd e)) (owned s).
(** the node an operation on handles destroys *)
Definition destroys (s : nstate) (o : nop) : list elem :=
  match o with HAssign i _ => match nth_error (snd s) i with Some (Some (Some e)) => [e] | _ => [] end
  | HDestroy j => match nth_error (snd s) j with Some (Some (Some e)) => [e] | _ => [] end
  | _ => [] end.
(** the nodes an operation may allocate *)
Definition news1 (o : op1 K (node V)) : list elem :=
  match o with Insert e => [e] | InsertRange l | AssignList l => l | Index dv k => [(k, dv)] | _ => [] end.
Definition news (o : nop) : list elem := match o with Box (On _ o) => news1 o | _ => [] end.
End Spec.
Arguments nop : clear implicits. Arguments nvalue : clear implicits. Arguments nresult : clear implicits. Arguments nstate : clear implicits.
