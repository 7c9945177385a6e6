(** Specification of the open-addressing maps (unordered_flat_map, unordered_node_map and, with V := unit, the sets),
    independent of the model: a container is a hash object, a predicate object, an allocator and a
    list of (key, value) pairs in iteration order (insertions and rehashing leave the order open). *)
From Coq Require Import NArith Bool List Permutation.
From Verif Require Import FoaModel.   (* only for [kind], the sources of exceptions *)
Import ListNotations.
Local Open Scope N_scope.

Section Spec.
Context {K V : Type}.
Notation pair := (K * V)%type.

(** operations on one container *)
Inductive op1 :=
| Insert (e : pair)               (* insert, emplace, try_emplace *)
| InsertRange (l : list pair)     (* insert(first,last), insert(il), insert_range *)
| AssignList (l : list pair)      (* operator=(il) *)
| InsertOrAssign (k : K) (v : V)
| Index (dv : V) (k : K)          (* operator[] with value-initialized value dv *)
| Find (k : K)
| At (k : K)
| Count (k : K)
| Contains (k : K)
| EqualRange (k : K)              (* the elements of the range *)
| Erase (k : K)
| EraseIf (pr : pair -> bool)
| EraseLoop (pr : pair -> bool)   (* for(it=begin();it!=end();) if(pr of the element) it=erase(it); else ++it; *)
| EraseNth (m : nat)              (* erase(next(begin(),m)) *)
| EraseRange (m m2 : nat)         (* erase(next(begin(),m),next(begin(),m2)) *)
| Clear
| Rehash (n : N)
| Reserve (n : N)
| Iterate                         (* the elements seen from begin() to end() *)
| Size
| MergeSelf.

(** operations on the containers of the program, named by number *)
Inductive op :=
| On (i : nat) (o : op1)
| New (h p al : N) (n : N)        (* container(n,hash,pred,alloc): added as the next container *)
| CopyConstruct (j : nat) (al : N)
| MoveConstruct (j : nat)
| MoveConstructAl (j : nat) (al : N)
| Destroy (i : nat)
| CopyAssign (i j : nat)          (* i = j *)
| MoveAssign (i j : nat)          (* i = move(j) *)
| Swap (i j : nat)
| Merge (i j : nat)               (* i.merge(j) *)
| Equal (i j : nat) (eeq : pair -> pair -> bool).  (* i == j, eeq being == of value_type *)

Inductive value := VUnit | VIns (e : pair) (b : bool) | VBool (b : bool) | VVal (v : V) | VFound (o : option pair)
  | VFoundV (o : option V) | VN (n : N) | VList (l : list pair).
Inductive result := Done (v : value) | Threw (k : kind).

Record view := View { v_hash : N; v_pred : N; v_alloc : N; v_elems : list pair }.

Variable eq : N -> K -> K -> bool.       (* predicate object -> key equality *)
Variable moving : bool.                  (* rehashing moves elements rather than copying them *)

Definition lookup (p : N) (k : K) (l : list pair) : option pair := List.find (fun e => eq p k (fst e)) l.
Definition add (p : N) (l : list pair) (e : pair) : list pair := match lookup p (fst e) l with Some _ => l | None => e :: l end.
Definition add_all (p : N) (l : list pair) (es : list pair) : list pair := fold_left (add p) es l.

(** what an exception from an operation that may rehash can cost: nothing, unless elements are being moved and the hash function
    or a move constructor throws *)
Definition Lost (k : kind) (lost : list pair) : Prop := lost = [] \/ (moving = true /\ (k = KHash \/ k = KTransfer)).

(** operations on one container, contents l, predicate p *)
Definition spec1 (p : N) (o : op1) (l : list pair) (r : result) (l' : list pair) : Prop :=
  match o, r with
  | Insert e, Done (VIns x b) =>
      match lookup p (fst e) l with
      | Some y => x = y /\ b = false /\ Permutation l' l
      | None => x = e /\ b = true /\ Permutation l' (e :: l)
      end
  | InsertRange es, Done VUnit => Permutation l' (add_all p l es)
  | AssignList es, Done VUnit => Permutation l' (add_all p [] es)
  | InsertOrAssign k v, Done (VBool b) =>
      match lookup p k l with
      | Some _ => b = false /\ Permutation l' (map (fun e => if eq p k (fst e) then (fst e, v) else e) l)
      | None => b = true /\ Permutation l' ((k, v) :: l)
      end
  | Index dv k, Done (VVal v) =>
      match lookup p k l with
      | Some y => v = snd y /\ Permutation l' l
      | None => v = dv /\ Permutation l' ((k, dv) :: l)
      end
  | Find k, Done (VFound r) => r = lookup p k l /\ l' = l
  | At k, Done (VFoundV r) => r = option_map snd (lookup p k l) /\ l' = l
  | Count k, Done (VN n) => n = N.of_nat (length (filter (fun e => eq p k (fst e)) l)) /\ l' = l
  | Contains k, Done (VBool b) => b = existsb (fun e => eq p k (fst e)) l /\ l' = l
  | EqualRange k, Done (VList es) => es = filter (fun e => eq p k (fst e)) l /\ l' = l
  | Erase k, Done (VN n) =>
      n = N.of_nat (length (filter (fun e => eq p k (fst e)) l)) /\ Permutation l' (filter (fun e => negb (eq p k (fst e))) l)
  | EraseIf pr, Done (VN n) => n = N.of_nat (length (filter pr l)) /\ Permutation l' (filter (fun e => negb (pr e)) l)
  | EraseLoop pr, Done (VList seen) => seen = l /\ l' = filter (fun e => negb (pr e)) l
  | EraseNth m, Done (VFound (Some e)) => exists l1 l2, length l1 = m /\ l = l1 ++ e :: l2 /\ l' = l1 ++ l2
  | EraseRange m m2, Done VUnit => (m <= m2)%nat /\ l' = firstn m l ++ skipn m2 l
  | Clear, Done VUnit => l' = []
  | Rehash _, Done VUnit => Permutation l' l
  | Reserve _, Done VUnit => Permutation l' l
  | Iterate, Done (VList es) => es = l /\ l' = l
  | Size, Done (VN n) => n = N.of_nat (length l) /\ l' = l
  | MergeSelf, Done VUnit => l' = l
  (* exceptions *)
  | (Insert _ | InsertOrAssign _ _ | Index _ _ | Rehash _ | Reserve _), Threw k =>
      exists lost, Permutation l (lost ++ l') /\ Lost k lost
  | InsertRange es, Threw k =>
      exists es1 e es2 lost, es = es1 ++ e :: es2 /\ Permutation (add_all p l es1) (lost ++ l') /\ Lost k lost
  | AssignList es, Threw k =>
      exists es1 e es2 lost, es = es1 ++ e :: es2 /\ Permutation (add_all p [] es1) (lost ++ l') /\ Lost k lost
  | (Find _ | At _ | Count _ | Contains _ | EqualRange _ | Erase _ | MergeSelf), Threw k => (k = KHash \/ k = KEq) /\ l' = l
  | EraseIf pr, Threw k => k = KEq /\ exists gone, Permutation l (gone ++ l') /\ forallb pr gone = true
  | _, _ => False
  end.

Definition world := list (option view).
Definition set {A} (w : list A) (i : nat) (x : A) : list A := firstn i w ++ x :: skipn (S i) w.

(** operations on several containers *)
Definition spec (w : world) (o : op) (r : result) (w' : world) : Prop :=
  match o with
  | On i o => exists v l', nth_error w i = Some (Some v) /\ spec1 (v_pred v) o (v_elems v) r l' /\
      w' = set w i (Some (View (v_hash v) (v_pred v) (v_alloc v) l'))
  | New h p al n => match r with Done VUnit => w' = w ++ [Some (View h p al [])] | Threw k => k = KAlloc /\ w' = w | _ => False end
  | CopyConstruct j al => exists x, nth_error w j = Some (Some x) /\
      match r with
      | Done VUnit => exists l, Permutation l (v_elems x) /\ w' = w ++ [Some (View (v_hash x) (v_pred x) al l)]
      | Threw k => w' = w | _ => False end
  | MoveConstruct j => exists x, nth_error w j = Some (Some x) /\ r = Done VUnit /\
      w' = set w j (Some (View (v_hash x) (v_pred x) (v_alloc x) [])) ++ [Some x]
  | MoveConstructAl j al => exists x, nth_error w j = Some (Some x) /\
      match r with
      | Done VUnit => exists l, Permutation l (v_elems x) /\
          w' = set w j (Some (View (v_hash x) (v_pred x) (v_alloc x) [])) ++ [Some (View (v_hash x) (v_pred x) al l)]
      | Threw k => w' = w \/ w' = set w j (Some (View (v_hash x) (v_pred x) (v_alloc x) []))
      | _ => False end
  | Destroy i => exists v, nth_error w i = Some (Some v) /\ r = Done VUnit /\ w' = set w i None
  | CopyAssign i j => exists t x al l, nth_error w i = Some (Some t) /\ nth_error w j = Some (Some x) /\
      w' = set w i (Some (View (v_hash x) (v_pred x) al l)) /\ (al = v_alloc t \/ al = v_alloc x) /\
      match r with
      | Done VUnit => Permutation l (v_elems x)
      | Threw k => exists rest, Permutation (v_elems x) (l ++ rest)
      | _ => False end
  | MoveAssign i j => exists t x al l lx, nth_error w i = Some (Some t) /\ nth_error w j = Some (Some x) /\
      w' = set (set w i (Some (View (v_hash x) (v_pred x) al l))) j (Some (View (v_hash t) (v_pred t) (v_alloc x) lx)) /\
      (al = v_alloc t \/ al = v_alloc x) /\
      match r with
      | Done VUnit => Permutation l (v_elems x) /\ lx = []
      | Threw k => exists rest, Permutation (v_elems x) (l ++ lx ++ rest)
      | _ => False end
  | Swap i j => exists t x, nth_error w i = Some (Some t) /\ nth_error w j = Some (Some x) /\ r = Done VUnit /\
      w' = set (set w i (Some x)) j (Some t)
  | Merge i j => exists t x l lx, nth_error w i = Some (Some t) /\ nth_error w j = Some (Some x) /\
      w' = set (set w i (Some (View (v_hash t) (v_pred t) (v_alloc t) l))) j (Some (View (v_hash x) (v_pred x) (v_alloc x) lx)) /\
      match r with
      | Done VUnit => exists moved, Permutation (v_elems x) (moved ++ lx) /\ Permutation l (moved ++ v_elems t) /\
          (forall e, In e moved -> lookup (v_pred t) (fst e) (v_elems t) = None) /\
          (forall e, In e lx -> lookup (v_pred t) (fst e) l <> None)
      | Threw k => exists lost, Permutation (v_elems t ++ v_elems x) (l ++ lx ++ lost) /\ (moving = false -> length lost = 1%nat)
      | _ => False end
  | Equal i j eeq => exists x y, nth_error w i = Some (Some x) /\ nth_error w j = Some (Some y) /\ w' = w /\
      match r with
      | Done (VBool b) => b = Nat.eqb (length (v_elems x)) (length (v_elems y)) &&
            forallb (fun e => match lookup (v_pred y) (fst e) (v_elems y) with Some e' => eeq e e' | None => false end) (v_elems x)
      | Threw k => k = KHash \/ k = KEq
      | _ => False end
  end.

(** a history: successive operations and what each returned *)
Inductive history : world -> list (op * result) -> world -> Prop :=
| h_nil w : history w [] w
| h_cons w o r w1 rs w2 : spec w o r w1 -> history w1 rs w2 -> history w ((o, r) :: rs) w2.
End Spec.
Arguments op1 : clear implicits. Arguments op : clear implicits. Arguments value : clear implicits.
Arguments result : clear implicits. Arguments view : clear implicits. Arguments world : clear implicits.
