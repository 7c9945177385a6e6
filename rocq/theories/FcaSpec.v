(** Specification of the closed-addressing containers (unordered_map, unordered_multimap and, with V := unit, the sets), independent of the model.
    An element is an address and a (key, value) pair. A container is a hash object, a predicate object, an allocator and its elements in iteration order.
    Element addresses in the specification say which pointers and references survive an operation. *)
From Coq Require Import NArith ZArith Bool List Permutation.
From Verif Require Import FoaModel.   (* only for [kind], the sources of exceptions *)
Import ListNotations.
Local Open Scope N_scope.

Section Spec.
Context {K V : Type}.
Notation pair := (K * V)%type.
Notation elem := (nat * (K * V))%type.

(** operations on one container; an iterator argument is given by its distance from begin() *)
Inductive op1 :=
| Insert (kf : bool) (e : pair)            (* insert, emplace (kf: the key is an argument), try_emplace *)
| InsertHint (kf : bool) (m : nat) (e : pair)  (* emplace_hint, insert(hint,e) *)
| InsertRange (fwd : bool) (l : list pair) (* insert(first,last), insert(il); fwd: forward iterators *)
| AssignList (l : list pair)               (* operator=(il) *)
| InsertOrAssign (k : K) (v : V)           (* unique keys only *)
| Index (dv : V) (k : K)                   (* operator[] with value-initialized value dv; unique keys only *)
| Find (k : K)
| At (k : K)
| Count (k : K)
| Contains (k : K)
| EqualRange (k : K)                       (* the elements of the range *)
| EraseKey (k : K)
| EraseNth (m : nat)                       (* erase(it) *)
| EraseRange (m m2 : nat)                  (* erase(it,it2) *)
| EraseIf (pr : pair -> bool)
| Clear
| Rehash (n : N)
| Reserve (n : N)
| MaxLoadFactor (z : option Z)             (* None: infinity; otherwise a float times 2^149 *)
| Iterate                                  (* the elements seen from begin() to end() *)
| Size.

(** operations on the containers and node handles of the program, named by number *)
Inductive op :=
| On (i : nat) (o : op1)
| New (h p al : N) (n : N)                 (* container(n,hash,pred,alloc): added as the next container *)
| CopyConstruct (j : nat) (al : N)
| MoveConstruct (j : nat)
| MoveConstructAl (j : nat) (al : N)
| Destroy (i : nat)
| CopyAssign (i j : nat)                   (* i = j *)
| MoveAssign (i j : nat)                   (* i = move(j) *)
| Swap (i j : nat)
| Merge (i j : nat)                        (* i.merge(j) *)
| Equal (i j : nat) (eeq : pair -> pair -> bool)  (* i == j, eeq being == of value_type *)
| ExtractKey (i : nat) (k : K)             (* the handle is added as the next handle *)
| ExtractNth (i : nat) (m : nat)
| SetHandle (h : nat) (e : pair)           (* nh.key() = .., nh.mapped() = .. *)
| InsertHandle (i h : nat) (hint : option nat)
| DropHandle (h : nat).                    (* destructor of the handle *)

Inductive value := VUnit | VIns (x : elem) (b : bool) | VBool (b : bool) | VVal (v : V) | VFound (o : option elem)
  | VFoundV (o : option V) | VN (n : N) | VList (l : list elem) | VErased (x : elem) (next : option elem).
Inductive result := Done (v : value) | Threw (k : kind).

Record view := View { v_hash : N; v_pred : N; v_alloc : N; v_elems : list elem }.

Variable eq : N -> K -> K -> bool.       (* predicate object -> key equality *)
Variable multi : bool.                   (* equivalent keys allowed *)
Variable leftover : pair -> pair.        (* what moving from an element leaves in it *)
Variables pocca pocma : bool.            (* allocator propagation *)

Definition key (x : elem) : K := fst (snd x).
Definition has (p : N) (k : K) (x : elem) : bool := eq p k (key x).
Definition lookup (p : N) (k : K) (l : list elem) : option elem := List.find (has p k) l.
Definition fresh (l xs : list elem) : Prop := forall x, In x xs -> ~ In (fst x) (map fst l).

(** the values a range insertion adds when keys ks are there *)
Fixpoint added (p : N) (ks : list K) (es : list pair) : list pair :=
  match es with
  | [] => []
  | e :: r => if negb multi && existsb (eq p (fst e)) ks then added p ks r else e :: added p (fst e :: ks) r
  end.

(** one insertion of the value e: the element x it designates, whether it is new *)
Definition inserted (p : N) (e : pair) (l : list elem) (x : elem) (b : bool) (l' : list elem) : Prop :=
  match (if multi then None else lookup p (fst e) l) with
  | Some y => x = y /\ b = false /\ l' = l
  | None => snd x = e /\ b = true /\ fresh l [x] /\ Permutation l' (x :: l)
  end.
(** with a hint: next to an equivalent element the hint points to *)
Definition near_hint (p : N) (m : nat) (e : pair) (l : list elem) (x : elem) (l' : list elem) : Prop :=
  multi = true -> forall y, nth_error l m = Some y -> has p (fst e) y = true -> exists l1 l2, l' = l1 ++ y :: x :: l2.
(** elements are only lost if the hash function throws *)
Definition Lost (k : kind) (lost : list elem) : Prop := lost = [] \/ k = KHash.

(** operations on one container, contents l, predicate p *)
Definition spec1 (p : N) (o : op1) (l : list elem) (r : result) (l' : list elem) : Prop :=
  match o, r with
  | Insert _ e, Done (VIns x b) => inserted p e l x b l'
  | InsertHint _ m e, Done (VFound (Some x)) => (exists b, inserted p e l x b l') /\ near_hint p m e l x l'
  | InsertRange _ es, Done VUnit => exists xs, map snd xs = added p (map key l) es /\ fresh l xs /\ Permutation l' (xs ++ l)
  | AssignList es, Done VUnit => exists xs, map snd xs = added p [] es /\ Permutation l' xs
  | InsertOrAssign k v, Done (VIns x b) =>
      match lookup p k l with
      | Some y => exists l1 l2, b = false /\ x = (fst y, (key y, v)) /\ l = l1 ++ y :: l2 /\ l' = l1 ++ x :: l2
      | None => inserted p (k, v) l x b l'
      end
  | Index dv k, Done (VVal v) =>
      match lookup p k l with
      | Some y => v = snd (snd y) /\ l' = l
      | None => v = dv /\ exists x, inserted p (k, dv) l x true l'
      end
  | Find k, Done (VFound r) => r = lookup p k l /\ l' = l
  | At k, Done (VFoundV r) => r = option_map (fun x => snd (snd x)) (lookup p k l) /\ l' = l
  | Count k, Done (VN n) => n = N.of_nat (length (filter (has p k) l)) /\ l' = l
  | Contains k, Done (VBool b) => b = existsb (has p k) l /\ l' = l
  | EqualRange k, Done (VList es) => es = filter (has p k) l /\ l' = l /\ exists l1 l2, l = l1 ++ es ++ l2
  | EraseKey k, Done (VN n) => n = N.of_nat (length (filter (has p k) l)) /\ l' = filter (fun x => negb (has p k x)) l
  | EraseNth m, Done (VErased x nx) => exists l1 l2, length l1 = m /\ l = l1 ++ x :: l2 /\ l' = l1 ++ l2 /\ nx = nth_error l' m
  | EraseRange m m2, Done VUnit => l' = firstn m l ++ skipn m2 l
  | EraseIf pr, Done (VN n) => n = N.of_nat (length (filter (fun x => pr (snd x)) l)) /\ l' = filter (fun x => negb (pr (snd x))) l
  | Clear, Done VUnit => l' = []
  | Rehash _, Done VUnit => Permutation l' l
  | Reserve _, Done VUnit => Permutation l' l
  | MaxLoadFactor _, Done VUnit => l' = l
  | Iterate, Done (VList es) => es = l /\ l' = l
  | Size, Done (VN n) => n = N.of_nat (length l) /\ l' = l
  (* exceptions *)
  | (Insert _ _ | InsertHint _ _ _ | InsertOrAssign _ _ | Index _ _), Threw k => (k <> KHash /\ l' = l) \/ (k = KHash /\ exists lost, Permutation l (lost ++ l'))
  | (Rehash _ | Reserve _), Threw k => (k = KAlloc /\ l' = l) \/ (k = KHash /\ exists lost, Permutation l (lost ++ l'))
  | InsertRange _ es, Threw k =>
      exists es1 es2 xs lost, es = es1 ++ es2 /\ map snd xs = added p (map key l) es1 /\ Permutation (xs ++ l) (lost ++ l') /\ Lost k lost
  | AssignList es, Threw k =>
      exists es1 es2 xs lost, es = es1 ++ es2 /\ map snd xs = added p [] es1 /\ Permutation xs (lost ++ l') /\ Lost k lost
  | (Find _ | At _ | Count _ | Contains _ | EqualRange _), Threw k => (k = KHash \/ k = KEq) /\ l' = l
  | EraseKey k, Threw _ => l' = l \/ (multi = true /\ exists gone, Permutation l (gone ++ l') /\ forallb (has p k) gone = true)
  | EraseIf pr, Threw k => exists d u, l = d ++ u /\ l' = filter (fun x => negb (pr (snd x))) d ++ u
  | _, _ => False
  end.

Record world := World { containers : list (option view); handles : list (option (N * elem)) }.
Definition set {A} (w : list A) (i : nat) (x : A) : list A := firstn i w ++ x :: skipn (S i) w.
Definition with_elems (v : view) (l : list elem) : view := View (v_hash v) (v_pred v) (v_alloc v) l.
Definition is_at (w : world) (i : nat) (v : view) : Prop := nth_error (containers w) i = Some (Some v).
Definition put (w : world) (i : nat) (v : view) : world := World (set (containers w) i (Some v)) (handles w).
Definition new (w : world) (v : view) : world := World (containers w ++ [Some v]) (handles w).
Definition moved_from (x : elem) : elem := (fst x, leftover (snd x)).
(** same elements: same values, in any order, at any address *)
Definition same_values (l l' : list elem) : Prop := Permutation (map snd l) (map snd l').

(** operations on several containers *)
Definition spec (w : world) (o : op) (r : result) (w' : world) : Prop :=
  match o with
  | On i o => exists v l', is_at w i v /\ spec1 (v_pred v) o (v_elems v) r l' /\ w' = put w i (with_elems v l')
  | New h p al n => match r with Done VUnit => w' = new w (View h p al []) | Threw k => k = KAlloc /\ w' = w | _ => False end
  | CopyConstruct j al => exists x, is_at w j x /\
      match r with
      | Done VUnit => exists l, same_values l (v_elems x) /\ w' = new w (View (v_hash x) (v_pred x) al l)
      | Threw k => w' = w | _ => False end
  | MoveConstruct j => exists x, is_at w j x /\ r = Done VUnit /\ w' = new (put w j (with_elems x [])) x
  | MoveConstructAl j al => exists x, is_at w j x /\
      match r with
      | Done VUnit =>
          (al = v_alloc x /\ w' = new (put w j (with_elems x [])) x) \/
          (al <> v_alloc x /\ exists l, same_values l (v_elems x) /\
             w' = new (put w j (with_elems x (map moved_from (v_elems x)))) (View (v_hash x) (v_pred x) al l))
      | Threw k => exists l1 l2, v_elems x = l1 ++ l2 /\ w' = put w j (with_elems x (map moved_from l1 ++ l2))
      | _ => False end
  | Destroy i => exists v, is_at w i v /\ r = Done VUnit /\ w' = World (set (containers w) i None) (handles w)
  | CopyAssign i j => exists t x, is_at w i t /\ is_at w j x /\
      match r with
      | Done VUnit => exists l, same_values l (v_elems x) /\ w' = put w i (View (v_hash x) (v_pred x) (if pocca then v_alloc x else v_alloc t) l)
      | Threw k =>
          (exists l lost, Permutation (v_elems t) (lost ++ l) /\ Lost k lost /\ w' = put w i (with_elems t l)) \/
          (exists al l rest, (al = v_alloc t \/ (pocca = true /\ al = v_alloc x)) /\ Permutation (map snd (v_elems x)) (map snd l ++ rest) /\
             w' = put w i (View (v_hash x) (v_pred x) al l))
      | _ => False end
  | MoveAssign i j => exists t x, is_at w i t /\ is_at w j x /\
      let steals := pocma || N.eqb (v_alloc t) (v_alloc x) in
      match r with
      | Done VUnit =>
          (steals = true /\ w' = put (put w i (View (v_hash x) (v_pred x) (if pocma then v_alloc x else v_alloc t) (v_elems x))) j (with_elems x [])) \/
          (steals = false /\ exists l, same_values l (v_elems x) /\
             w' = put (put w i (View (v_hash x) (v_pred x) (v_alloc t) l)) j (with_elems x (map moved_from (v_elems x))))
      | Threw k => steals = false /\
          ((exists l lost, Permutation (v_elems t) (lost ++ l) /\ Lost k lost /\ w' = put w i (with_elems t l)) \/
           (exists l1 l2 l rest, v_elems x = l1 ++ l2 /\ Permutation (map snd l1) (map snd l ++ rest) /\ (length rest <= 1)%nat /\
              w' = put (put w i (View (v_hash x) (v_pred x) (v_alloc t) l)) j (with_elems x (map moved_from l1 ++ l2))))
      | _ => False end
  | Swap i j => exists t x, is_at w i t /\ is_at w j x /\ r = Done VUnit /\ w' = put (put w i x) j t
  | Merge i j => exists t x l lx, is_at w i t /\ is_at w j x /\ w' = put (put w i (with_elems t l)) j (with_elems x lx) /\
      match r with
      | Done VUnit => exists moved, Permutation (v_elems x) (moved ++ lx) /\ Permutation l (moved ++ v_elems t) /\
          if multi then lx = []
          else (forall y, In y moved -> lookup (v_pred t) (key y) (v_elems t) = None) /\ (forall y, In y lx -> lookup (v_pred t) (key y) l <> None)
      | Threw k => exists lost, Permutation (v_elems t ++ v_elems x) (lost ++ l ++ lx) /\
          (k = KHash \/ (length lost <= if multi then 1 else 0)%nat)
      | _ => False end
  | Equal i j eeq => exists x y, is_at w i x /\ is_at w j y /\ w' = w /\
      match r with
      | Done (VBool b) =>
          (** the elements of one can be rearranged to match those of the other *)
          b = true <-> exists l', Permutation (v_elems y) l' /\
              Forall2 (fun a b => eq (v_pred y) (key a) (key b) = true /\ eeq (snd a) (snd b) = true) (v_elems x) l'
      | Threw k => k = KHash \/ k = KEq
      | _ => False end
  | ExtractKey i k => exists v, is_at w i v /\
      match r with
      | Done (VFound o) => o = lookup (v_pred v) k (v_elems v) /\
          match o with
          | None => w' = World (containers w) (handles w ++ [None])
          | Some x => exists l1 l2, v_elems v = l1 ++ x :: l2 /\
              w' = World (set (containers w) i (Some (with_elems v (l1 ++ l2)))) (handles w ++ [Some (v_alloc v, x)])
          end
      | Threw k => (k = KHash \/ k = KEq) /\ w' = w
      | _ => False end
  | ExtractNth i m => exists v x l1 l2, is_at w i v /\ r = Done (VFound (Some x)) /\ length l1 = m /\ v_elems v = l1 ++ x :: l2 /\
      w' = World (set (containers w) i (Some (with_elems v (l1 ++ l2)))) (handles w ++ [Some (v_alloc v, x)])
  | SetHandle h e => exists al x, nth_error (handles w) h = Some (Some (al, x)) /\ r = Done VUnit /\
      w' = World (containers w) (set (handles w) h (Some (al, (fst x, e))))
  | InsertHandle i h hint => exists v, is_at w i v /\
      match nth_error (handles w) h with
      | None => False
      | Some None => r = Done (VFound None) /\ w' = w
      | Some (Some (al, x)) =>
          match r with
          | Done (VIns y b) =>
              match (if multi then None else lookup (v_pred v) (key x) (v_elems v)) with
              | Some z => y = z /\ b = false /\ w' = w
              | None => y = x /\ b = true /\ exists l, Permutation l (x :: v_elems v) /\
                  (forall m, hint = Some m -> near_hint (v_pred v) m (snd x) (v_elems v) x l) /\
                  w' = World (set (containers w) i (Some (with_elems v l))) (set (handles w) h None)
              end
          | Threw k => exists l lost, Permutation (v_elems v) (lost ++ l) /\ Lost k lost /\ w' = put w i (with_elems v l)
          | _ => False end
      end
  | DropHandle h => exists o, nth_error (handles w) h = Some o /\ r = Done VUnit /\ w' = World (containers w) (set (handles w) h None)
  end.

(** the addresses of all elements, in containers and handles *)
Definition addresses (w : world) : list nat :=
  flat_map (fun o => match o with Some v => map fst (v_elems v) | None => [] end) (containers w) ++
  flat_map (fun o => match o with Some (_, x) => [fst x] | None => [] end) (handles w).

(** a history: successive operations and what each returned *)
Inductive history : world -> list (op * result) -> world -> Prop :=
| h_nil w : history w [] w
| h_cons w o r w1 rs w2 : spec w o r w1 -> history w1 rs w2 -> history w ((o, r) :: rs) w2.
End Spec.
Arguments op1 : clear implicits. Arguments op : clear implicits. Arguments value : clear implicits.
Arguments result : clear implicits. Arguments view : clear implicits. Arguments world : clear implicits.
