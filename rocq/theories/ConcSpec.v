(** Specification of the concurrent maps and sets (concurrent_flat_map, concurrent_node_map and, with V := unit, the sets):
    an atomic machine, independent of the model. Its state is the list of the containers of the program, as in FoaSpec, and
    for each thread the call in progress. Every single-key operation takes effect at one instant between its call and its return;
    operations on whole containers are those of FoaSpec; visit_all, visit_while and erase_if(pred) access one element at a time;
    size() is exact up to the other calls in progress. *)
From Coq Require Import NArith Bool List Arith Permutation.
From Verif Require Import FoaModel FoaSpec.   (* FoaModel only for [kind], the sources of exceptions *)
Import ListNotations.
Local Open Scope N_scope.

Section Spec.
Context {K V : Type}.
Notation pair := (K * V)%type.

(** what a function passed by the user does with an element: the value it leaves in the element, and the boolean it
    returns (None: it throws). A function called with const access cannot change the value. *)
Definition ufun := pair -> V * option bool.

(** single-key operations; [x]: non-const visitation (exclusive access to the element) *)
Inductive pop :=
| PVisit (x : bool) (k : K) (f : ufun)                     (* visit, cvisit, contains, count *)
| PErase (k : K) (f : ufun)                                (* erase(k), erase_if(k,f), extract(k), extract_if(k,f) *)
| PEmplace (x : bool) (k : K) (v : V) (f1 f2 : ufun).      (* insert, emplace, try_emplace, insert_or_assign, ..._or_[c]visit, ..._and_[c]visit *)
Definition pkey (p : pop) : K := match p with PVisit _ k _ | PErase k _ | PEmplace _ k _ _ _ => k end.

Inductive bmode := BVisit | BWhile | BErase.               (* visit_all, visit_while, erase_if(pred) *)
Inductive cop :=
| Point (p : pop)
| Bulk (x : bool) (m : bmode) (f : nat -> ufun)            (* f n: behaviour of the n-th call of the function *)
| SizeOf.
Inductive bstat := BDone | BHalted | BThrew.
Inductive cres :=
| RNone                                                    (* no element with this key: 0 *)
| RSeen (e : pair)                                         (* f (f2) was called on e *)
| RIns                                                     (* inserted, f1 was called on the new element *)
| RErased (e : pair) | RKept (e : pair)                    (* erase_if: f was called on e and returned true/false *)
| RThrew
| RBulk (l : list (pair * bool)) (st : bstat)              (* the elements f was called on and whether they were erased *)
| RSize (n : N).

(** calls and returns *)
Inductive call := OnC (d : nat) (o : cop) | Whole (o : op K V).
Inductive answer := AnsC (r : cres) | AnsW (r : result K V).

(** instants at which operations take effect *)
Inductive act := APoint (r : cres) | AElem (e : pair) (b : bool) | ASize (n : N) | AWhole (r : result K V).
Inductive event := ECall (t : nat) (c : call) | ELin (t : nat) (a : act) | ERet (t : nat) (a : answer).
Definition visible (e : event) : bool := match e with ELin _ _ => false | _ => true end.

Variable eq : N -> K -> K -> bool.       (* predicate object -> key equality *)
Variable moving : bool.                  (* rehashing moves elements rather than copying them *)

Definition absent (p : N) (k : K) (l : list pair) : Prop := forall e, In e l -> eq p k (fst e) = false.
(** f is called on the element e equivalent to k; [x]: its assignment to the value is kept; [b]: what it returns *)
Definition called (p : N) (k : K) (x : bool) (f : ufun) (e : pair) (b : option bool) (l l' : list pair) : Prop :=
  exists v rest, eq p k (fst e) = true /\ f e = (v, b) /\ Permutation l (e :: rest) /\
    Permutation l' ((fst e, if x then v else snd e) :: rest).

(** the single-key operations on a container with predicate p and elements l *)
Definition pspec (p : N) (o : pop) (l : list pair) (r : cres) (l' : list pair) : Prop :=
  match o, r with
  | (PVisit _ k _ | PErase k _), RNone => absent p k l /\ Permutation l' l
  | PVisit x k f, RSeen e => exists b, called p k x f e (Some b) l l'
  | PVisit x k f, RThrew => Permutation l' l \/ exists e, called p k x f e None l l'
  | PErase k f, RErased e => exists v, eq p k (fst e) = true /\ f e = (v, Some true) /\ Permutation l (e :: l')
  | PErase k f, RKept e => called p k true f e (Some false) l l'
  | PErase k f, RThrew => Permutation l' l \/ exists e, called p k true f e None l l'
  | PEmplace x k v f1 f2, RIns => exists v' b, absent p k l /\ f1 (k, v) = (v', Some b) /\ Permutation l' ((k, v') :: l)
  | PEmplace x k v f1 f2, RSeen e => exists b, called p k x f2 e (Some b) l l'
  | PEmplace x k v f1 f2, RThrew =>
      Permutation l' l \/ (exists e, called p k x f2 e None l l') \/
      (exists v', absent p k l /\ f1 (k, v) = (v', None) /\ Permutation l' ((k, v') :: l)) \/
      (exists lost, moving = true /\ Permutation l (lost ++ l'))
  | _, _ => False
  end.

(** f is called on one element of the container, by a bulk operation that has already called it n times *)
Definition writes (x : bool) (m : bmode) : bool := match m with BErase => true | _ => x end.
Definition erases (m : bmode) (b : option bool) : bool := match m, b with BErase, Some true => true | _, _ => false end.
Definition espec (x : bool) (m : bmode) (f : nat -> ufun) (n : nat) (e : pair) (b : bool) (l l' : list pair) : Prop :=
  exists v ob rest, f n e = (v, ob) /\ b = erases m ob /\ Permutation l (e :: rest) /\
    Permutation l' (if b then rest else (fst e, if writes x m then v else snd e) :: rest).

(** how a bulk operation ends: the outcomes of the successive calls of f *)
Definition goes_on (m : bmode) (ob : option bool) : bool :=
  match m, ob with _, None => false | BWhile, Some false => false | _, _ => true end.
Definition bulk_ends (m : bmode) (f : nat -> ufun) (l : list (pair * bool)) (st : bstat) : Prop :=
  let out n := match nth_error l n with Some (e, _) => Some (snd (f n e)) | None => None end in
  (forall n ob, (S n < length l)%nat -> out n = Some ob -> goes_on m ob = true) /\
  match st with
  | BDone => forall n ob, out n = Some ob -> goes_on m ob = true
  | BHalted => m = BWhile /\ exists n, length l = S n /\ out n = Some (Some false)
  | BThrew => exists n, length l = S n /\ out n = Some None
  end.

(** *** the atomic machine *)
Inductive status := Free | Pend (c : call) (done : list act).
Record astate := AS { as_st : nat -> status; as_w : world K V }.
Definition upd_st (f : nat -> status) (t : nat) (x : status) : nat -> status := fun t' => if Nat.eqb t' t then x else f t'.
(** the same containers, their elements in another order *)
Definition same_view (a b : view K V) : Prop :=
  v_hash a = v_hash b /\ v_pred a = v_pred b /\ v_alloc a = v_alloc b /\ Permutation (v_elems a) (v_elems b).
Definition same_world (a b : world K V) : Prop :=
  Forall2 (fun x y => match x, y with Some u, Some v => same_view u v | None, None => True | _, _ => False end) a b.

(** other threads with a call on container d in progress *)
Definition in_progress (st : nat -> status) (t d : nat) (ts : list nat) : Prop :=
  NoDup ts /\ ~ In t ts /\ forall t', In t' ts -> exists o done, st t' = Pend (OnC d o) done.
(** one instant of a call of thread t *)
Definition takes_effect (st : nat -> status) (t : nat) (c : call) (done : list act) (a : act) (w w' : world K V) : Prop :=
  match c, a with
  | OnC d (Point p), APoint r => done = [] /\ exists v l', nth_error w d = Some (Some v) /\
      pspec (v_pred v) p (v_elems v) r l' /\ w' = set w d (Some (View (v_hash v) (v_pred v) (v_alloc v) l'))
  | OnC d (Bulk x m f), AElem e b => exists v l', nth_error w d = Some (Some v) /\
      espec x m f (length done) e b (v_elems v) l' /\ w' = set w d (Some (View (v_hash v) (v_pred v) (v_alloc v) l'))
  | OnC d SizeOf, ASize n => done = [] /\ w' = w /\ exists v ts, nth_error w d = Some (Some v) /\ in_progress st t d ts /\
      let m := N.of_nat (length (v_elems v)) in m <= n <= m + N.of_nat (length ts)
  | Whole o, AWhole r => done = [] /\ spec eq moving w o r w'
  | _, _ => False
  end.
(** the value returned is the one determined at these instants *)
Definition answers (c : call) (done : list act) (a : answer) : Prop :=
  match c, a with
  | OnC _ (Point _), AnsC r => done = [APoint r]
  | OnC _ (Bulk x m f), AnsC (RBulk l st) => done = map (fun eb => AElem (fst eb) (snd eb)) l /\ bulk_ends m f l st
  | OnC _ SizeOf, AnsC (RSize n) => done = [ASize n]
  | Whole _, AnsW r => done = [AWhole r]
  | _, _ => False
  end.

Inductive astep : astate -> option event -> astate -> Prop :=
| a_inv st w t c : st t = Free -> astep (AS st w) (Some (ECall t c)) (AS (upd_st st t (Pend c [])) w)
| a_lin st w t c done a w' : st t = Pend c done -> takes_effect st t c done a w w' ->
    astep (AS st w) (Some (ELin t a)) (AS (upd_st st t (Pend c (done ++ [a]))) w')
| a_res st w t c done a : st t = Pend c done -> answers c done a ->
    astep (AS st w) (Some (ERet t a)) (AS (upd_st st t Free) w)
| a_order st w w' : same_world w w' -> astep (AS st w) None (AS st w').
Inductive aruns : astate -> list event -> astate -> Prop :=
| ar_nil s : aruns s [] s
| ar_cons s e s1 es s2 : astep s (Some e) s1 -> aruns s1 es s2 -> aruns s (e :: es) s2
| ar_tau s s1 es s2 : astep s None s1 -> aruns s1 es s2 -> aruns s es s2.

(** a history of calls and returns is one of the atomic machine's *)
Definition atomic_history (h : list event) : Prop :=
  exists es s, aruns (AS (fun _ => Free) []) es s /\ h = filter visible es.
End Spec.
Arguments ufun : clear implicits. Arguments pop : clear implicits. Arguments cop : clear implicits. Arguments cres : clear implicits.
Arguments call : clear implicits. Arguments answer : clear implicits. Arguments act : clear implicits. Arguments event : clear implicits.
Arguments status : clear implicits. Arguments astate : clear implicits.
