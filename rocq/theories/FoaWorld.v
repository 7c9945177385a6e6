(** Programs over several containers: the model's operations run on a list of containers.
    An exception ends the operation, is recorded, and the program goes on. *)
From Coq Require Import NArith Bool List Arith.
From Verif Require Import SizeModel GroupModel FoaModel FoaIterModel FoaSpec.
Import ListNotations.
Local Open Scope m_scope.
Local Open Scope N_scope.

Section World.
Context {K V : Type} (c : Cfg K V).
Notation arrays := (arrays K V).
Notation table := (table K V).
Notation op1 := (op1 K V). Notation op := (op K V). Notation value := (value K V). Notation result := (result K V).

(** next(it,m) *)
Fixpoint advance (a : arrays) (it : iter) (m : nat) : option iter :=
  match m with O => Some it | S m' => match it_next c a it with Some it' => advance a it' m' | None => None end end.
Definition nth_it (t : table) (m : nat) : option iter :=
  match it_begin c (arr t) with Some it => advance (arr t) it m | None => None end.
Definition read_at {St} (t : table) (l : nat * nat) : M St (K * V) := read_element (arr t) (slot_index (fst l) (snd l)).

(** the operations of [op1], calling the member functions of the model *)
Definition exec1 (o : op1) : M table value :=
  match o with
  | Insert e => r <- m_insert c e ;; t <- get ;; x <- read_at t (fst r) ;; ret (VIns x (snd r))
  | InsertRange l => m_insert_range c l ;;; ret VUnit
  | AssignList l => m_assign_list c l ;;; ret VUnit
  | InsertOrAssign k v => b <- m_insert_or_assign c k v ;; ret (VBool b)
  | Index dv k => v <- m_index c dv k ;; ret (VVal v)
  | Find k => r <- m_find c k ;; ret (VFound r)
  | At k => r <- m_at c k ;; ret (VFoundV r)
  | Count k => n <- m_count c k ;; ret (VN n)
  | Contains k => b <- m_contains c k ;; ret (VBool b)
  | EqualRange k => r <- m_equal_range c k ;; t <- get ;;
      l <- walk c (S (N.to_nat (capacity (arr t)))) (arr t) (fst r) (snd r) ;; ret (VList l)
  | Erase k => n <- m_erase c k ;; ret (VN n)
  | EraseIf pr => fun t n =>
      match erase_if c (fun _ => pr) (t, []) n with
      | Ret x s n' => Ret (VN x) (fst s) n' | Exn k s n' => Exn k (fst s) n' | Undef => Undef end
  | EraseLoop pr => t <- get ;; it <- of_option (it_begin c (arr t)) ;;
      l <- erase_loop c (S (N.to_nat (capacity (arr t)))) pr it ;; ret (VList l)
  | EraseNth m => t <- get ;; it <- of_option (nth_it t m) ;; e <- it_deref (arr t) it ;; m_erase_at c it ;;; ret (VFound (Some e))
  | EraseRange m m2 => t <- get ;; it <- of_option (nth_it t m) ;; it2 <- of_option (nth_it t m2) ;;
      m_erase_range c (S (N.to_nat (capacity (arr t)))) it it2 ;;; ret VUnit
  | Clear => clear ;;; ret VUnit
  | Rehash n => rehash c n ;;; ret VUnit
  | Reserve n => reserve c n ;;; ret VUnit
  | Iterate => t <- get ;; l <- m_iterate c t ;; ret (VList l)
  | Size => t <- get ;; ret (VN (sz t))
  | MergeSelf => merge_self c ;;; ret VUnit
  end.

(** the containers of the program; None: destroyed *)
Definition mworld := list (option table).
Definition slot (w : mworld) (i : nat) : option table := match nth_error w i with Some o => o | None => None end.
Definition run1 {A} (i : nat) (m : M table A) : M mworld A := fun w n =>
  match slot w i with
  | None => Undef
  | Some t => match m t n with
      | Ret a t' n' => Ret a (set w i (Some t')) n'
      | Exn k t' n' => Exn k (set w i (Some t')) n'
      | Undef => Undef end
  end.
Definition run2 {A} (i j : nat) (m : M (table * table) A) : M mworld A := fun w n =>
  match slot w i, slot w j with
  | Some t, Some x =>
      if Nat.eqb i j then Undef else
      match m (t, x) n with
      | Ret a s n' => Ret a (set (set w i (Some (fst s))) j (Some (snd s))) n'
      | Exn k s n' => Exn k (set (set w i (Some (fst s))) j (Some (snd s))) n'
      | Undef => Undef end
  | _, _ => Undef
  end.
Definition push (t : table) : M mworld unit := fun w n => Ret tt (w ++ [Some t]) n.

Definition exec (o : op) : M mworld value :=
  match o with
  | On i o => run1 i (exec1 o)
  | New h p al n => t <- new_table c h p al n ;; push t ;;; ret VUnit
  | CopyConstruct j al => w <- get ;; x <- of_option (slot w j) ;; t <- copy_construct c x al ;; push t ;;; ret VUnit
  | MoveConstruct j => t <- run1 j (move_construct c) ;; push t ;;; ret VUnit
  | MoveConstructAl j al => t <- run1 j (move_construct_al c al) ;; push t ;;; ret VUnit
  | Destroy i => fun w n =>
      match slot w i with
      | None => Undef
      | Some t => match destroy_table t n with Ret _ _ n' => Ret VUnit (set w i None) n' | Exn k _ n' => Exn k (set w i None) n' | Undef => Undef end
      end
  | CopyAssign i j => w <- get ;; x <- of_option (slot w j) ;; run1 i (copy_assign c x) ;;; ret VUnit
  | MoveAssign i j => run2 i j (move_assign c) ;;; ret VUnit
  | Swap i j => run2 i j (swap_tables c) ;;; ret VUnit
  | Merge i j => run2 i j (merge c) ;;; ret VUnit
  | Equal i j eeq => w <- get ;; x <- of_option (slot w i) ;; y <- of_option (slot w j) ;; b <- equal_tables c eeq x y ;; ret (VBool b)
  end.

(** preconditions: the containers exist, are distinct where the C++ code treats a container and itself separately, iterators are
    valid, sizes can be represented, hash functions and predicates agree *)
Definition equiv_rel (p : N) : Prop :=
  (forall x, keqf c p x x = true) /\ (forall x y, keqf c p x y = keqf c p y x) /\
  (forall x y z, keqf c p x y = true -> keqf c p y z = true -> keqf c p x z = true).
Definition agree (h p : N) : Prop := equiv_rel p /\ forall x y, keqf c p x y = true -> hashf c h x = hashf c h y.
(** room for n slots can be computed without wrapping around 2^64 *)
Definition size_ok (n : N) : Prop := n < 2 ^ 64 /\ buffer_fits (esz c) (groups_for n) = true.
Definition pre1 (o : op1) (t : table) : Prop :=
  match o with
  | EraseNth m => N.of_nat m < sz t
  | EraseRange m m2 => (m <= m2)%nat /\ N.of_nat m2 <= sz t
  | Rehash n => size_ok n
  | Reserve n => size_ok (ceil_div_mlf n)
  | _ => True
  end.
Definition pre (o : op) (w : mworld) : Prop :=
  match o with
  | On i o => exists t, slot w i = Some t /\ pre1 o t
  | New h p al n => agree h p /\ size_ok n
  | CopyConstruct j _ | MoveConstruct j | MoveConstructAl j _ => exists t, slot w j = Some t
  | Destroy i => exists t, slot w i = Some t
  | CopyAssign i j | Merge i j => i <> j /\ exists t x, slot w i = Some t /\ slot w j = Some x
  | MoveAssign i j => i <> j /\ exists t x, slot w i = Some t /\ slot w j = Some x /\
      (pocma c = true \/ aid t = aid x \/ (hid t = hid x /\ pid t = pid x))
  | Swap i j => i <> j /\ exists t x, slot w i = Some t /\ slot w j = Some x /\ (pocs c = true \/ aid t = aid x)
  | Equal i j _ => exists t x, slot w i = Some t /\ slot w j = Some x
  end.

(** runs of programs; the event counter may advance between operations *)
Definition returned (r : R mworld value) (res : result) (w' : mworld) : Prop :=
  match r with Ret v w _ => res = Done v /\ w' = w | Exn k w _ => res = Threw k /\ w' = w | Undef => False end.
Inductive runs : list (op * result) -> mworld -> Prop :=
| runs_nil : runs [] []
| runs_snoc rs w o n r w' : runs rs w -> pre o w -> returned (exec o w n) r w' -> runs (rs ++ [(o, r)]) w'.
Definition reachable (t : table) : Prop := exists rs w i, runs rs w /\ slot w i = Some t.

(** what a user sees of a container: its elements in iteration order *)
Definition contents (t : table) : list (K * V) := match m_iterate c t tt O with Ret l _ _ => l | _ => [] end.
Definition look (t : table) : view K V := View (hid t) (pid t) (aid t) (contents t).
Definition look_all (w : mworld) : world K V := map (option_map look) w.
End World.
