(** Programs over several closed-addressing containers and node handles: the model's operations run on a list of containers and a list of handles.
    An exception ends the operation, is recorded, and the program goes on. *)
From Coq Require Import NArith ZArith Bool List Arith.
From Verif Require Import FloatModel FoaModel FcaLinks FcaModel FcaIter FcaSpec.
From Verif Require FoaWorld.
Import ListNotations.
Local Open Scope m_scope.
Local Open Scope N_scope.

Section World.
Context {K V : Type} (c : FCfg K V).
Notation node := (node K V).
Notation table := (FcaModel.table K V).
Notation cb := (base c).
Notation St := (table * heap)%type.
Notation St2 := ((table * table) * heap)%type.
Notation op1 := (op1 K V). Notation op := (op K V). Notation value := (value K V). Notation result := (result K V).

Definition el (x : node) : nat * (K * V) := (nd_id x, nd_kv x).
(** *it *)
Definition deref (it : eit) : M St (nat * (K * V)) := t <- get_t ;; x <- of_option (e_node (f_b t) it) ;; ret (el x).
(** *it unless it is end() *)
Definition deref_opt (it : eit) : M St (option (nat * (K * V))) := if e_eqb it e_end then ret None else x <- deref it ;; ret (Some x).
Definition it_at (m : nat) : M St eit := t <- get_t ;; of_option (nth_it t m).

(** the operations of [op1], calling the member functions of the model. unordered_map.hpp: insert/emplace l.231-287, try_emplace l.331-376, insert_or_assign l.379-421, operator[] l.1825-1846, at l.1848-1878,
    erase l.1669-1705, operator=(initializer_list) l.1614-1621; unordered_multimap l.977-1060, 2218-2310 *)
Definition exec1 (o : op1) : M St value :=
  match o with
  | Insert kf e =>
      if multi c then x <- new_node c KConstruct e ;; it <- emplace_equiv c x ;; y <- deref it ;; ret (VIns y true)
      else r <- emplace_unique c kf KConstruct e ;; y <- deref (fst r) ;; ret (VIns y (snd r))
  | InsertHint kf m e =>
      hint <- it_at m ;;
      if multi c then x <- new_node c KConstruct e ;; it <- emplace_hint_equiv c hint x ;; y <- deref it ;; ret (VFound (Some y))
      else it <- emplace_hint_unique c kf hint e ;; y <- deref it ;; ret (VFound (Some y))
  | InsertRange fwd l => (if multi c then insert_range_equiv c fwd l else insert_range_unique c l) ;;; ret VUnit
  | AssignList l => clear ;;; (if multi c then insert_range_equiv c true l else insert_range_unique c l) ;;; ret VUnit
  | InsertOrAssign k v => r <- insert_or_assign_unique c k v ;; y <- deref (fst r) ;; ret (VIns y (snd r))
  | Index dv k => r <- emplace_unique c true KConstruct (k, dv) ;; y <- deref (fst r) ;; ret (VVal (snd (snd y)))
  | Find k => t <- get_t ;; it <- find c t k ;; y <- deref_opt it ;; ret (VFound y)
  | At k => t <- get_t ;; it <- find c t k ;; y <- deref_opt it ;; ret (VFoundV (option_map (fun x => snd (snd x)) y))
  | Count k => t <- get_t ;; n <- group_count c t k ;; ret (VN n)
  | Contains k => t <- get_t ;; it <- find c t k ;; ret (VBool (negb (e_eqb it e_end)))
  | EqualRange k => t <- get_t ;; l <- equal_range c t k ;; ret (VList (map el l))
  | EraseKey k => n <- (if multi c then erase_key_equiv c k else erase_key_unique c k) ;; ret (VN n)
  | EraseNth m => it <- it_at m ;; y <- deref it ;; nxt <- erase_node it ;; z <- deref_opt nxt ;; ret (VErased y z)
  | EraseRange m m2 => it <- it_at m ;; it2 <- it_at m2 ;; erase_nodes_range it it2 ;;; ret VUnit
  | EraseIf pr => n <- erase_if c pr ;; ret (VN n)
  | Clear => clear ;;; ret VUnit
  | Rehash n => rehash c n ;;; ret VUnit
  | Reserve n => reserve c n ;;; ret VUnit
  | MaxLoadFactor z => max_load_factor z ;;; ret VUnit
  | Iterate => t <- get_t ;; l <- of_option (elements t) ;; ret (VList (map el l))
  | Size => t <- get_t ;; ret (VN (f_size t))
  end.

(** the containers of the program (None: destroyed), its node handles (None: empty) and the heap *)
Record mworld := MW { tabs : list (option table); hands : list (option node); hp : heap }.
Definition slot (w : mworld) (i : nat) : option table := match nth_error (tabs w) i with Some o => o | None => None end.
Definition put_tab (w : mworld) (i : nat) (o : option table) (h : heap) : mworld := MW (set (tabs w) i o) (hands w) h.
Definition run1 {A} (i : nat) (m : M St A) : M mworld A := fun w n =>
  match slot w i with
  | None => Undef
  | Some t => match m (t, hp w) n with
      | Ret a s n' => Ret a (put_tab w i (Some (fst s)) (snd s)) n'
      | Exn k s n' => Exn k (put_tab w i (Some (fst s)) (snd s)) n'
      | Undef => Undef end
  end.
Definition run2 {A} (i j : nat) (m : M St2 A) : M mworld A := fun w n =>
  match slot w i, slot w j with
  | Some t, Some x =>
      if Nat.eqb i j then Undef else
      match m ((t, x), hp w) n with
      | Ret a s n' => Ret a (put_tab (put_tab w i (Some (fst (fst s))) (snd s)) j (Some (snd (fst s))) (snd s)) n'
      | Exn k s n' => Exn k (put_tab (put_tab w i (Some (fst (fst s))) (snd s)) j (Some (snd (fst s))) (snd s)) n'
      | Undef => Undef end
  | _, _ => Undef
  end.
(** an operation on the heap alone: constructors *)
Definition run0 {A} (m : M heap A) : M mworld A := fun w n =>
  match m (hp w) n with
  | Ret a h n' => Ret a (MW (tabs w) (hands w) h) n'
  | Exn k h n' => Exn k (MW (tabs w) (hands w) h) n'
  | Undef => Undef end.
Definition push (t : table) : M mworld unit := modify (fun w => MW (tabs w ++ [Some t]) (hands w) (hp w)).
Definition push_hand (o : option node) : M mworld unit := modify (fun w => MW (tabs w) (hands w ++ [o]) (hp w)).
Definition set_hand (h : nat) (o : option node) : M mworld unit := modify (fun w => MW (tabs w) (set (hands w) h o) (hp w)).

Definition exec (o : op) : M mworld value :=
  match o with
  | On i o => run1 i (exec1 o)
  | New h p al n => t <- run0 (new_table c h p al n) ;; push t ;;; ret VUnit
  | CopyConstruct j al => w <- get ;; x <- of_option (slot w j) ;; t <- run0 (copy_construct c x al) ;; push t ;;; ret VUnit
  | MoveConstruct j =>
      t <- run1 j (fun s n => match move_construct (fst s) n with Ret t x n' => Ret t (x, snd s) n' | Exn k x n' => Exn k (x, snd s) n' | Undef => Undef end) ;;
      push t ;;; ret VUnit
  | MoveConstructAl j al => t <- run1 j (move_construct_al c al) ;; push t ;;; ret VUnit
  | Destroy i => run1 i destroy_table ;;; modify (fun w => put_tab w i None (hp w)) ;;; ret VUnit
  | CopyAssign i j => w <- get ;; x <- of_option (slot w j) ;; run1 i (copy_assign c x) ;;; ret VUnit
  | MoveAssign i j => run2 i j (move_assign c) ;;; ret VUnit
  | Swap i j => run2 i j (swap_tables c) ;;; ret VUnit
  | Merge i j => run2 i j (merge c) ;;; ret VUnit
  | Equal i j eeq => w <- get ;; x <- of_option (slot w i) ;; y <- of_option (slot w j) ;; b <- equal_tables c eeq x y ;; ret (VBool b)
  (* node handles: unordered_map.hpp l.293-321, 1033-1060 (extract), 2505-2640 (handles) *)
  | ExtractKey i k => o <- run1 i (extract_key c k) ;; push_hand o ;;; ret (VFound (option_map el o))
  | ExtractNth i m => x <- run1 i (it <- it_at m ;; extract_at it) ;; push_hand (Some x) ;;; ret (VFound (Some (el x)))
  | SetHandle h e => w <- get ;;
      match nth_error (hands w) h with Some (Some x) => set_hand h (Some (Nd (nd_id x) (nd_al x) e)) ;;; ret VUnit | _ => undef end
  (* implementation.hpp l.2072-2139, 2511-2564: an empty handle inserts nothing *)
  | InsertHandle i h hint => w <- get ;;
      match nth_error (hands w) h with
      | Some (Some x) =>
          r <- run1 i (hi <- match hint with None => ret None | Some m => it <- it_at m ;; ret (Some it) end ;;
                       p <- insert_handle c hi x ;; y <- deref (fst p) ;; ret (y, snd p)) ;;
          set_hand h (snd r) ;;; ret (VIns (fst r) (match snd r with None => true | Some _ => false end))
      | Some None => ret (VFound None)
      | None => undef
      end
  (* unordered_map.hpp l.2547-2554: the destructor destroys and deallocates the node *)
  | DropHandle h => w <- get ;;
      match nth_error (hands w) h with
      | Some (Some x) =>
          if Nat.ltb 0 (live (hp w)) then modify (fun w => MW (tabs w) (set (hands w) h None) (Hp (Nat.pred (live (hp w))) (next (hp w)))) ;;; ret VUnit else undef
      | Some None => ret VUnit
      | None => undef
      end
  end.

(** preconditions: the containers exist and are distinct; iterators are valid; allocators are equal where the standard asks for it; containers have less than 2^53
    elements; comparison uses equal predicates that refine element equality. Two restrictions are the model's: the moved-from elements of containers that stay
    behind keep their keys, and a copy assignment that replaces the allocator does not come from an empty container (see C30). *)
Definition room (t : table) (n : nat) : Prop := f_size t + N.of_nat n < 2 ^ 53.
Definition pre1 (o : op1) (t : table) : Prop :=
  match o with
  | Insert _ _ => room t 1
  | InsertHint _ m _ => room t 1 /\ N.of_nat m <= f_size t
  | InsertRange _ l => room t (length l)
  | AssignList l => N.of_nat (length l) < 2 ^ 53
  | InsertOrAssign _ _ | Index _ _ => room t 1 /\ multi c = false
  | EraseNth m => N.of_nat m < f_size t
  | EraseRange m m2 => (m <= m2)%nat /\ N.of_nat m2 <= f_size t
  | _ => True
  end.
Definition keeps_keys : Prop := forall e, fst (leftover c e) = fst e.
Definition pre (o : op) (w : mworld) : Prop :=
  match o with
  | On i o => exists t, slot w i = Some t /\ pre1 o t
  | New h p al n => FoaWorld.agree cb h p
  | CopyConstruct j _ | MoveConstruct j => exists t, slot w j = Some t
  | MoveConstructAl j al => exists t, slot w j = Some t /\ (al = f_al t \/ keeps_keys)
  | Destroy i => exists t, slot w i = Some t
  | CopyAssign i j => i <> j /\ exists t x, slot w i = Some t /\ slot w j = Some x /\
      (pocca cb = false \/ f_al t = f_al x \/ 0 < f_size x \/ bucket_count (f_b t) = 0)
  | MoveAssign i j => i <> j /\ exists t x, slot w i = Some t /\ slot w j = Some x /\ (pocma cb = true \/ f_al t = f_al x \/ keeps_keys)
  | Swap i j => i <> j /\ exists t x, slot w i = Some t /\ slot w j = Some x /\ (pocs cb = true \/ f_al t = f_al x)
  | Merge i j => i <> j /\ exists t x, slot w i = Some t /\ slot w j = Some x /\ f_al t = f_al x /\ room t (N.to_nat (f_size x))
  | Equal i j eeq => exists t x, slot w i = Some t /\ slot w j = Some x /\ f_pid t = f_pid x /\
      (multi c = true -> (forall e, eeq e e = true) /\ (forall a b, eeq a b = eeq b a) /\ (forall a b d, eeq a b = true -> eeq b d = true -> eeq a d = true) /\
         forall a b, eeq a b = true -> keqf cb (f_pid x) (fst a) (fst b) = true)
  | ExtractKey i _ => exists t, slot w i = Some t
  | ExtractNth i m => exists t, slot w i = Some t /\ N.of_nat m < f_size t
  | SetHandle h _ => exists x, nth_error (hands w) h = Some (Some x)
  | InsertHandle i h hint => exists t o, slot w i = Some t /\ nth_error (hands w) h = Some o /\ room t 1 /\
      (forall x, o = Some x -> nd_al x = f_al t) /\ (forall m, hint = Some m -> N.of_nat m <= f_size t)
  | DropHandle h => exists o, nth_error (hands w) h = Some o
  end.

(** runs of programs all of whose steps satisfy [ok]; the event counter may advance between operations *)
Definition returned (r : R mworld value) (res : result) (w' : mworld) : Prop :=
  match r with Ret v w _ => res = Done v /\ w' = w | Exn k w _ => res = Threw k /\ w' = w | Undef => False end.
Definition start : mworld := MW [] [] (Hp 0 0).
Inductive runs_with (ok : op -> mworld -> Prop) : list (op * result) -> mworld -> Prop :=
| runs_nil : runs_with ok [] start
| runs_snoc rs w o n r w' : runs_with ok rs w -> pre o w -> ok o w -> returned (exec o w n) r w' -> runs_with ok (rs ++ [(o, r)]) w'.
Definition runs := runs_with (fun _ _ => True).
Definition reachable (t : table) : Prop := exists rs w i, runs rs w /\ slot w i = Some t.
(** no copy assignment replaces an allocator by another one *)
Definition no_new_arena (o : op) (w : mworld) : Prop :=
  match o with CopyAssign i j => forall t x, slot w i = Some t -> slot w j = Some x -> pocca cb = false \/ f_al t = f_al x | _ => True end.

(** what a user sees of a container: its elements in iteration order *)
Definition contents (t : table) : list node := match elements t with Some l => l | None => [] end.
Definition look (t : table) : view K V := View (f_hid t) (f_pid t) (f_al t) (map el (contents t)).
Definition look_all (w : mworld) : world K V := World (map (option_map look) (tabs w)) (map (option_map (fun x => (nd_al x, el x))) (hands w)).
End World.
