(** Node handles: detail/foa/node_handle.hpp, and the members of unordered_node_map.hpp / unordered_node_set.hpp that use them. A
    container is a table of the model FoaModel whose elements are nodes (node_map_types.hpp: element_type is a pointer to
    the pair), moved by copying the pointer and clearing the source (element_type.hpp l.34-38, node_map_types.hpp l.60-65), which never throws. *)
From Coq Require Import NArith Bool List Arith.
From Verif Require Import SizeModel GroupModel FoaModel FoaIterModel FoaSpec FoaWorld NodeSpec.
Import ListNotations.
Local Open Scope m_scope.
Local Open Scope N_scope.

Section Node.
Context {K V : Type} (c : Cfg K (node V)).
Notation elem := (K * node V)%type.
Notation table := (table K (node V)).

(** node_handle.hpp l.52-53: [p_] (None: null) and the storage [a_], with the allocator object living there, if any *)
Record handle := Handle { h_p : option elem; h_al : option N }.
Definition h_empty (h : handle) : bool := match h_p h with None => true | Some _ => false end.

(** *** node_handle.hpp. None: undefined behaviour or a failed assertion *)
Definition obind {A B} (o : option A) (f : A -> option B) : option B := match o with Some a => f a | None => None end.
(** l.97-107 [al] *)
Definition h_get_al (h : handle) : option N := if h_empty h then None else h_al h.
(** l.109-116 [emplace]; the source pointer is cleared by the caller below *)
Definition h_emplace (h : handle) (x : elem) (a : N) : option handle :=
  if h_empty h then Some (Handle (Some x) (Some a)) else None.
Definition h_clear_p (h : handle) : handle := Handle None (h_al h).
(** l.118-122 [reset]: destroys the allocator object, which must be alive *)
Definition h_reset (h : handle) : option handle := match h_al h with Some _ => Some (Handle None None) | None => None end.
(** type_policy::destroy(al(),&p_), node_map_types.hpp l.122-129: destroys and deallocates the node, with the allocator it came from.
    The result lists the nodes destroyed *)
Definition h_destroy_node (h : handle) : option (list elem) :=
  match h_p h, h_get_al h with Some e, Some a => if n_owner (snd e) =? a then Some [e] else None | _, _ => None end.
(** l.125 default constructor: only the pointer is initialized *)
Definition h_default : handle := Handle None None.
(** emplace( move(nh.p_),nh.al()); nh.reset(); as used by l.130-133, 143-144, 205-206: (new value of this, new value of nh) *)
Definition h_take (h nh : handle) : option (handle * handle) :=
  obind (h_get_al nh) (fun a => match h_p nh with
    | None => None
    | Some x => obind (h_emplace h x a) (fun h' => obind (h_reset (h_clear_p nh)) (fun nh' => Some (h', nh'))) end).
(** l.127-134 move constructor *)
Definition h_move_construct (nh : handle) : option (handle * handle) :=
  if h_empty nh then Some (h_default, nh) else h_take h_default nh.
(** l.136-163 move assignment, this != &nh; l.54-71 move_assign_allocator_if: both handles and the nodes destroyed *)
Definition h_move_assign (h nh : handle) : option (handle * handle * list elem) :=
  if h_empty h then if h_empty nh then Some (h, nh, []) else obind (h_take h nh) (fun p => Some (p, []))
  else if h_empty nh then obind (h_destroy_node h) (fun d => obind (h_reset h) (fun h' => Some (h', nh, d)))
  else obind (h_get_al h) (fun a => obind (h_get_al nh) (fun b =>
         if negb (pocma c || (a =? b)) then None
         else obind (h_destroy_node h) (fun d => obind (h_reset (h_clear_p nh)) (fun nh' =>
                Some (Handle (h_p nh) (Some (if pocma c then b else a)), nh', d))))).
(** l.164-171 self-move-assignment *)
Definition h_self_assign (h : handle) : option (handle * list elem) :=
  if h_empty h then Some (h, []) else obind (h_destroy_node h) (fun d => obind (h_reset h) (fun h' => Some (h', d))).
(** l.175-181 destructor *)
Definition h_dtor (h : handle) : option (list elem) :=
  if h_empty h then Some [] else obind (h_destroy_node h) (fun d => obind (h_reset h) (fun _ => Some d)).
(** l.199-228 swap, this != &nh *)
Definition h_swap (h nh : handle) : option (handle * handle) :=
  if h_empty h then if h_empty nh then Some (h, nh) else h_take h nh
  else if h_empty nh then obind (h_take nh h) (fun p => Some (snd p, fst p))
  else obind (h_get_al h) (fun a => obind (h_get_al nh) (fun b =>
         if negb (pocs c || (a =? b)) then None
         else Some (Handle (h_p nh) (Some (if pocs c then b else a)), Handle (h_p h) (Some (if pocs c then a else b))))).

(** *** table.hpp l.514-521 [extract], 612-622 [erase_on_exit] (its erase(it) discards the next iterator), element_type.hpp l.34-38:
    the pointer is moved out, then the slot is erased *)
Definition extract_it (it : iter) : M table elem :=
  match it_p it with
  | None => undef
  | Some p => t <- get ;; e <- read_element (arr t) p ;; on_arr (put_cell p Moved) ;;; erase_it it ;;; ret e
  end.
(** unordered_node_map.hpp l.568-572 [extract(key)] *)
Definition m_extract (k : K) : M table (option elem) :=
  it <- m_find_it c k ;;
  if it_eqb it it_end then ret None else e <- extract_it it ;; ret (Some e).
(** l.558-566 [extract(pos)]: the handle, with a copy of the allocator of the container *)
Definition make_handle (t : table) (o : option elem) : handle :=
  match o with Some e => Handle (Some e) (Some (aid t)) | None => h_default end.

(** *** insertion of a node handle: table.hpp l.472 [insert(element_type&&)], 629-655 [emplace_impl], with the point where the pointer of
    the handle (the second component of the state) is moved out, node_map_types.hpp l.60-65 *)
Definition null_source : M (table * handle) unit := modify (fun s => (fst s, h_clear_p (snd s))).
(** core.hpp l.1980-2002 [unchecked_emplace_with_rehash]: the element is constructed in the new arrays before the others are transferred *)
Definition emplace_node_with_rehash (hash : N) (e : elem) : M (table * handle) (nat * nat) := fun s n =>
  (na <- new_arrays c (aid (fst s)) (growth_request (sz (fst s))) ;;
   l <- (fun s n =>
     match on_exn (on_new (nosize_unchecked_emplace_at c KTransfer (position hash (a_gsi na)) hash e))
                  (s <- get ;; delete_arrays (aid (rs_tab s)) (rs_new s)) (fst s, na, O) n with
     | Ret l rs n1 =>
         match unchecked_rehash_body c rs n1 with
         | Ret _ rs' n2 => Ret l (rs_tab rs', h_clear_p (snd s)) n2
         | Exn k rs' n2 => Exn k (rs_tab rs', h_clear_p (snd s)) n2
         | Undef => Undef end
     | Exn k rs n1 => Exn k (rs_tab rs, snd s) n1
     | Undef => Undef end) ;;
   modify (fun s => (set_sz (fst s) (uadd (sz (fst s)) 1), snd s)) ;;; ret l) s n.
Definition emplace_node (e : elem) : M (table * handle) ((nat * nat) * bool) := fun s n =>
  (let t := fst s in
   hash <- hash_for c (hid t) (fst e) ;;
   let pos0 := position hash (a_gsi (arr t)) in
   loc <- find_at c t (fst e) pos0 hash ;;
   match loc with
   | Some l => ret (l, false)
   | None =>
       if sz t <? ml t then
         l <- on_fst (unchecked_emplace_at c KTransfer pos0 hash e) ;; null_source ;;; ret (l, true)
       else
         l <- emplace_node_with_rehash hash e ;; ret (l, true)
   end) s n.
(** unordered_node_map.hpp l.352-370, 372-388 [insert(node_type&&)], [insert(const_iterator,node_type&&)], up to the returned object *)
Definition m_insert_node : M (table * handle) (option ((nat * nat) * bool)) :=
  s <- get ;;
  match h_p (snd s) with
  | None => ret None
  | Some e =>
      match h_get_al (snd s) with
      | Some a => if a =? aid (fst s) then ret tt else undef
      | None => undef
      end ;;;
      r <- emplace_node e ;;
      (if (snd r : bool) then s <- get ;; h' <- of_option (h_reset (snd s)) ;; put (fst s, h') else ret tt) ;;;
      ret (Some r)
  end.

(** *** programs *)
(** containers, handles, and the nodes handles have destroyed so far (what containers destroy: C14) *)
Record nworld := NW { boxes : list (option table); hands : list (option handle); gone : list elem }.
Definition set_gone (l : list elem) : M nworld unit := modify (fun w => NW (boxes w) (hands w) (gone w ++ l)).
Definition hand (w : nworld) (j : nat) : option handle := match nth_error (hands w) j with Some o => o | None => None end.
Definition on_boxes {A} (m : M (list (option table)) A) : M nworld A := lens boxes (fun w b => NW b (hands w) (gone w)) m.
Definition push_hand (h : handle) : M nworld unit := modify (fun w => NW (boxes w) (hands w ++ [Some h]) (gone w)).
Definition set_hand (j : nat) (o : option handle) : M nworld unit := modify (fun w => NW (boxes w) (set (hands w) j o) (gone w)).
Definition on_box_hand {A} (i j : nat) (m : M (table * handle) A) : M nworld A := fun w n =>
  match slot (boxes w) i, hand w j with
  | Some t, Some h => match m (t, h) n with
      | Ret a s n' => Ret a (NW (set (boxes w) i (Some (fst s))) (set (hands w) j (Some (snd s))) (gone w)) n'
      | Exn k s n' => Exn k (NW (set (boxes w) i (Some (fst s))) (set (hands w) j (Some (snd s))) (gone w)) n'
      | Undef => Undef end
  | _, _ => Undef end.
(** the element at the returned position *)
Definition read_back (i : nat) (r : option ((nat * nat) * bool)) : M nworld (nvalue K V) :=
  match r with
  | None => ret (NIns None false)
  | Some (l, b) => w <- get ;; t <- of_option (slot (boxes w) i) ;; x <- read_at t l ;; ret (NIns (Some x) b)
  end.

(** the operations by name; the functions cited above *)
Definition nexec (o : nop K V) : M nworld (nvalue K V) :=
  match o with
  | Box o => v <- on_boxes (exec c o) ;; ret (NBox v)
  | Extract i k =>
      e <- on_boxes (run1 i (m_extract k)) ;;
      w <- get ;; t <- of_option (slot (boxes w) i) ;; push_hand (make_handle t e) ;;; ret NUnit
  | ExtractNth i m =>
      e <- on_boxes (run1 i (t <- get ;; it <- of_option (nth_it c t m) ;; extract_it it)) ;;
      w <- get ;; t <- of_option (slot (boxes w) i) ;; push_hand (make_handle t (Some e)) ;;; ret NUnit
  | InsertNode i j =>
      r <- on_box_hand i j m_insert_node ;;
      v <- read_back i r ;;
      (match r with
       | Some (_, false) => (* {itp.first,false,std::move(nh)} *)
           w <- get ;; h <- of_option (hand w j) ;; p <- of_option (h_move_construct h) ;;
           set_hand j (Some (snd p)) ;;; push_hand (fst p)
       | _ => push_hand h_default
       end) ;;;
      ret v
  | InsertNodeHint i j => r <- on_box_hand i j m_insert_node ;; read_back i r
  | HNew => push_hand h_default ;;; ret NUnit
  | HMove j => w <- get ;; h <- of_option (hand w j) ;; p <- of_option (h_move_construct h) ;;
      set_hand j (Some (snd p)) ;;; push_hand (fst p) ;;; ret NUnit
  | HAssign i j => w <- get ;; hi <- of_option (hand w i) ;; hj <- of_option (hand w j) ;;
      (if Nat.eqb i j then p <- of_option (h_self_assign hi) ;; set_hand i (Some (fst p)) ;;; set_gone (snd p)
       else p <- of_option (h_move_assign hi hj) ;; set_hand i (Some (fst (fst p))) ;;; set_hand j (Some (snd (fst p))) ;;; set_gone (snd p)) ;;;
      ret NUnit
  | HSwap i j => w <- get ;; hi <- of_option (hand w i) ;; hj <- of_option (hand w j) ;;
      (if Nat.eqb i j then ret tt
       else p <- of_option (h_swap hi hj) ;; set_hand i (Some (fst p)) ;;; set_hand j (Some (snd p))) ;;;
      ret NUnit
  | HSet j k v => w <- get ;; h <- of_option (hand w j) ;; e <- of_option (h_p h) ;;
      set_hand j (Some (Handle (Some (k, Node (n_addr (snd e)) (n_owner (snd e)) v)) (h_al h))) ;;; ret NUnit
  | HDestroy j => w <- get ;; h <- of_option (hand w j) ;; d <- of_option (h_dtor h) ;; set_hand j None ;;; set_gone d ;;; ret NUnit
  end.

(** what a user sees *)
Definition nlook (w : nworld) : nstate K V := (look_all c (boxes w), map (option_map h_p) (hands w)).

(** preconditions. Not covered: copying containers and assigning to elements (insert_or_assign), where nodes are copied, and moves between
    containers with unequal allocators, where nodes are not transferred *)
Definition node_op (o : op K (node V)) (w : list (option table)) : Prop :=
  match o with
  | On _ (InsertOrAssign _ _) => False
  | CopyConstruct _ _ | CopyAssign _ _ => False
  | MoveConstructAl j al => forall x, slot w j = Some x -> aid x = al
  | MoveAssign i j => pocma c = true \/ forall t x, slot w i = Some t -> slot w j = Some x -> aid t = aid x
  | Merge i j => forall t x, slot w i = Some t -> slot w j = Some x -> aid t = aid x
  | _ => True
  end.
Definition npre (o : nop K V) (w : nworld) : Prop :=
  match o with
  | Box o => pre c o (boxes w) /\ node_op o (boxes w) /\
      (* newly allocated nodes are at unused addresses and belong to the allocator of the container *)
      NoDup (addresses (nlook w) ++ map (fun e => n_addr (snd e)) (news (Box o))) /\
      (forall i o1 t e, o = On i o1 -> slot (boxes w) i = Some t -> In e (news1 o1) -> n_owner (snd e) = aid t)
  | Extract i k => exists t, slot (boxes w) i = Some t
  | ExtractNth i m => exists t, slot (boxes w) i = Some t /\ N.of_nat m < sz t
  | InsertNode i j | InsertNodeHint i j => exists t h, slot (boxes w) i = Some t /\ hand w j = Some h /\
      (h_empty h = false -> h_al h = Some (aid t))                       (* get_allocator()==nh.get_allocator() *)
  | HNew => True
  | HMove j | HDestroy j => exists h, hand w j = Some h
  | HAssign i j => exists hi hj, hand w i = Some hi /\ hand w j = Some hj /\
      (h_empty hi = false -> h_empty hj = false -> pocma c = true \/ h_al hi = h_al hj)
  | HSwap i j => exists hi hj, hand w i = Some hi /\ hand w j = Some hj /\
      (h_empty hi = false -> h_empty hj = false -> pocs c = true \/ h_al hi = h_al hj)
  | HSet j k v => exists h, hand w j = Some h /\ h_empty h = false
  end.

(** the result of an operation that ends; then the executions of programs. No counterpart in /repo *)
Definition nreturned (r : R nworld (nvalue K V)) (res : nresult K V) (w' : nworld) : Prop :=
  match r with Ret v w _ => res = NDone v /\ w' = w | Exn k w _ => res = NThrew k /\ w' = w | Undef => False end.
Inductive nruns : list (nop K V * nresult K V) -> nworld -> Prop :=
| nruns_nil : nruns [] (NW [] [] [])
| nruns_snoc rs w o n r w' : nruns rs w -> npre o w -> nreturned (nexec o w n) r w' -> nruns (rs ++ [(o, r)]) w'.
(** node containers: pointers are moved when rehashing, which does not throw *)
Definition node_cfg : Prop := moves c = true /\ forall n, throws c KTransfer n = false.
End Node.
Arguments handle : clear implicits. Arguments nworld : clear implicits.
