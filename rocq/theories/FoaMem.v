(** The array allocations of the open-addressing containers: the functions of FoaModel.v that allocate or release the
    arrays, instrumented with the log of the calls the allocators receive. Every function below is the function of the same
    name (without the prime) of FoaModel.v or FoaWorld.v, with the log carried along; the ones that do not touch the allocator are
    used as they are, through [quiet]. FoaMemProofs.v proves that dropping the log gives back the functions of FoaModel.v. *)
From Coq Require Import NArith Bool List Arith.
From Verif Require Import SizeModel GroupModel FoaModel FoaIterModel FoaSpec FoaWorld MemSpec.
Import ListNotations.
Local Open Scope m_scope.
Local Open Scope N_scope.

Section Mem.
Context {K V : Type} (c : Cfg K V).
Notation arrays := (arrays K V).
Notation table := (table K V).
Notation RS := (@RS K V).

(** a state with the log, latest call last *)
Definition L (St : Type) : Type := (St * list mem)%type.
Definition quiet {St A} (m : M St A) : M (L St) A := lens fst (fun s x => (x, snd s)) m.
Definition emit {St} (e : mem) : M (L St) unit := modify (fun s => (fst s, snd s ++ [e])).
(** a component of the state, with the log *)
Definition part {St T A} (g : St -> T) (p : St -> T -> St) (m : M (L T) A) : M (L St) A :=
  lens (fun s => (g (fst s), snd s)) (fun s t => (p (fst s) (fst t), snd t)) m.

(** core.hpp l.1045-1052 (set_arrays, allocate), 1081-1090 [new_]: buffer_size(size_policy::size(groups_size_index)) *)
Definition new_arrays' {St} (al n : N) : M (L St) arrays :=
  a <- quiet (new_arrays c al n) ;;
  match a_elems a with
  | None => ret a
  | Some _ => emit (Alloc al (buffer_size_wrapped (esz c) (size_of (a_gsi a)))) ;;; ret a
  end.
(** core.hpp l.1092-1101 [delete_]: buffer_size(arrays.groups_size_mask+1) *)
Definition delete_arrays' {St} (al : N) (a : arrays) : M (L St) unit :=
  quiet (delete_arrays al a) ;;;
  match a_elems a with
  | None => ret tt
  | Some _ => emit (Free al (buffer_size_wrapped (esz c) (a_mask a + 1)))
  end.

(** core.hpp l.2287-2322, 2281-2285 *)
Definition with_new' {A} (na : arrays) (m : M (L RS) A) : M (L table) A := fun s n =>
  match m ((fst s, na, O), snd s) n with
  | Ret a q n' => Ret a (rs_tab (fst q), snd q) n'
  | Exn k q n' => Exn k (rs_tab (fst q), snd q) n'
  | Undef => Undef
  end.
Definition rehash_loop' : M (L RS) unit :=
  on_exn (quiet (for_all (fun s : RS => arr (rs_tab s)) (transfer_element c)))
    (s <- get ;;
     quiet (if Nat.eqb (snd (fst s)) 0 then ret tt
      else for_all_while (fun s : RS => arr (rs_tab s))
             (fun g n => on_tab (recover_slot g n) ;;;
                         modify (fun s => (fst s, Nat.pred (snd s))) ;;;
                         s <- get ;; ret (negb (Nat.eqb (snd s) 0))) ;;;
           ret tt) ;;;
     quiet (for_all rs_new (fun g n => on_new (destroy_element (slot_index g n)))) ;;;
     s <- get ;;
     delete_arrays' (aid (rs_tab (fst s))) (rs_new (fst s))).
Definition unchecked_rehash_body' : M (L RS) unit :=
  rehash_loop' ;;;
  s <- get ;;
  quiet (if negb (N.of_nat (snd (fst s)) =? sz (rs_tab (fst s))) then
     for_all (fun s : RS => arr (rs_tab s)) (fun g n => on_tab (on_arr (destroy_element (slot_index g n))))
   else ret tt) ;;;
  s <- get ;;
  delete_arrays' (aid (rs_tab (fst s))) (arr (rs_tab (fst s))) ;;;
  quiet (modify (fun s : RS => (set_ml (set_arr (rs_tab s) (rs_new s)) (init_ml (rs_new s)), rs_new s, snd s))).
Definition unchecked_rehash' (n : N) : M (L table) unit :=
  t <- get ;;
  na <- new_arrays' (aid (fst t)) n ;;
  with_new' na unchecked_rehash_body'.
(** core.hpp l.1980-2002, 2119-2133 *)
Definition unchecked_emplace_with_rehash' (kd : kind) (hash : N) (e : K * V) : M (L table) (nat * nat) :=
  t <- get ;;
  na <- new_arrays' (aid (fst t)) (growth_request (sz (fst t))) ;;
  l <- with_new' na
    (l <- on_exn (quiet (on_new (nosize_unchecked_emplace_at c kd (position hash (a_gsi na)) hash e)))
                 (s <- get ;; delete_arrays' (aid (rs_tab (fst s))) (rs_new (fst s))) ;;
     unchecked_rehash_body' ;;;
     ret l) ;;
  quiet (modify (fun t => set_sz t (uadd (sz t) 1))) ;;;
  ret l.
(** table.hpp l.629-655 *)
Definition emplace_impl' (kd : kind) (e : K * V) : M (L table) ((nat * nat) * bool) :=
  t <- get ;;
  hash <- quiet (hash_for c (hid (fst t)) (fst e)) ;;
  let pos0 := position hash (a_gsi (arr (fst t))) in
  loc <- quiet (find_at c (fst t) (fst e) pos0 hash) ;;
  match loc with
  | Some l => ret (l, false)
  | None =>
      if sz (fst t) <? ml (fst t) then
        l <- quiet (unchecked_emplace_at c kd pos0 hash e) ;; ret (l, true)
      else
        l <- unchecked_emplace_with_rehash' kd hash e ;; ret (l, true)
  end.
(** core.hpp l.1824-1836, 2004-2020 *)
Definition rehash' (n : N) : M (L table) unit :=
  t <- get ;;
  if negb (ceil_div_mlf_ok (sz (fst t))) then undef
  else
    let m := ceil_div_mlf (sz (fst t)) in
    let n := if n <? m then m else n in
    let n := if n =? 0 then 0 else capacity_for n in
    if negb (n =? capacity (arr (fst t))) then unchecked_rehash' n else ret tt.
Definition reserve' (n : N) : M (L table) unit :=
  if negb (ceil_div_mlf_ok n) then undef else rehash' (ceil_div_mlf n).
Definition noshrink_reserve' (n : N) : M (L table) unit :=
  if n =? 0 then ret tt
  else if negb (ceil_div_mlf_ok n) then undef
  else
    let n := capacity_for (ceil_div_mlf n) in
    t <- get ;;
    if capacity (arr (fst t)) <? n then
      na <- new_arrays' (aid (fst t)) n ;;
      delete_arrays' (aid (fst t)) (arr (fst t)) ;;;
      quiet (modify (fun t => set_ml (set_arr t na) (init_ml na)))
    else ret tt.

(** core.hpp l.1469-1476, 1550-1556 *)
Definition new_table' {St} (h p al n : N) : M (L St) table :=
  a <- new_arrays' al n ;;
  ret (Tab h p al a (init_ml a) 0).
Definition destroy_table' : M (L table) unit :=
  quiet (for_all (@arr K V) (fun g n => on_arr (destroy_element (slot_index g n)))) ;;;
  t <- get ;;
  delete_arrays' (aid (fst t)) (arr (fst t)).
Definition construct_then' {St} (mk : M (L St) table) (body : M (L (table * St)) unit) : M (L St) table := fun s n =>
  match mk s n with
  | Ret t s1 n1 =>
      match body ((t, fst s1), snd s1) n1 with
      | Ret _ ts n2 => Ret (fst (fst ts)) (snd (fst ts), snd ts) n2
      | Exn k ts n2 => match destroy_table' (fst (fst ts), snd ts) n2 with Ret _ q n3 => Exn k (snd (fst ts), snd q) n3 | _ => Undef end
      | Undef => Undef
      end
  | Exn k s1 n1 => Exn k s1 n1
  | Undef => Undef
  end.
Definition on_fst' {St A} (m : M (L table) A) : M (L (table * St)) A := part fst (fun s t => (t, snd s)) m.
(** core.hpp l.1519-1523, 1500-1517, 1525-1548 *)
Definition copy_construct' {St} (x : table) (al : N) : M (L St) table :=
  if negb (ceil_div_mlf_ok (sz x)) then undef
  else construct_then' (new_table' (hid x) (pid x) al (ceil_div_mlf (sz x)))
                       (quiet (on_fst (copy_elements_from c x))).
Definition move_construct' : M (L table) table :=
  x <- get ;;
  ah <- new_arrays' (aid (fst x)) 0 ;;
  quiet (put (Tab (hid (fst x)) (pid (fst x)) (aid (fst x)) ah (init_ml ah) 0)) ;;;
  ret (Tab (hid (fst x)) (pid (fst x)) (aid (fst x)) (arr (fst x)) (ml (fst x)) (sz (fst x))).
Definition move_construct_al' (al : N) : M (L table) table :=
  x <- get ;;
  construct_then' (new_table' (hid (fst x)) (pid (fst x)) al 0)
    (q <- get ;;
     let s := fst q in
     if al =? aid (snd s) then
       quiet (put (Tab (hid (fst s)) (pid (fst s)) (aid (fst s)) (arr (snd s)) (ml (snd s)) (sz (snd s)),
                   Tab (hid (snd s)) (pid (snd s)) (aid (snd s)) (arr (fst s)) (ml (fst s)) (sz (fst s))))
     else
       on_fst' (reserve' (sz (snd s))) ;;; quiet (move_elements c)).
(** core.hpp l.1576-1614 *)
Definition copy_assign' (x : table) : M (L table) unit :=
  quiet clear ;;;
  quiet (modify (fun t => set_hp t (hid x) (pid x))) ;;;
  (if pocca c then
     t <- get ;;
     (if negb (aid (fst t) =? aid x) then
        if negb (ceil_div_mlf_ok (sz x)) then undef else
        ah <- new_arrays' (aid x) (ceil_div_mlf (sz x)) ;;
        delete_arrays' (aid (fst t)) (arr (fst t)) ;;;
        quiet (modify (fun t => set_ml (set_arr t ah) (init_ml ah)))
      else ret tt) ;;;
     quiet (modify (fun t => set_al t (aid x)))
   else ret tt) ;;;
  noshrink_reserve' (sz x) ;;;
  quiet (copy_elements_from c x).
(** core.hpp l.1621-1680 *)
Definition move_assign' : M (L (table * table)) unit :=
  quiet (on_fst clear) ;;;
  q <- get ;;
  if pocma c || (aid (fst (fst q)) =? aid (snd (fst q))) then
    ah <- new_arrays' (aid (snd (fst q))) 0 ;;
    quiet swap_hp ;;;
    q <- get ;;
    delete_arrays' (aid (fst (fst q))) (arr (fst (fst q))) ;;;
    quiet (modify (fun s : table * table => (set_al (fst s) (if pocma c then aid (snd s) else aid (fst s)), snd s))) ;;;
    quiet (modify (fun s : table * table => (set_sz (set_ml (set_arr (fst s) (arr (snd s))) (ml (snd s))) (sz (snd s)), snd s))) ;;;
    quiet (modify (fun s : table * table => (fst s, set_sz (set_ml (set_arr (snd s) ah) (init_ml ah)) 0)))
  else
    quiet swap_hp ;;;
    q <- get ;;
    on_fst' (noshrink_reserve' (sz (snd (fst q)))) ;;;
    quiet (move_elements c).
(** table.hpp l.522-533, 612-622 *)
Definition merge_step' (g n : nat) : M (L (table * table)) unit := fun s m =>
  match quiet (read_element (arr (snd (fst s))) (slot_index g n)) s m with
  | Ret e s m =>
      match on_fst' (emplace_impl' KTransfer e) s m with
      | Ret (_, true) s m => quiet (on_snd (on_arr (put_cell (slot_index g n) Moved)) ;;; on_snd (erase_at g n)) s m
      | Ret (_, false) s m => Ret tt s m
      | Exn k s m => match quiet (on_snd (erase_at g n)) s m with Ret _ s m => Exn k s m | _ => Undef end
      | Undef => Undef
      end
  | Exn k s m => Exn k s m
  | Undef => Undef
  end.
Definition merge' : M (L (table * table)) unit := for_all (fun s => arr (snd (fst s))) merge_step'.
Definition merge_self' : M (L table) unit :=
  for_all (fun s => arr (fst s)) (fun g n =>
    t <- get ;;
    e <- quiet (read_element (arr (fst t)) (slot_index g n)) ;;
    r <- emplace_impl' KTransfer e ;;
    if (snd r : bool) then undef else ret tt).

(** unordered_flat_map.hpp l.258-263, 299-365, 402-465, 583-600 *)
Definition m_insert' (e : K * V) : M (L table) ((nat * nat) * bool) := emplace_impl' KConstruct e.
Fixpoint m_insert_range' (l : list (K * V)) : M (L table) unit :=
  match l with [] => ret tt | e :: r => m_insert' e ;;; m_insert_range' r end.
Definition m_assign_list' (l : list (K * V)) : M (L table) unit := quiet clear ;;; m_insert_range' l.
Definition m_insert_or_assign' (k : K) (v : V) : M (L table) bool :=
  r <- m_insert' (k, v) ;;
  let '((g, n), b) := r in
  if b : bool then ret true
  else quiet (
    t <- get ;;
    e <- read_element (arr t) (slot_index g n) ;;
    tick c KConstruct ;;;
    on_arr (put_cell (slot_index g n) (Live (fst e, v))) ;;;
    ret false).
Definition m_index' (dv : V) (k : K) : M (L table) V :=
  r <- m_insert' (k, dv) ;;
  quiet (
    t <- get ;;
    e <- read_element (arr t) (slot_index (fst (fst r)) (snd (fst r))) ;;
    ret (snd e)).

(** programs: FoaWorld.v [exec1], [run1], [run2], [push], [exec], [runs] *)
Definition exec1' (o : op1 K V) : M (L table) (value K V) :=
  match o with
  | Insert e => r <- m_insert' e ;; quiet (t <- get ;; x <- read_at t (fst r) ;; ret (VIns x (snd r)))
  | InsertRange l => m_insert_range' l ;;; ret VUnit
  | AssignList l => m_assign_list' l ;;; ret VUnit
  | InsertOrAssign k v => b <- m_insert_or_assign' k v ;; ret (VBool b)
  | Index dv k => v <- m_index' dv k ;; ret (VVal v)
  | Rehash n => rehash' n ;;; ret VUnit
  | Reserve n => reserve' n ;;; ret VUnit
  | MergeSelf => merge_self' ;;; ret VUnit
  | Find _ | At _ | Count _ | Contains _ | EqualRange _ | Erase _ | EraseIf _ | EraseLoop _ | EraseNth _ | EraseRange _ _
  | Clear | Iterate | Size => quiet (exec1 c o)
  end.
Definition run1' {A} (i : nat) (m : M (L table) A) : M (L (@mworld K V)) A := fun w n =>
  match slot (fst w) i with
  | None => Undef
  | Some t => match m (t, snd w) n with
      | Ret a q n' => Ret a (set (fst w) i (Some (fst q)), snd q) n'
      | Exn k q n' => Exn k (set (fst w) i (Some (fst q)), snd q) n'
      | Undef => Undef end
  end.
Definition run2' {A} (i j : nat) (m : M (L (table * table)) A) : M (L (@mworld K V)) A := fun w n =>
  match slot (fst w) i, slot (fst w) j with
  | Some t, Some x =>
      if Nat.eqb i j then Undef else
      match m ((t, x), snd w) n with
      | Ret a q n' => Ret a (set (set (fst w) i (Some (fst (fst q)))) j (Some (snd (fst q))), snd q) n'
      | Exn k q n' => Exn k (set (set (fst w) i (Some (fst (fst q)))) j (Some (snd (fst q))), snd q) n'
      | Undef => Undef end
  | _, _ => Undef
  end.
Definition exec' (o : op K V) : M (L (@mworld K V)) (value K V) :=
  match o with
  | On i o => run1' i (exec1' o)
  | New h p al n => t <- new_table' h p al n ;; quiet (push t) ;;; ret VUnit
  | CopyConstruct j al => w <- get ;; x <- of_option (slot (fst w) j) ;; t <- copy_construct' x al ;; quiet (push t) ;;; ret VUnit
  | MoveConstruct j => t <- run1' j move_construct' ;; quiet (push t) ;;; ret VUnit
  | MoveConstructAl j al => t <- run1' j (move_construct_al' al) ;; quiet (push t) ;;; ret VUnit
  | Destroy i => fun w n =>
      match slot (fst w) i with
      | None => Undef
      | Some t => match destroy_table' (t, snd w) n with
          | Ret _ q n' => Ret VUnit (set (fst w) i None, snd q) n'
          | Exn k q n' => Exn k (set (fst w) i None, snd q) n'
          | Undef => Undef end
      end
  | CopyAssign i j => w <- get ;; x <- of_option (slot (fst w) j) ;; run1' i (copy_assign' x) ;;; ret VUnit
  | MoveAssign i j => run2' i j move_assign' ;;; ret VUnit
  | Swap i j => run2' i j (quiet (swap_tables c)) ;;; ret VUnit
  | Merge i j => run2' i j merge' ;;; ret VUnit
  | Equal i j eeq => quiet (exec c (Equal i j eeq))
  end.
Definition returned' (r : R (L (@mworld K V)) (value K V)) (res : result K V) (w' : L (@mworld K V)) : Prop :=
  match r with Ret v w _ => res = Done v /\ w' = w | Exn k w _ => res = Threw k /\ w' = w | Undef => False end.
(** a program from its start: no container, no call to an allocator yet *)
Inductive runs' : list (op K V * result K V) -> L (@mworld K V) -> Prop :=
| runs'_nil : runs' [] ([], [])
| runs'_snoc rs w o n r w' : runs' rs w -> pre c o (fst w) -> returned' (exec' o w n) r w' -> runs' (rs ++ [(o, r)]) w'.
End Mem.
