(** Iterators of the open-addressing containers: detail/foa/table.hpp l.62-235 (table_iterator),
    l.237-290 (table_erase_return_type), begin/end, erase through iterators. *)
From Coq Require Import NArith Bool List Arith.
From Verif Require Import SizeModel GroupModel FoaModel.
Import ListNotations.
Local Open Scope m_scope.
Local Open Scope N_scope.

(** table.hpp l.230-231: [pc_], a byte of a metadata group, and [p_], an element slot (None: nullptr).
    Addresses are relative to the first group and to elements(); groups are aligned to their
    size, 16, so that address arithmetic modulo sizeof(group_type) is that of the offset. *)
Record iter := It { it_pc : nat; it_p : option nat }.

Section Iter.
Context {K V : Type} (c : Cfg K V).
Notation arrays := (arrays K V).
Notation table := (table K V).

(** a metadata byte *)
Definition byte_at (a : arrays) (pc : nat) : option N :=
  match nth_error (a_groups a) (pc / 16)%nat with
  | Some g => nth_error g (pc mod 16)%nat
  | None => None
  end.
(** table.hpp l.168-185, second loop of [increment(true_type)]; pc is the start of a group *)
Fixpoint inc_groups (fuel : nat) (a : arrays) (pc p : nat) : option iter :=
  match fuel with
  | O => None
  | S fuel' =>
      match nth_error (a_groups a) (pc / 16)%nat with
      | None => None
      | Some g =>
          let mask := b_match_occupied g in
          if negb (mask =? 0) then
            let n := countr_zero mask in
            if b_is_sentinel g n then Some (It pc None) else Some (It (pc + n) (Some (p + n)%nat))
          else inc_groups fuel' a (pc + 16) (p + 15)
      end
  end.
(** table.hpp l.157-166, first loop *)
Fixpoint inc_slots (fuel : nat) (a : arrays) (pc p : nat) : option iter :=
  match fuel with
  | O => None
  | S fuel' =>
      let p := S p in
      if Nat.eqb (pc mod 16) 14 then inc_groups (S (length (a_groups a))) a (pc + 2) p
      else
        let pc := S pc in
        match byte_at a pc with
        | None => None
        | Some b =>
            if b =? 0 then inc_slots fuel' a pc p
            else if b =? 1 then Some (It pc None) else Some (It pc (Some p))
        end
  end.
(** table.hpp l.153-186 [increment(true_type)]: layouts with one byte per slot *)
Definition inc_regular (a : arrays) (it : iter) : option iter :=
  match it_p it with Some p => inc_slots 16 a (it_pc it) p | None => None end.
(** table.hpp l.197-203, the do-while loop of [increment(false_type)]: the group where mask is not zero *)
Fixpoint inc_find (fuel : nat) (a : arrays) (pc p : nat) : option (nat * nat * N) :=
  match fuel with
  | O => None
  | S fuel' =>
      let pc := (pc + 16)%nat in let p := (p + 15)%nat in
      match nth_error (a_groups a) (pc / 16)%nat with
      | None => None
      | Some g => let mask := b_match_occupied g in
                  if mask =? 0 then inc_find fuel' a pc p else Some (pc, p, mask)
      end
  end.
(** table.hpp l.188-215 [increment(false_type)]; is_sentinel(n) as in l.642-650 *)
Definition inc_interleaved (a : arrays) (it : iter) : option iter :=
  match it_p it with
  | None => None
  | Some p =>
      let n0 := (it_pc it mod 16)%nat in
      let pc := (it_pc it - n0)%nat in
      match nth_error (a_groups a) (pc / 16)%nat with
      | None => None
      | Some g =>
          let mask := N.shiftl (N.shiftr (b_match_occupied g) (N.of_nat (n0 + 1))) (N.of_nat (n0 + 1)) in
          match (if mask =? 0 then inc_find (S (length (a_groups a))) a pc p else Some (pc, p, mask)) with
          | None => None
          | Some (pc, p, mask) =>
              match nth_error (a_groups a) (pc / 16)%nat with
              | None => None
              | Some g =>
                  let n := countr_zero mask in
                  if bn_is_sentinel g n then Some (It pc None) else Some (It (pc + n) (Some (p - n0 + n)%nat))
              end
          end
      end
  end.
(** table.hpp l.146-151 [increment] *)
Definition it_next (a : arrays) (it : iter) : option iter :=
  if regular c then inc_regular a it else inc_interleaved a it.
(** table.hpp l.387-393 [begin] *)
Definition it_begin (a : arrays) : option iter :=
  match a_elems a with
  | None => Some (It 0 None)
  | Some _ =>
      match nth_error (a_groups a) 0 with
      | None => None
      | Some g => if N.land (b_match_occupied g) 1 =? 0 then it_next a (It 0 (Some O)) else Some (It 0 (Some O))
      end
  end.
(** table.hpp l.398 [end] *)
Definition it_end : iter := It 0 None.
(** l.125-127 operator==: only the element pointers are compared *)
Definition it_eqb (x y : iter) : bool :=
  match it_p x, it_p y with
  | None, None => true
  | Some i, Some j => Nat.eqb i j
  | _, _ => false
  end.
(** table.hpp l.665-668 [make_iterator(locator)] *)
Definition it_make (l : nat * nat) : iter := It (fst l * 16 + snd l) (Some (slot_index (fst l) (snd l))).
(** l.117-120 operator* *)
Definition it_deref {St} (a : arrays) (it : iter) : M St (K * V) :=
  match it_p it with Some i => read_element a i | None => undef end.

(** for(it=begin();it!=end();++it) visit the element *)
Fixpoint walk {St} (fuel : nat) (a : arrays) (it last : iter) : M St (list (K * V)) :=
  match fuel with
  | O => undef
  | S fuel' =>
      if it_eqb it last then ret []
      else
        e <- it_deref a it ;;
        it' <- of_option (it_next a it) ;;
        r <- walk fuel' a it' last ;;
        ret (e :: r)
  end.
Definition m_iterate {St} (t : table) : M St (list (K * V)) :=
  it <- of_option (it_begin (arr t)) ;;
  walk (S (N.to_nat (capacity (arr t)))) (arr t) it it_end.

(** table.hpp l.480-484 [erase(const_iterator)], core.hpp l.1699-1704 [erase(pc,p)] *)
Definition erase_it (it : iter) : M table unit :=
  match it_p it with
  | None => undef
  | Some p => on_arr (destroy_element p) ;;; recover_slot (it_pc it / 16) (it_pc it mod 16)
  end.
(** with the conversion of the result to an iterator (table.hpp l.257-262): incremented after the erasure *)
Definition m_erase_at (it : iter) : M table iter :=
  erase_it it ;;; t <- get ;; of_option (it_next (arr t) it).
(** unordered_flat_map.hpp l.480-486 [erase(first,last)] *)
Fixpoint m_erase_range (fuel : nat) (first last : iter) : M table iter :=
  match fuel with
  | O => undef
  | S fuel' =>
      if it_eqb first last then ret last
      else
        t <- get ;;
        next <- of_option (it_next (arr t) first) ;;
        erase_it first ;;;
        m_erase_range fuel' next last
  end.
(** the documented loop for(it=begin();it!=end();) if(pr( *it )) it=erase(it); else ++it; with the list of
    visited elements *)
Fixpoint erase_loop (fuel : nat) (pr : K * V -> bool) (it : iter) : M table (list (K * V)) :=
  match fuel with
  | O => undef
  | S fuel' =>
      if it_eqb it it_end then ret []
      else
        t <- get ;;
        e <- it_deref (arr t) it ;;
        it' <- (if pr e then m_erase_at it else of_option (it_next (arr t) it)) ;;
        r <- erase_loop fuel' pr it' ;;
        ret (e :: r)
  end.
(** unordered_flat_map.hpp l.615-643 [find]: the iterator *)
Definition m_find_it (k : K) : M table iter :=
  t <- get ;;
  loc <- find c t k ;;
  match loc with Some l => ret (it_make l) | None => ret it_end end.
(** l.659-720 [equal_range] *)
Definition m_equal_range (k : K) : M table (iter * iter) :=
  it <- m_find_it k ;;
  if it_eqb it it_end then ret (it, it)
  else t <- get ;; next <- of_option (it_next (arr t) it) ;; ret (it, next).
(** l.310-320 insert(const_iterator,value), l.411-414 emplace_hint, l.442-464 try_emplace(const_iterator,...): the hint is
    not used; returns the iterator of the pair *)
Definition m_insert_hint (hint : iter) (e : K * V) : M table iter :=
  r <- m_insert c e ;; ret (it_make (fst r)).
End Iter.
