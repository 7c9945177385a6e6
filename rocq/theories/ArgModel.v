(** The arguments of insertions into the open-addressing containers: detail/foa/table.hpp l.405-472 (emplace, try_emplace, insert), 629-655 (emplace_impl) and the functions of core.hpp
    it calls. The functions of FoaModel.v, with a count of how often a constructor has been called with the arguments (std::forward<Args>(args)...; an rvalue is then moved from).
    For the temporaries of emplace: detail/allocator_constructed.hpp, core.hpp l.1277-1341 (alloc_cted_insert_type, alloc_cted_or_fwded_key_type).
    Simplification: flat containers (in a node container the constructor is called by the construction of the node, after its allocation). *)
From Coq Require Import NArith Bool List Arith.
From Verif Require Import SizeModel GroupModel FoaModel.
Import ListNotations.
Local Open Scope m_scope.
Local Open Scope N_scope.

Section Arg.
Context {K V : Type} (c : Cfg K V).
Notation arrays := (arrays K V). Notation table := (table K V). Notation RS := (@RS K V).

(** an operation that does not use the arguments *)
Definition other {St A} (m : M St A) : M (St * nat) A := lens fst (fun s x => (x, snd s)) m.
(** core.hpp l.1888-1901 [construct_element] with the arguments *)
Definition a_construct_element (kd : kind) (i : nat) (e : K * V) : M (arrays * nat) unit :=
  s <- get ;;
  match get_cell (fst s) i with
  | Some Raw => modify (fun s => (fst s, S (snd s))) ;;; other (tick c kd) ;;; other (put_cell i (Live e))
  | _ => undef
  end.
(** core.hpp l.2366-2385 [nosize_unchecked_emplace_at] *)
Fixpoint a_emplace_loop (fuel : nat) (kd : kind) (hash : N) (e : K * V) (pb : prober) : M (arrays * nat) (nat * nat) :=
  match fuel with
  | O => undef
  | S fuel' =>
      let g := N.to_nat (pb_pos pb) in
      s <- get ;;
      match get_group (fst s) g with
      | None => undef
      | Some b =>
          let mask := b_match_available b in
          if negb (mask =? 0) then
            let n := countr_zero mask in
            a_construct_element kd (slot_index g n) e ;;;
            other (put_group g (fun b => b_set b n hash)) ;;;
            ret (g, n)
          else
            other (put_group g (fun b => b_mark_overflow b hash)) ;;;
            a_emplace_loop fuel' kd hash e (fst (pb_next pb (a_mask (fst s))))
      end
  end.
Definition a_nosize_unchecked_emplace_at (kd : kind) (pos0 hash : N) (e : K * V) : M (arrays * nat) (nat * nat) :=
  s <- get ;;
  a_emplace_loop (S (length (a_groups (fst s)))) kd hash e (pb_init pos0).
Definition a_on_arr {A} (m : M (arrays * nat) A) : M (table * nat) A := lens (fun s => (arr (fst s), snd s)) (fun s x => (set_arr (fst s) (fst x), snd x)) m.
Definition a_on_new {A} (m : M (arrays * nat) A) : M (RS * nat) A := lens (fun s => (rs_new (fst s), snd s)) (fun s x => ((rs_tab (fst s), fst x, snd (fst s)), snd x)) m.
(** core.hpp l.1964-1972 [unchecked_emplace_at] *)
Definition a_unchecked_emplace_at (kd : kind) (pos0 hash : N) (e : K * V) : M (table * nat) (nat * nat) :=
  l <- a_on_arr (a_nosize_unchecked_emplace_at kd pos0 hash e) ;;
  other (modify (fun t => set_sz t (uadd (sz t) 1))) ;;;
  ret l.
Definition a_with_new {A} (na : arrays) (m : M (RS * nat) A) : M (table * nat) A := fun s n =>
  match m ((fst s, na, O), snd s) n with
  | Ret a s' n' => Ret a (rs_tab (fst s'), snd s') n'
  | Exn k s' n' => Exn k (rs_tab (fst s'), snd s') n'
  | Undef => Undef
  end.
(** core.hpp l.1980-2002 [unchecked_emplace_with_rehash], 2119-2133 [new_arrays_for_growth] *)
Definition a_unchecked_emplace_with_rehash (kd : kind) (hash : N) (e : K * V) : M (table * nat) (nat * nat) :=
  s <- get ;;
  na <- other (new_arrays c (aid (fst s)) (growth_request (sz (fst s)))) ;;
  l <- a_with_new na
    (l <- on_exn (a_on_new (a_nosize_unchecked_emplace_at kd (position hash (a_gsi na)) hash e))
                 (other (s <- get ;; delete_arrays (aid (rs_tab s)) (rs_new s))) ;;
     other (unchecked_rehash_body c) ;;;
     ret l) ;;
  other (modify (fun t => set_sz t (uadd (sz t) 1))) ;;;
  ret l.
(** table.hpp l.629-655 [emplace_impl] *)
Definition a_emplace_impl (kd : kind) (e : K * V) : M (table * nat) ((nat * nat) * bool) :=
  s <- get ;;
  let t := fst s in
  hash <- other (hash_for c (hid t) (fst e)) ;;
  let pos0 := position hash (a_gsi (arr t)) in
  loc <- other (find_at c t (fst e) pos0 hash) ;;
  match loc with
  | Some l => ret (l, false)
  | None =>
      if sz t <? ml t then
        l <- a_unchecked_emplace_at kd pos0 hash e ;; ret (l, true)
      else
        l <- a_unchecked_emplace_with_rehash kd hash e ;; ret (l, true)
  end.

(** *** table.hpp: the members. e: the element the arguments make *)
(** l.446-472 [insert], l.415-423 [emplace] with a value, l.437-444 [try_emplace]: the arguments go to emplace_impl *)
Definition insert_args (e : K * V) : M (table * nat) ((nat * nat) * bool) := a_emplace_impl KConstruct e.

(** a temporary object, and how often the arguments have been passed to a constructor: those it is made of (all of emplace's, or the key) and the others *)
Inductive life := Unborn | Alive | MovedFrom | Dead.
Record call := Call { w_t : table; w_args : nat; w_others : nat; w_tmp : life }.
(** allocator_constructed.hpp l.44-49: the constructor *)
Definition make_tmp : M call unit :=
  s <- get ;;
  match w_tmp s with
  | Unborn => put (Call (w_t s) (S (w_args s)) (w_others s) Unborn) ;;; tick c KConstruct ;;; modify (fun s => Call (w_t s) (w_args s) (w_others s) Alive)
  | _ => undef
  end.
(** l.51: the destructor *)
Definition destroy_tmp : M call unit :=
  s <- get ;;
  match w_tmp s with
  | Alive | MovedFrom => put (Call (w_t s) (w_args s) (w_others s) Dead)
  | _ => undef
  end.
(** emplace_impl with the temporary, and possibly other arguments, as arguments: the constructor it is passed to moves from it; it must be alive then *)
Definition from_tmp {A} (with_others : bool) (m : M (table * nat) A) : M call A := fun s n =>
  let back (x : table * nat) :=
    match w_tmp s, snd x with
    | _, O => Some (Call (fst x) (w_args s) (w_others s) (w_tmp s))
    | Alive, S O => Some (Call (fst x) (w_args s) (if with_others then S (w_others s) else w_others s) MovedFrom)
    | _, _ => None
    end in
  match m (w_t s, O) n with
  | Ret a x n' => match back x with Some s' => Ret a s' n' | None => Undef end
  | Exn k x n' => match back x with Some s' => Exn k s' n' | None => Undef end
  | Undef => Undef
  end.
(** l.405-413 [emplace(args...)] in the general case *)
Definition emplace_args (e : K * V) : M call ((nat * nat) * bool) :=
  make_tmp ;;; finally (from_tmp false (a_emplace_impl KTransfer e)) destroy_tmp.
(** l.425-435 [emplace(k,v)] of maps when k is not a key (core.hpp l.1311-1323); when it is a key: insert_args (core.hpp l.1326-1341) *)
Definition emplace_kv (e : K * V) : M call ((nat * nat) * bool) :=
  make_tmp ;;; finally (from_tmp true (a_emplace_impl KConstruct e)) destroy_tmp.
End Arg.
