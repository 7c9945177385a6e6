(** Open-addressing table: detail/foa/core.hpp (table_core) and
    detail/foa/table.hpp (table), as executable state transformers.

    Conventions.
    - An operation is a function of a state and of the number of "events" that
      happened so far. Events are the points where user code or the allocator may throw;
      [throws c kind n] says whether event number n (of that kind) throws. Theorems
      quantify over [throws].
    - [Undef] is undefined behaviour: access out of an array, use of a slot
      that holds no object as an object, construction over a live
      object, writing the shared dummy groups, releasing an array that
      still holds objects (a leak) or with the wrong allocator, an endless loop, an
      allocation size that wraps around.
    - Metadata groups are the 16-byte SSE2 groups of GroupModel.v (the other layouts are
      equivalent, Properties_Arith.C17_layouts_agree). Prefetches, statistics and
      BOOST_ASSUMEs are not modelled. *)
From Coq Require Import NArith Bool List Arith.
From Verif Require Import SizeModel GroupModel.
Import ListNotations.

(** kinds of throwing events: allocation, hash call, predicate call, construction of a
    new element from user arguments, copy/move construction from an existing element *)
Inductive kind := KAlloc | KHash | KEq | KConstruct | KTransfer.

(** Result of an operation. *)
Inductive R (St A : Type) : Type :=
| Ret (a : A) (s : St) (n : nat)
| Exn (k : kind) (s : St) (n : nat)
| Undef.
Arguments Ret {St A}. Arguments Exn {St A}. Arguments Undef {St A}.

(** programs with a state, a counter of the calls of user-supplied functions, exceptions and undefined behaviour; no counterpart in /repo *)
Definition M (St A : Type) := St -> nat -> R St A.
Definition ret {St A} (a : A) : M St A := fun s n => Ret a s n.
Definition undef {St A} : M St A := fun _ _ => Undef.
Definition bind {St A B} (m : M St A) (f : A -> M St B) : M St B := fun s n =>
  match m s n with Ret a s' n' => f a s' n' | Exn k s' n' => Exn k s' n' | Undef => Undef end.
Definition get {St} : M St St := fun s n => Ret s s n.
Definition put {St} (s : St) : M St unit := fun _ n => Ret tt s n.
(** try{ m }catch(...){ h; rethrow } *)
Definition on_exn {St A} (m : M St A) (h : M St unit) : M St A := fun s n =>
  match m s n with
  | Exn k s' n' => match h s' n' with Ret _ s'' n'' => Exn k s'' n'' | Exn _ _ _ => Undef | Undef => Undef end
  | r => r
  end.
(** a destructor running at scope exit, normal or exceptional (must not throw) *)
Definition finally {St A} (m : M St A) (h : M St unit) : M St A := fun s n =>
  match m s n with
  | Ret a s' n' => match h s' n' with Ret _ s'' n'' => Ret a s'' n'' | Exn _ _ _ => Undef | Undef => Undef end
  | Exn k s' n' => match h s' n' with Ret _ s'' n'' => Exn k s'' n'' | Exn _ _ _ => Undef | Undef => Undef end
  | Undef => Undef
  end.
(** run an operation on a component of the state *)
Definition lens {St T A} (g : St -> T) (p : St -> T -> St) (m : M T A) : M St A := fun s n =>
  match m (g s) n with
  | Ret a t n' => Ret a (p s t) n'
  | Exn k t n' => Exn k (p s t) n'
  | Undef => Undef
  end.
Definition of_option {St A} (o : option A) : M St A := match o with Some a => ret a | None => undef end.

Declare Scope m_scope.
Delimit Scope m_scope with m.
Notation "x <- m ;; f" := (bind m (fun x => f)) (at level 61, m at next level, right associativity) : m_scope.
Notation "' p <- m ;; f" := (bind m (fun x => let p := x in f)) (at level 61, p pattern, m at next level, right associativity) : m_scope.
Notation "m1 ;;; m2" := (bind m1 (fun _ => m2)) (at level 61, right associativity) : m_scope.
Local Open Scope m_scope.
Local Open Scope N_scope.

(** size_t arithmetic *)
Definition uadd (a b : N) : N := (a + b) mod 2 ^ 64.
Definition usub (a b : N) : N := (a + (2 ^ 64 - b)) mod 2 ^ 64.

(** Configuration of a container type and of its environment. Hasher, predicate and
    allocator objects are identified by numbers. *)
Record Cfg (K V : Type) := {
  hashf : N -> K -> N;          (** hash object -> key -> (mixed) hash; taken modulo 2^64 *)
  keqf : N -> K -> K -> bool;   (** predicate object *)
  throws : kind -> nat -> bool;
  esz : N;                      (** sizeof(element_type) *)
  gmax : N;                     (** the allocator never provides more than gmax groups *)
  moves : bool;                 (** rehash moves elements (move_if_noexcept, core.hpp l.2336-2341) *)
  pocca : bool; pocma : bool; pocs : bool; (** allocator propagation traits *)
  regular : bool                (** regular_layout: which iterator increment *)
}.
Arguments hashf {K V}. Arguments keqf {K V}. Arguments throws {K V}. Arguments esz {K V}.
Arguments gmax {K V}. Arguments moves {K V}. Arguments pocca {K V}. Arguments pocma {K V}. Arguments pocs {K V}. Arguments regular {K V}.

(** a slot of the elements array: no object, a moved-from object, an element *)
Inductive cell (K V : Type) := Raw | Moved | Live (e : K * V).
Arguments Raw {K V}. Arguments Moved {K V}. Arguments Live {K V}.

(** core.hpp l.1007-1139 [table_arrays]. [a_elems] is None when elements() is null; otherwise it has
    groups*15-1 slots (l.1104-1108). [a_owner] is the allocator the
    arrays come from (not stored in C++). *)
Record arrays (K V : Type) := Arr {
  a_gsi : N; a_mask : N; a_groups : list bytes16; a_elems : option (list (cell K V)); a_owner : N }.
Arguments Arr {K V}. Arguments a_gsi {K V}. Arguments a_mask {K V}. Arguments a_groups {K V}.
Arguments a_elems {K V}. Arguments a_owner {K V}.

(** core.hpp l.1370-1385, 2077-2079: [table_core] = hash, pred, allocator, arrays, size_ctrl{ml,size} *)
Record table (K V : Type) := Tab {
  hid : N; pid : N; aid : N; arr : arrays K V; ml : N; sz : N }.
Arguments Tab {K V}. Arguments hid {K V}. Arguments pid {K V}. Arguments aid {K V}. Arguments arr {K V}.
Arguments ml {K V}. Arguments sz {K V}.

(** writing one entry of an array *)
Definition set_nth {A} (l : list A) (i : nat) (x : A) : list A :=
  firstn i l ++ match skipn i l with [] => [] | _ :: r => x :: r end.

Section Foa.
Context {K V : Type} (c : Cfg K V).
Notation arrays := (arrays K V).
Notation table := (table K V).
Notation cell := (cell K V).

(** a call of a user-supplied function, which may throw; no counterpart in /repo *)
Definition tick {St} (k : kind) : M St unit := fun s n =>
  if throws c k n then Exn k s (S n) else Ret tt s (S n).

(** core.hpp l.1941-1945 [hash_for] *)
Definition hash_of (h : N) (k : K) : N := hashf c h k mod 2 ^ 64.
Definition hash_for {St} (h : N) (k : K) : M St N := tick KHash ;;; ret (hash_of h k).

(** *** Arrays *)

(** core.hpp l.1809-1812 [capacity] *)
Definition capacity (a : arrays) : N :=
  match a_elems a with Some _ => (a_mask a + 1) * GN - 1 | None => 0 end.

(** core.hpp l.943-959: arrays of an empty container without storage *)
Definition dummy_arrays (al : N) : arrays :=
  Arr 63 1 [b_dummy; b_dummy] None al.

(** core.hpp l.1081-1090 [table_arrays::new_], 1029-1079 [set_arrays], 1116-1133 [initialize_groups],
    2114-2117 [new_arrays] *)
Definition new_arrays {St} (al : N) (n : N) : M St arrays :=
  if n =? 0 then ret (dummy_arrays al)
  else if 2 ^ 64 <=? n then undef
  else
    let gsi := size_index_for n in
    let gs := size_of gsi in
    if negb (buffer_fits (esz c) gs) then undef
    else if gmax c <? gs then (fun s m => Exn KAlloc s m)
    else
      tick KAlloc ;;;
      let groups := repeat b_initialize (N.to_nat gs) in
      ret (Arr gsi (gs - 1) (set_nth groups (N.to_nat gs - 1) (b_set_sentinel b_initialize))
               (Some (repeat Raw (N.to_nat (gs * GN - 1)))) al).

(** core.hpp l.1092-1101 [delete_], 2135-2138 [delete_arrays] *)
Definition is_raw (x : cell) : bool := match x with Raw => true | _ => false end.
Definition delete_arrays {St} (al : N) (a : arrays) : M St unit :=
  match a_elems a with
  | None => ret tt
  | Some cs => if forallb is_raw cs && (a_owner a =? al) then ret tt else undef
  end.

(** core.hpp l.1034 [groups()], reading one group *)
Definition get_group (a : arrays) (g : nat) : option bytes16 := nth_error (a_groups a) g.
(** writing a group: never the shared dummy groups *)
Definition put_group (g : nat) (f : bytes16 -> bytes16) : M arrays unit := fun a n =>
  match a_elems a, nth_error (a_groups a) g with
  | Some _, Some b => Ret tt (Arr (a_gsi a) (a_mask a) (set_nth (a_groups a) g (f b)) (a_elems a) (a_owner a)) n
  | _, _ => Undef
  end.

(** core.hpp l.1033 [elements()], reading one slot; below: writing one *)
Definition get_cell (a : arrays) (i : nat) : option cell :=
  match a_elems a with Some cs => nth_error cs i | None => None end.
Definition put_cell (i : nat) (x : cell) : M arrays unit := fun a n =>
  match a_elems a with
  | Some cs => match nth_error cs i with
     | Some _ => Ret tt (Arr (a_gsi a) (a_mask a) (a_groups a) (Some (set_nth cs i x)) (a_owner a)) n
     | None => Undef end
  | None => Undef
  end.
(** core.hpp l.1888-1901 [construct_element]: [kd] says what is being constructed *)
Definition construct_element (kd : kind) (i : nat) (e : K * V) : M arrays unit :=
  a <- get ;;
  match get_cell a i with
  | Some Raw => tick kd ;;; put_cell i (Live e)
  | _ => undef
  end.
(** core.hpp l.1903-1906 [destroy_element] *)
Definition destroy_element (i : nat) : M arrays unit :=
  a <- get ;;
  match get_cell a i with
  | Some Raw | None => undef
  | Some _ => put_cell i Raw
  end.
(** reading an element through its slot *)
Definition read_element {St} (a : arrays) (i : nat) : M St (K * V) :=
  match get_cell a i with Some (Live e) => ret e | _ => undef end.

(** flat index of slot n of group g: [elements+pos*N+n] *)
Definition slot_index (g n : nat) : nat := (g * 15 + n)%nat.

(** core.hpp l.1958-1962 [match_really_occupied] *)
Definition match_really_occupied (b : bytes16) (is_last : bool) : N :=
  N.land (b_match_occupied b) (N.lnot (if is_last then N.shiftl 1 14 else 0) 32).

(** core.hpp l.2056-2074 [for_all_elements_while] on the arrays selected by [sel]; [f g n] returns
    whether to go on. *)
Fixpoint fa_mask {St} (f : nat -> nat -> M St bool) (g : nat) (ns : list nat) : M St bool :=
  match ns with
  | [] => ret true
  | n :: r => b <- f g n ;; if b then fa_mask f g r else ret false
  end.
Fixpoint fa_groups {St} (sel : St -> arrays) (f : nat -> nat -> M St bool) (last : nat) (rem : nat) (g : nat) : M St bool :=
  match rem with
  | O => ret true
  | S rem' =>
      s <- get ;;
      match get_group (sel s) g with
      | None => undef
      | Some b =>
          go <- fa_mask f g (mask_loop 16 (match_really_occupied b (Nat.eqb (S g) last))) ;;
          if go : bool then fa_groups sel f last rem' (S g) else ret false
      end
  end.
Definition for_all_while {St} (sel : St -> arrays) (f : nat -> nat -> M St bool) : M St bool :=
  s <- get ;;
  match a_elems (sel s) with
  | None => ret true
  | Some _ => let last := N.to_nat (a_mask (sel s) + 1) in fa_groups sel f last last 0
  end.
(** core.hpp l.2022-2043 [for_all_elements] *)
Definition for_all {St} (sel : St -> arrays) (f : nat -> nat -> M St unit) : M St unit :=
  for_all_while sel (fun g n => f g n ;;; ret true) ;;; ret tt.

(** *** Lookup: core.hpp l.1719-1755 [find(x,pos0,hash)] *)
Fixpoint find_in_group {St} (p : N) (a : arrays) (k : K) (g : nat) (ns : list nat) : M St (option nat) :=
  match ns with
  | [] => ret None
  | n :: r =>
      e <- read_element a (slot_index g n) ;;
      tick KEq ;;;
      if keqf c p k (fst e) then ret (Some n) else find_in_group p a k g r
  end.
Fixpoint find_loop {St} (fuel : nat) (p : N) (a : arrays) (k : K) (hash : N) (pb : prober) : M St (option (nat * nat)) :=
  match fuel with
  | O => undef
  | S fuel' =>
      let g := N.to_nat (pb_pos pb) in
      match get_group a g with
      | None => undef
      | Some b =>
          let mask := b_match b hash in
          r <- (if mask =? 0 then ret None else find_in_group p a k g (mask_loop 16 mask)) ;;
          match r with
          | Some n => ret (Some (g, n))
          | None =>
              if b_is_not_overflowed b hash then ret None
              else let '(pb', more) := pb_next pb (a_mask a) in
                   if more then find_loop fuel' p a k hash pb' else ret None
          end
      end
  end.
Definition find_at {St} (t : table) (k : K) (pos0 hash : N) : M St (option (nat * nat)) :=
  find_loop (S (length (a_groups (arr t)))) (pid t) (arr t) k hash (pb_init pos0).
(** core.hpp l.1706-1711 [find(x)], 1947-1956 [position_for] *)
Definition find {St} (t : table) (k : K) : M St (option (nat * nat)) :=
  hash <- hash_for (hid t) k ;;
  find_at t k (position hash (a_gsi (arr t))) hash.

(** *** Insertion: core.hpp l.2366-2385 [nosize_unchecked_emplace_at] *)
Fixpoint emplace_loop (fuel : nat) (kd : kind) (hash : N) (e : K * V) (pb : prober) : M arrays (nat * nat) :=
  match fuel with
  | O => undef
  | S fuel' =>
      let g := N.to_nat (pb_pos pb) in
      a <- get ;;
      match get_group a g with
      | None => undef
      | Some b =>
          let mask := b_match_available b in
          if negb (mask =? 0) then
            let n := countr_zero mask in
            construct_element kd (slot_index g n) e ;;;
            put_group g (fun b => b_set b n hash) ;;;
            ret (g, n)
          else
            put_group g (fun b => b_mark_overflow b hash) ;;;
            emplace_loop fuel' kd hash e (fst (pb_next pb (a_mask a)))
      end
  end.
Definition nosize_unchecked_emplace_at (kd : kind) (pos0 hash : N) (e : K * V) : M arrays (nat * nat) :=
  a <- get ;;
  emplace_loop (S (length (a_groups a))) kd hash e (pb_init pos0).

(** lenses *)
Definition set_arr (t : table) (a : arrays) : table := Tab (hid t) (pid t) (aid t) a (ml t) (sz t).
Definition set_ml (t : table) (m : N) : table := Tab (hid t) (pid t) (aid t) (arr t) m (sz t).
Definition set_sz (t : table) (s : N) : table := Tab (hid t) (pid t) (aid t) (arr t) (ml t) s.
Definition set_hp (t : table) (h p : N) : table := Tab h p (aid t) (arr t) (ml t) (sz t).
Definition set_al (t : table) (al : N) : table := Tab (hid t) (pid t) al (arr t) (ml t) (sz t).
Definition on_arr {A} (m : M arrays A) : M table A := lens arr set_arr m.
Definition modify {St} (f : St -> St) : M St unit := fun s n => Ret tt (f s) n.

(** core.hpp l.1964-1972 [unchecked_emplace_at] *)
Definition unchecked_emplace_at (kd : kind) (pos0 hash : N) (e : K * V) : M table (nat * nat) :=
  l <- on_arr (nosize_unchecked_emplace_at kd pos0 hash e) ;;
  modify (fun t => set_sz t (uadd (sz t) 1)) ;;;
  ret l.
(** core.hpp l.2324-2329 [unchecked_insert] *)
Definition unchecked_insert (kd : kind) (e : K * V) : M table unit :=
  t <- get ;;
  hash <- hash_for (hid t) (fst e) ;;
  unchecked_emplace_at kd (position hash (a_gsi (arr t))) hash e ;;;
  ret tt.

(** *** Erasure: core.hpp l.2260-2274 [recover_slot] (note: maybe_caused_overflow reads the control byte before reset) *)
Definition recover_slot (g n : nat) : M table unit :=
  t <- get ;;
  match get_group (arr t) g with
  | None => undef
  | Some b =>
      modify (fun t => set_ml t (usub (ml t) (if b_maybe_caused_overflow b n then 1 else 0))) ;;;
      on_arr (put_group g (fun b => b_reset b n)) ;;;
      modify (fun t => set_sz t (usub (sz t) 1))
  end.
(** core.hpp l.1692-1704 [erase] *)
Definition erase_at (g n : nat) : M table unit :=
  on_arr (destroy_element (slot_index g n)) ;;;
  recover_slot g n.

(** *** Rehashing *)
Definition init_ml (a : arrays) : N := initial_max_load (capacity a).
(** core.hpp l.2331-2364 [nosize_transfer_element]; state: table, new arrays, num_destroyed *)
Definition RS := (table * arrays * nat)%type.
Definition rs_tab : RS -> table := fun s => fst (fst s).
Definition rs_new : RS -> arrays := fun s => snd (fst s).
Definition on_tab {A} (m : M table A) : M RS A := lens rs_tab (fun s t => (t, rs_new s, snd s)) m.
Definition on_new {A} (m : M arrays A) : M RS A := lens rs_new (fun s a => (rs_tab s, a, snd s)) m.
Definition transfer_element (g n : nat) : M RS unit :=
  s <- get ;;
  e <- read_element (arr (rs_tab s)) (slot_index g n) ;;
  hash <- hash_for (hid (rs_tab s)) (fst e) ;;
  let pos := position hash (a_gsi (rs_new s)) in
  if moves c then
    modify (fun s => (fst s, S (snd s))) ;;;
    finally (on_new (nosize_unchecked_emplace_at KTransfer pos hash e) ;;;
             on_tab (on_arr (put_cell (slot_index g n) Moved)))
            (on_tab (on_arr (destroy_element (slot_index g n))))
  else
    on_new (nosize_unchecked_emplace_at KTransfer pos hash e) ;;; ret tt.
(** run with a local variable [new_arrays_] *)
Definition with_new {A} (na : arrays) (m : M RS A) : M table A := fun t n =>
  match m (t, na, O) n with
  | Ret a s n' => Ret a (rs_tab s) n'
  | Exn k s n' => Exn k (rs_tab s) n'
  | Undef => Undef
  end.
(** core.hpp l.2287-2322 [unchecked_rehash(new_arrays_)] *)
Definition rehash_loop : M RS unit :=
  on_exn (for_all (fun s => arr (rs_tab s)) transfer_element)
    (s <- get ;;
     (if Nat.eqb (snd s) 0 then ret tt
      else for_all_while (fun s => arr (rs_tab s))
             (fun g n => on_tab (recover_slot g n) ;;;
                         modify (fun s => (fst s, Nat.pred (snd s))) ;;;
                         s <- get ;; ret (negb (Nat.eqb (snd s) 0))) ;;;
           ret tt) ;;;
     for_all rs_new (fun g n => on_new (destroy_element (slot_index g n))) ;;;
     s <- get ;;
     delete_arrays (aid (rs_tab s)) (rs_new s)).
Definition unchecked_rehash_body : M RS unit :=
  rehash_loop ;;;
  s <- get ;;
  (if negb (N.of_nat (snd s) =? sz (rs_tab s)) then
     for_all (fun s => arr (rs_tab s)) (fun g n => on_tab (on_arr (destroy_element (slot_index g n))))
   else ret tt) ;;;
  s <- get ;;
  delete_arrays (aid (rs_tab s)) (arr (rs_tab s)) ;;;
  modify (fun s => (set_ml (set_arr (rs_tab s) (rs_new s)) (init_ml (rs_new s)), rs_new s, snd s)).
(** core.hpp l.2281-2285 [unchecked_rehash(n)] *)
Definition unchecked_rehash (n : N) : M table unit :=
  t <- get ;;
  na <- new_arrays (aid t) n ;;
  with_new na unchecked_rehash_body.
(** core.hpp l.1980-2002 [unchecked_emplace_with_rehash], 2119-2133 [new_arrays_for_growth] *)
Definition unchecked_emplace_with_rehash (kd : kind) (hash : N) (e : K * V) : M table (nat * nat) :=
  t <- get ;;
  na <- new_arrays (aid t) (growth_request (sz t)) ;;
  l <- with_new na
    (l <- on_exn (on_new (nosize_unchecked_emplace_at kd (position hash (a_gsi na)) hash e))
                 (s <- get ;; delete_arrays (aid (rs_tab s)) (rs_new s)) ;;
     unchecked_rehash_body ;;;
     ret l) ;;
  modify (fun t => set_sz t (uadd (sz t) 1)) ;;;
  ret l.
(** table.hpp l.629-655 [emplace_impl] *)
Definition emplace_impl (kd : kind) (e : K * V) : M table ((nat * nat) * bool) :=
  t <- get ;;
  hash <- hash_for (hid t) (fst e) ;;
  let pos0 := position hash (a_gsi (arr t)) in
  loc <- find_at t (fst e) pos0 hash ;;
  match loc with
  | Some l => ret (l, false)
  | None =>
      if sz t <? ml t then
        l <- unchecked_emplace_at kd pos0 hash e ;; ret (l, true)
      else
        l <- unchecked_emplace_with_rehash kd hash e ;; ret (l, true)
  end.

(** core.hpp l.1824-1831 [rehash] *)
Definition rehash (n : N) : M table unit :=
  t <- get ;;
  if negb (ceil_div_mlf_ok (sz t)) then undef
  else
    let m := ceil_div_mlf (sz t) in
    let n := if n <? m then m else n in
    let n := if n =? 0 then 0 else capacity_for n in
    if negb (n =? capacity (arr t)) then unchecked_rehash n else ret tt.
(** core.hpp l.1833-1836 [reserve] *)
Definition reserve (n : N) : M table unit :=
  if negb (ceil_div_mlf_ok n) then undef else rehash (ceil_div_mlf n).
(** core.hpp l.2004-2020 [noshrink_reserve] *)
Definition noshrink_reserve (n : N) : M table unit :=
  if n =? 0 then ret tt
  else if negb (ceil_div_mlf_ok n) then undef
  else
    let n := capacity_for (ceil_div_mlf n) in
    t <- get ;;
    if capacity (arr t) <? n then
      na <- new_arrays (aid t) n ;;
      delete_arrays (aid t) (arr t) ;;;
      modify (fun t => set_ml (set_arr t na) (init_ml na))
    else ret tt.

(** core.hpp l.1786-1804 [clear] *)
Fixpoint clear_mask (g : nat) (ns : list nat) : M table unit :=
  match ns with
  | [] => ret tt
  | n :: r => on_arr (destroy_element (slot_index g n)) ;;; clear_mask g r
  end.
Fixpoint clear_groups (last rem g : nat) : M table unit :=
  match rem with
  | O => ret tt
  | S rem' =>
      t <- get ;;
      match get_group (arr t) g with
      | None => undef
      | Some b =>
          clear_mask g (mask_loop 16 (match_really_occupied b (Nat.eqb (S g) last))) ;;;
          on_arr (put_group g (fun _ => b_initialize)) ;;;
          clear_groups last rem' (S g)
      end
  end.
Definition clear : M table unit :=
  t <- get ;;
  match a_elems (arr t) with
  | None => ret tt
  | Some _ =>
      let last := N.to_nat (a_mask (arr t) + 1) in
      clear_groups last last 0 ;;;
      on_arr (put_group (N.to_nat (a_mask (arr t))) b_set_sentinel) ;;;
      modify (fun t => set_sz (set_ml t (init_ml (arr t))) 0)
  end.

(** *** Construction and destruction *)
(** core.hpp l.1469-1476: constructor with bucket count, hash, pred, allocator *)
Definition new_table {St} (h p al n : N) : M St table :=
  a <- new_arrays al n ;;
  ret (Tab h p al a (init_ml a) 0).
(** core.hpp l.1550-1556 destructor; the table ceases to exist *)
Definition destroy_table : M table unit :=
  for_all arr (fun g n => on_arr (destroy_element (slot_index g n))) ;;;
  t <- get ;;
  delete_arrays (aid t) (arr t).
(** a delegating constructor: if [body] throws, the already constructed object is destroyed *)
Definition construct_then {St} (mk : M St table) (body : M (table * St) unit) : M St table := fun s n =>
  match mk s n with
  | Ret t s1 n1 =>
      match body (t, s1) n1 with
      | Ret _ ts n2 => Ret (fst ts) (snd ts) n2
      | Exn k ts n2 => match destroy_table (fst ts) n2 with Ret _ _ n3 => Exn k (snd ts) n3 | _ => Undef end
      | Undef => Undef
      end
  | Exn k s1 n1 => Exn k s1 n1
  | Undef => Undef
  end.
Definition on_fst {St A} (m : M table A) : M (table * St) A := lens fst (fun s t => (t, snd s)) m.
Definition on_snd {St A} (m : M St A) : M (table * St) A := lens snd (fun s x => (fst s, x)) m.

(** core.hpp l.2205-2229 [copy_elements_array_from], element by element with clean-up on exception. The memcpy
    variant (l.2191-2203) gives the same slots without any event. State: the table and num_constructed. *)
Definition copy_elements_array_from (x : table) : M (table * nat) unit :=
  on_exn
    (for_all (fun _ => arr x)
      (fun g n =>
         e <- read_element (arr x) (slot_index g n) ;;
         on_fst (on_arr (construct_element KTransfer (slot_index g n) e)) ;;;
         modify (fun s => (fst s, S (snd s)))))
    (s <- get ;;
     if Nat.eqb (snd s) 0 then ret tt
     else for_all_while (fun _ => arr x)
            (fun g n => on_fst (on_arr (destroy_element (slot_index g n))) ;;;
                        modify (fun s => (fst s, Nat.pred (snd s))) ;;;
                        s <- get ;; ret (negb (Nat.eqb (snd s) 0))) ;;;
          ret tt).
Definition with_counter {A} (m : M (table * nat) A) : M table A := fun t n =>
  match m (t, O) n with
  | Ret a s n' => Ret a (fst s) n'
  | Exn k s n' => Exn k (fst s) n'
  | Undef => Undef
  end.
(** core.hpp l.2181-2189 [fast_copy_elements_from], 2231-2258 [copy_groups_array_from] *)
Definition fast_copy_elements_from (x : table) : M table unit :=
  t <- get ;;
  match a_elems (arr t), a_elems (arr x) with
  | Some _, Some _ =>
      with_counter (copy_elements_array_from x) ;;;
      modify (fun t => Tab (hid t) (pid t) (aid t)
        (Arr (a_gsi (arr t)) (a_mask (arr t)) (a_groups (arr x)) (a_elems (arr t)) (a_owner (arr t)))
        (ml x) (sz x))
  | _, _ => ret tt
  end.
(** core.hpp l.2167-2179 [copy_elements_from] *)
Definition copy_elements_from (x : table) : M table unit :=
  t <- get ;;
  if a_mask (arr t) =? a_mask (arr x) then fast_copy_elements_from x
  else for_all (fun _ => arr x)
         (fun g n => e <- read_element (arr x) (slot_index g n) ;; unchecked_insert KTransfer e).
(** core.hpp l.1519-1523 copy constructor with allocator; l.1497-1498 uses
    select_on_container_copy_construction(x.al()) *)
Definition copy_construct {St} (x : table) (al : N) : M St table :=
  if negb (ceil_div_mlf_ok (sz x)) then undef
  else construct_then (new_table (hid x) (pid x) al (ceil_div_mlf (sz x)))
                      (on_fst (copy_elements_from x)).
(** core.hpp l.1500-1517 move constructor; state: x. The moved-from hash and pred
    objects of x are taken to keep their value. *)
Definition move_construct : M table table :=
  x <- get ;;
  ah <- new_arrays (aid x) 0 ;;
  put (Tab (hid x) (pid x) (aid x) ah (init_ml ah) 0) ;;;
  ret (Tab (hid x) (pid x) (aid x) (arr x) (ml x) (sz x)).
(** moving the elements of x (second component) into this (core.hpp l.1542-1544, 1671-1673), x being cleared
    at scope exit (l.1536, 1664: clear_on_exit) *)
Definition move_elements : M (table * table) unit :=
  finally
    (for_all (fun s => arr (snd s))
      (fun g n =>
        s <- get ;;
        e <- read_element (arr (snd s)) (slot_index g n) ;;
        on_fst (unchecked_insert KTransfer e) ;;;
        on_snd (on_arr (put_cell (slot_index g n) Moved))))
    (on_snd clear).
(** core.hpp l.1525-1548 move constructor with allocator, 2104-2112; state: x *)
Definition move_construct_al (al : N) : M table table :=
  x <- get ;;
  construct_then (new_table (hid x) (pid x) al 0)
    (s <- get ;;
     if al =? aid (snd s) then
       put (Tab (hid (fst s)) (pid (fst s)) (aid (fst s)) (arr (snd s)) (ml (snd s)) (sz (snd s)),
            Tab (hid (snd s)) (pid (snd s)) (aid (snd s)) (arr (fst s)) (ml (fst s)) (sz (fst s)))
     else
       on_fst (reserve (sz (snd s))) ;;; move_elements).

(** core.hpp l.1576-1614 copy assignment (this != &x); x is const *)
Definition copy_assign (x : table) : M table unit :=
  clear ;;;
  modify (fun t => set_hp t (hid x) (pid x)) ;;;
  (if pocca c then
     t <- get ;;
     (if negb (aid t =? aid x) then
        if negb (ceil_div_mlf_ok (sz x)) then undef else
        ah <- new_arrays (aid x) (ceil_div_mlf (sz x)) ;;
        delete_arrays (aid t) (arr t) ;;;
        modify (fun t => set_ml (set_arr t ah) (init_ml ah))
      else ret tt) ;;;
     modify (fun t => set_al t (aid x))
   else ret tt) ;;;
  noshrink_reserve (sz x) ;;;
  copy_elements_from x.

(** core.hpp l.1648-1649, 1662-1663: swap(h(),x.h()); swap(pred(),x.pred()); *)
Definition swap_hp : M (table * table) unit :=
  modify (fun s => (set_hp (fst s) (hid (snd s)) (pid (snd s)), set_hp (snd s) (hid (fst s)) (pid (fst s)))).
(** core.hpp l.1621-1680 move assignment (this != &x); state: (this, x) *)
Definition move_assign : M (table * table) unit :=
  on_fst clear ;;;
  s <- get ;;
  if pocma c || (aid (fst s) =? aid (snd s)) then
    ah <- new_arrays (aid (snd s)) 0 ;;
    swap_hp ;;;
    s <- get ;;
    delete_arrays (aid (fst s)) (arr (fst s)) ;;;
    modify (fun s => (set_al (fst s) (if pocma c then aid (snd s) else aid (fst s)), snd s)) ;;;
    modify (fun s => (set_sz (set_ml (set_arr (fst s) (arr (snd s))) (ml (snd s))) (sz (snd s)), snd s)) ;;;
    modify (fun s => (fst s, set_sz (set_ml (set_arr (snd s) ah) (init_ml ah)) 0))
  else
    swap_hp ;;;
    s <- get ;;
    on_fst (noshrink_reserve (sz (snd s))) ;;;
    move_elements.

(** core.hpp l.1761-1784 [swap]; unequal allocators that do not propagate are a precondition violation *)
Definition swap_tables : M (table * table) unit :=
  s <- get ;;
  (if pocs c then modify (fun s => (set_al (fst s) (aid (snd s)), set_al (snd s) (aid (fst s))))
   else if aid (fst s) =? aid (snd s) then ret tt else undef) ;;;
  swap_hp ;;;
  modify (fun s => (set_arr (fst s) (arr (snd s)), set_arr (snd s) (arr (fst s)))) ;;;
  modify (fun s => (set_sz (set_ml (fst s) (ml (snd s))) (sz (snd s)), set_sz (set_ml (snd s) (ml (fst s))) (sz (fst s)))).

(** table.hpp l.522-533 [merge] and 612-622 [erase_on_exit]; state: (this, x). On exception the current element of x is
    erased too. *)
Definition merge_step (g n : nat) : M (table * table) unit := fun s m =>
  match read_element (arr (snd s)) (slot_index g n) s m with
  | Ret e s m =>
      match on_fst (emplace_impl KTransfer e) s m with
      | Ret (_, true) s m => (on_snd (on_arr (put_cell (slot_index g n) Moved)) ;;; on_snd (erase_at g n)) s m
      | Ret (_, false) s m => Ret tt s m
      | Exn k s m => match on_snd (erase_at g n) s m with Ret _ s m => Exn k s m | _ => Undef end
      | Undef => Undef
      end
  | Exn k s m => Exn k s m
  | Undef => Undef
  end.
Definition merge : M (table * table) unit := for_all (fun s => arr (snd s)) merge_step.
(** x.merge(x) *)
Definition merge_self : M table unit :=
  for_all arr (fun g n =>
    t <- get ;;
    e <- read_element (arr t) (slot_index g n) ;;
    r <- emplace_impl KTransfer e ;;
    if (snd r : bool) then undef (* would erase after moving onto itself; never happens *) else ret tt).

(** core.hpp l.1870-1880 [operator==]; [eeq] is operator== of value_type *)
Definition equal_tables {St} (eeq : K * V -> K * V -> bool) (x y : table) : M St bool :=
  if sz x =? sz y then
    for_all_while (fun _ => arr x)
      (fun g n =>
        e <- read_element (arr x) (slot_index g n) ;;
        loc <- find y (fst e) ;;
        match loc with
        | None => ret false
        | Some (g', n') => e' <- read_element (arr y) (slot_index g' n') ;; ret (eeq e e')
        end)
  else ret false.

(** table.hpp l.562-579 [erase_if]. The predicate may be stateful: its answer depends on the elements it was
    called with before; the state carries that log. Each call is a KEq event. *)
Definition erase_if (pr : list (K * V) -> K * V -> bool) : M (table * list (K * V)) N :=
  s0 <- get ;;
  for_all (fun s => arr (fst s)) (fun g n =>
    s <- get ;;
    e <- read_element (arr (fst s)) (slot_index g n) ;;
    modify (fun s => (fst s, snd s ++ [e])) ;;;
    tick KEq ;;;
    if pr (snd s) e then on_fst (erase_at g n) else ret tt) ;;;
  s <- get ;;
  ret (usub (sz (fst s0)) (sz (fst s))).

(** *** Container operations: unordered_flat_map.hpp (unordered_node_map.hpp is the same text) *)
(** insert, emplace, try_emplace (l.299-345, 402-465; table.hpp l.412-472) *)
Definition m_insert (e : K * V) : M table ((nat * nat) * bool) := emplace_impl KConstruct e.
(** insert(first,last), insert(il), insert_range (l.322-343) *)
Fixpoint m_insert_range (l : list (K * V)) : M table unit :=
  match l with [] => ret tt | e :: r => m_insert e ;;; m_insert_range r end.
(** operator=(initializer_list) (l.258-263) *)
Definition m_assign_list (l : list (K * V)) : M table unit := clear ;;; m_insert_range l.
(** insert_or_assign (l.345-365); assignment to the mapped value is a KConstruct event *)
Definition m_insert_or_assign (k : K) (v : V) : M table bool :=
  r <- m_insert (k, v) ;;
  let '((g, n), b) := r in
  if b : bool then ret true
  else
    t <- get ;;
    e <- read_element (arr t) (slot_index g n) ;;
    tick KConstruct ;;;
    on_arr (put_cell (slot_index g n) (Live (fst e, v))) ;;;
    ret false.
(** operator[] (l.583-600); [dv] is the value-initialized mapped value; returns the referenced value *)
Definition m_index (dv : V) (k : K) : M table V :=
  r <- m_insert (k, dv) ;;
  t <- get ;;
  e <- read_element (arr t) (slot_index (fst (fst r)) (snd (fst r))) ;;
  ret (snd e).
(** find (l.615-643): the element found *)
Definition m_find (k : K) : M table (option (K * V)) :=
  t <- get ;;
  loc <- find t k ;;
  match loc with
  | None => ret None
  | Some (g, n) => e <- read_element (arr t) (slot_index g n) ;; ret (Some e)
  end.
(** at (l.532-580): None stands for the std::out_of_range exception *)
Definition m_at (k : K) : M table (option V) := r <- m_find k ;; ret (option_map snd r).
(** count (l.602-613) and contains (l.645-657) *)
Definition m_count (k : K) : M table N := r <- m_find k ;; ret (match r with Some _ => 1 | None => 0 end).
Definition m_contains (k : K) : M table bool := r <- m_find k ;; ret (match r with Some _ => true | None => false end).
(** table.hpp l.485-496 [erase(key)] *)
Definition m_erase (k : K) : M table N :=
  t <- get ;;
  loc <- find t k ;;
  match loc with
  | None => ret 0
  | Some (g, n) => erase_at g n ;;; ret 1
  end.
End Foa.
