(** Closed-addressing containers: detail/fca.hpp (bucket array) and detail/implementation.hpp (table), as executable state transformers over the monad of
    FoaModel.v (events that may throw; [Undef] is undefined behaviour).

    Conventions and simplifications.
    - A node is an allocated object with an identity (its address) and the allocator it came from. The singly linked list of a bucket is the
      list of its nodes; a pointer to a node is its identity, and following it from a bucket that does not hold it is undefined.
    - The heap counts the nodes that are allocated and numbers new ones; it shows leaks and double deletions. Bucket arrays record the allocator they came
      from; releasing one with another allocator, or one that still has nodes, is undefined.
    - std::size_t has 64 bits. Hash values are used unmixed (prime_fmod_size policy, HashArithModel.v).
    - Iterators of containers that are not modified meanwhile are traversed eagerly. *)
From Coq Require Import NArith ZArith Bool List Arith.
From Verif Require Import FloatModel HashArithModel FoaModel FcaLinks.
Import ListNotations.
Local Open Scope m_scope.

(** what the containers are instantiated with: template parameters and the behaviour of the user-supplied types; no counterpart in /repo *)
Record FCfg (K V : Type) := {
  base : Cfg K V;                    (** hash, predicate, throwing points, allocator propagation *)
  multi : bool;                      (** unordered_multimap / unordered_multiset *)
  leftover : K * V -> K * V          (** what moving from an element leaves in it *)
}.
Arguments base {K V}. Arguments multi {K V}. Arguments leftover {K V}.

(** fca.hpp l.164-183 [node]: the value. Simplification: an identity instead of the address, the allocator that made it; the links are in FcaLinks.v *)
Record node (K V : Type) := Nd { nd_id : nat; nd_al : N; nd_kv : K * V }.
Arguments Nd {K V}. Arguments nd_id {K V}. Arguments nd_al {K V}. Arguments nd_kv {K V}.

(** fca.hpp l.525-528 [grouped_bucket_array]: size_index_, size_, buckets (size_+1 of them), groups. [b_own]: the allocator the arrays come from. *)
Record barray (K V : Type) := BA { b_idx : nat; b_size : nat; b_chains : list (list (node K V)); b_groups : list group; b_own : N }.
Arguments BA {K V}. Arguments b_idx {K V}. Arguments b_size {K V}. Arguments b_chains {K V}. Arguments b_groups {K V}. Arguments b_own {K V}.

(** implementation.hpp l.1267-1270 and the function objects; f_al is the node allocator kept in buckets_. mlf_: None is +infinity, otherwise the value
    times 2^149 *)
Record table (K V : Type) := FT { f_hid : N; f_pid : N; f_al : N; f_size : N; f_mlf : option Z; f_ml : N; f_b : barray K V }.
Arguments FT {K V}. Arguments f_hid {K V}. Arguments f_pid {K V}. Arguments f_al {K V}. Arguments f_size {K V}. Arguments f_mlf {K V}. Arguments f_ml {K V}. Arguments f_b {K V}.

(** nodes allocated and not freed, and the next identity; stands for the allocator, no counterpart in /repo *)
Record heap := Hp { live : nat; next : nat }.

(** element iterator (implementation.hpp l.1055-1083): node pointer and bucket iterator *)
Record eit := EI { e_p : option nat; e_b : biter }.
(** l.1337 [end] *)
Definition e_end : eit := EI None (BI 0 None).
(** l.1068 [equal] *)
Definition e_eqb (x y : eit) : bool :=
  match e_p x, e_p y with None, None => true | Some i, Some j => Nat.eqb i j | _, _ => false end.

Section Fca.
Context {K V : Type} (c : FCfg K V).
Notation node := (node K V).
Notation barray := (barray K V).
Notation table := (table K V).
Notation cb := (base c).
Notation St := (table * heap)%type.
(** implementation.hpp l.1708-1711 [get_key]: extractor::extract *)
Definition nkey (x : node) : K := fst (nd_kv x).

(** *** Lists of nodes *)
(** the nodes after the node with identity i, None if there is no such node *)
Fixpoint after (i : nat) (l : list node) : option (list node) :=
  match l with [] => None | x :: r => if Nat.eqb (nd_id x) i then Some r else after i r end.
Fixpoint lookup_id (i : nat) (l : list node) : option node :=
  match l with [] => None | x :: r => if Nat.eqb (nd_id x) i then Some x else lookup_id i r end.
Fixpoint remove_id (i : nat) (l : list node) : option (list node) :=
  match l with [] => None | x :: r => if Nat.eqb (nd_id x) i then Some r else r' <-o remove_id i r ;; Some (x :: r') end.
Fixpoint insert_after (i : nat) (y : node) (l : list node) : option (list node) :=
  match l with [] => None | x :: r => if Nat.eqb (nd_id x) i then Some (x :: y :: r) else r' <-o insert_after i y r ;; Some (x :: r') end.
Fixpoint replace_id (i : nat) (y : node) (l : list node) : option (list node) :=
  match l with [] => None | x :: r => if Nat.eqb (nd_id x) i then Some (y :: r) else r' <-o replace_id i y r ;; Some (x :: r') end.
Definition first_id (l : list node) : option nat := match l with [] => None | x :: _ => Some (nd_id x) end.
Definition is_nil {A} (l : list A) : bool := match l with [] => true | _ => false end.

(** *** fca.hpp *)
(** l.539-544: no buckets *)
Definition b_null (al : N) : barray := BA 0 0 [] [] al.
(** l.546-594: two allocations; if the second fails the first is released *)
Definition new_barray {X} (al n : N) : M X barray :=
  if N.eqb n 0 then ret (b_null al)
  else
    let idx := fca_size_index n in
    szN <- of_option (fca_size idx) ;;
    let sz := N.to_nat szN in
    tick cb KAlloc ;;;
    tick cb KAlloc ;;;
    gs <- of_option (new_groups sz) ;;
    ret (BA idx sz (repeat [] (sz + 1)) gs al).
(** l.531-537 [bucket_count_for] *)
Definition bucket_count_for (n : N) : option N := if N.eqb n 0 then Some 0%N else fca_size (fca_size_index n).
(** l.725 *)
Definition bucket_count (b : barray) : N := N.of_nat (b_size b).
(** l.729-737 [end] *)
Definition b_end (b : barray) : biter := BI (b_size b) None.
(** l.753-765 [at] *)
Definition b_at (b : barray) (n : nat) : biter := if Nat.ltb 0 (b_size b) then BI n (Some (n / 64)) else b_end b.
(** l.727 [begin] *)
Definition b_begin (b : barray) : option biter :=
  if Nat.eqb (b_size b) 0 then Some (b_end b) else increment (b_groups b) (b_at b (b_size b)).
(** l.773-776 [position], with [at] *)
Definition at_hash (b : barray) (h : N) : option biter := p <-o fca_position h (b_idx b) ;; Some (b_at b (N.to_nat p)).
(** the bucket an iterator points to *)
Definition chain (b : barray) (it : biter) : option (list node) := nth_error (b_chains b) (bi_p it).
Definition set_chain (b : barray) (it : biter) (l : list node) : option barray :=
  match nth_error (b_chains b) (bi_p it) with
  | Some _ => Some (BA (b_idx b) (b_size b) (FoaModel.set_nth (b_chains b) (bi_p it) l) (b_groups b) (b_own b))
  | None => None
  end.
Definition set_groups (b : barray) (gs : list group) : barray := BA (b_idx b) (b_size b) (b_chains b) gs (b_own b).
(** l.785-813 [append_bucket_group] *)
Definition append_bucket_group (b : barray) (it : biter) : option barray :=
  l <-o chain b it ;;
  if is_nil l then gs <-o append_bits (b_size b) (b_groups b) it ;; Some (set_groups b gs) else Some b.
(** l.815-821 [insert_node] *)
Definition insert_node (b : barray) (it : biter) (x : node) : option barray :=
  b <-o append_bucket_group b it ;;
  l <-o chain b it ;;
  set_chain b it (x :: l).
(** l.823-835 [insert_node_hint] *)
Definition insert_node_hint (b : barray) (it : biter) (x : node) (hint : option nat) : option barray :=
  b <-o append_bucket_group b it ;;
  l <-o chain b it ;;
  match hint with
  | Some i => l' <-o insert_after i x l ;; set_chain b it l'
  | None => set_chain b it (x :: l)
  end.
(** l.884-891 [unlink_bucket] *)
Definition b_unlink (b : barray) (it : biter) : option barray := gs <-o unlink_bucket (b_groups b) it ;; Some (set_groups b gs).
(** l.837-845 [extract_node], l.847-852 [extract_node_after] with pp the link that points to node i *)
Definition extract_node (b : barray) (it : biter) (i : nat) : option barray :=
  l <-o chain b it ;;
  l' <-o remove_id i l ;;
  b <-o set_chain b it l' ;;
  if is_nil l' then b_unlink b it else Some b.
(** l.854-882 [unlink_empty_buckets] *)
Definition b_unlink_empty (b : barray) : option barray :=
  gs <-o unlink_empty_buckets (b_size b) (fun i => option_map (fun l => negb (is_nil l)) (nth_error (b_chains b) i)) (b_groups b) ;; Some (set_groups b gs).
(** l.644-675 [deallocate] with allocator al *)
Definition b_dealloc (al : N) (b : barray) : option unit :=
  if Nat.eqb (b_size b) 0 then Some tt
  else if N.eqb (b_own b) al && forallb is_nil (b_chains b) then Some tt else None.

(** *** Elements *)
(** implementation.hpp l.1077-1083 [increment] *)
Definition e_next (b : barray) (it : eit) : option eit :=
  i <-o e_p it ;;
  l <-o chain b (e_b it) ;;
  r <-o after i l ;;
  match r with
  | x :: _ => Some (EI (Some (nd_id x)) (e_b it))
  | [] => itb <-o increment (b_groups b) (e_b it) ;; l' <-o chain b itb ;; Some (EI (first_id l') itb)
  end.
(** l.1066 [dereference] *)
Definition e_node (b : barray) (it : eit) : option node := i <-o e_p it ;; l <-o chain b (e_b it) ;; lookup_id i l.
(** l.1327-1335 [begin] *)
Definition e_begin (t : table) : option eit :=
  if N.eqb (f_size t) 0 then Some e_end else itb <-o b_begin (f_b t) ;; l <-o chain (f_b t) itb ;; Some (EI (first_id l) itb).
(** the nodes from it to last; [fuel] bounds the number of steps, None if the loop does not end by then *)
Fixpoint walk (fuel : nat) (b : barray) (it last : eit) : option (list node) :=
  match fuel with
  | O => None
  | S fuel' =>
      if e_eqb it last then Some []
      else x <-o e_node b it ;; it' <-o e_next b it ;; r <-o walk fuel' b it' last ;; Some (x :: r)
  end.
Definition fuel_of (t : table) : nat := S (N.to_nat (f_size t)).
Definition elements (t : table) : option (list node) := it <-o e_begin t ;; walk (fuel_of t) (f_b t) it e_end.

(** *** State access *)
Definition mod_t (f : table -> table) : M St unit := modify (fun s => (f (fst s), snd s)).
Definition get_t : M St table := s <- get ;; ret (fst s).
Definition set_b (b : barray) (t : table) : table := FT (f_hid t) (f_pid t) (f_al t) (f_size t) (f_mlf t) (f_ml t) b.
Definition set_size (n : N) (t : table) : table := FT (f_hid t) (f_pid t) (f_al t) n (f_mlf t) (f_ml t) (f_b t).
Definition set_mlf (z : option Z) (t : table) : table := FT (f_hid t) (f_pid t) (f_al t) (f_size t) z (f_ml t) (f_b t).
Definition set_ml (n : N) (t : table) : table := FT (f_hid t) (f_pid t) (f_al t) (f_size t) (f_mlf t) n (f_b t).
Definition set_al (n : N) (t : table) : table := FT (f_hid t) (f_pid t) n (f_size t) (f_mlf t) (f_ml t) (f_b t).
Definition set_hp (h p : N) (t : table) : table := FT h p (f_al t) (f_size t) (f_mlf t) (f_ml t) (f_b t).
Definition inc_size (t : table) : table := set_size (uadd (f_size t) 1) t.
Definition dec_size (t : table) : table := set_size (usub (f_size t) 1) t.
(** buckets_.op(...) *)
Definition on_b (f : barray -> option barray) : M St unit :=
  t <- get_t ;; b <- of_option (f (f_b t)) ;; mod_t (set_b b).

(** *** Nodes: l.614-700 node_constructor, node_tmp, construct_node; l.1535-1543 [delete_node] *)
Definition mod_h (f : heap -> heap) : M St unit := modify (fun s => (fst s, f (snd s))).
(** allocate, then construct; if construction throws the memory is released (node_constructor) *)
Definition new_node (kd : kind) (e : K * V) : M St node :=
  t <- get_t ;;
  tick cb KAlloc ;;;
  s <- get ;;
  mod_h (fun h => Hp (S (live h)) (S (next h))) ;;;
  on_exn (tick cb kd) (mod_h (fun h => Hp (Nat.pred (live h)) (next h))) ;;;
  ret (Nd (next (snd s)) (f_al t) e).
Definition delete_node (x : node) : M St unit :=
  s <- get ;;
  if N.eqb (nd_al x) (f_al (fst s)) && Nat.ltb 0 (live (snd s)) then mod_h (fun h => Hp (Nat.pred (live h)) (next h)) else undef.

(** *** Load: floats as integers over 2^149 (FloatModel.v) *)
Definition size_max : N := 2 ^ 64 - 1.
Definition f32_one : Z := 2 ^ 149.
(** implementation.hpp l.95: minimum_max_load_factor = 1e-3f *)
Definition min_mlf : Z := 8589935 * 2 ^ 116.
(** l.980-990 [double_to_size] of an integral or fractional value v / 2^b; double(size_t max) is 2^64 *)
Definition to_size (v b : Z) : N := if Z.leb (2 ^ (64 + b)) v then size_max else Z.to_N (v / 2 ^ b).
(** l.1366-1380 [recalculate_max_load] *)
Definition max_load_for (mlf : option Z) (bc : N) : N :=
  if N.eqb bc 0 then 0%N
  else match mlf with
       | None => size_max
       | Some m => to_size (f64_mul (f64_of_f32 m) (f64_of_int (Z.of_N bc))) 1074
       end.
Definition recalc (t : table) : table := set_ml (max_load_for (f_mlf t) (bucket_count (f_b t))) t.
(** float(n)/mlf rounded up, in units of 1; None: infinite or too large for a float *)
Definition ceil_div (n : N) (mlf : option Z) : option Z :=
  match mlf with
  | None => Some 0%Z
  | Some m => let q := f32_div (f32_of_int (Z.of_N n)) m in if f32_inf q then None else Some (f32_ceil q)
  end.
(** l.1811-1820 [min_buckets] *)
Definition min_buckets (n : N) (mlf : option Z) : N :=
  let nb := match ceil_div n mlf with None => size_max | Some q => to_size q 0 end in
  if N.eqb nb 0 && N.ltb 0 n then 1%N else nb.

(** *** Rehash: l.2726-2802 *)
Notation RSt := (St * barray)%type.
Definition on_st {A} (m : M St A) : M RSt A := lens fst (fun s x => (x, snd s)) m.
(** l.1802-1809 [transfer_node] and the loop over one bucket; p: the bucket *)
Fixpoint transfer_chain (p : nat) (l : list node) : M RSt unit :=
  match l with
  | [] => ret tt
  | x :: r =>
      s <- get ;;
      h <- hash_for cb (f_hid (fst (fst s))) (nkey x) ;;
      it <- of_option (at_hash (snd s) h) ;;
      nb <- of_option (insert_node (snd s) it x) ;;
      modify (fun s => (fst s, nb)) ;;;
      on_st (on_b (fun b => set_chain b (BI p None) r)) ;;;
      transfer_chain p r
  end.
Fixpoint transfer_all (ps : list nat) : M RSt unit :=
  match ps with
  | [] => ret tt
  | p :: r =>
      s <- get ;;
      l <- of_option (nth_error (b_chains (f_b (fst (fst s)))) p) ;;
      transfer_chain p l ;;;
      transfer_all r
  end.
(** the catch clause: delete what was transferred. The links of the deleted nodes are left dangling in C++; the array is released next. *)
Fixpoint delete_list (l : list node) : M St unit :=
  match l with [] => ret tt | x :: r => delete_node x ;;; mod_t dec_size ;;; delete_list r end.
Fixpoint delete_transferred (fuel : nat) (it : biter) : M RSt unit :=
  match fuel with
  | O => undef
  | S fuel' =>
      s <- get ;;
      if bi_eqb it (b_end (snd s)) then ret tt
      else
        l <- of_option (chain (snd s) it) ;;
        on_st (delete_list l) ;;;
        nb <- of_option (set_chain (snd s) it []) ;;
        modify (fun s => (fst s, nb)) ;;;
        it' <- of_option (increment (b_groups nb) it) ;;
        delete_transferred fuel' it'
  end.
(** run with a local array; it is released on every exit: move assignment (fca.hpp l.615-637) leaves it empty *)
Definition rehash_impl (n : N) : M St unit :=
  t <- get_t ;;
  nb <- new_barray (f_al t) n ;;
  (fun s m =>
    match (on_exn (transfer_all (seq 0 (b_size (f_b t))))
             (s <- get ;;
              it <- of_option (b_begin (snd s)) ;;
              delete_transferred (S (b_size (snd s))) it ;;;
              on_st (on_b b_unlink_empty) ;;;
              s <- get ;;
              of_option (b_dealloc (f_al t) (snd s)) ;;; ret tt) ;;;
           s <- get ;;
           of_option (b_dealloc (f_al t) (f_b (fst (fst s)))) ;;;
           modify (fun s => ((recalc (set_b (snd s) (fst (fst s))), snd (fst s)), b_null (f_al t)))) (s, nb) m with
    | Ret a s' m' => Ret a (fst s') m'
    | Exn k s' m' => Exn k (fst s') m'
    | Undef => Undef
    end).
(** l.2728-2737 [rehash] *)
Definition rehash (n : N) : M St unit :=
  t <- get_t ;;
  nb <- of_option (bucket_count_for (N.max (min_buckets (f_size t) (f_mlf t)) n)) ;;
  if negb (N.eqb nb (bucket_count (f_b t))) then rehash_impl nb else ret tt.
(** l.2739-2744 [reserve] *)
Definition reserve (n : N) : M St unit := t <- get_t ;; rehash (min_buckets n (f_mlf t)).
(** l.2746-2756 [reserve_for_insert]; a conversion that does not fit into size_t is undefined *)
Definition reserve_for_insert (n : N) : M St unit :=
  t <- get_t ;;
  if N.ltb (f_ml t) n then
    q <- of_option (ceil_div n (f_mlf t)) ;;
    let r := f32_trunc (f32_add f32_one (q * 2 ^ 149)) in
    if Z.leb (2 ^ 64) r then undef
    else rehash_impl (N.max (Z.to_N r) (uadd (bucket_count (f_b t)) 1))
  else ret tt.
(** l.1382-1387 max_load_factor(z) *)
Definition max_load_factor (z : option Z) : M St unit :=
  mod_t (fun t => recalc (set_mlf (match z with None => None | Some v => Some (Z.max v min_mlf) end) t)).

(** *** Lookup *)
Fixpoint find_in_chain {X} (p : N) (k : K) (l : list node) : M X (option nat) :=
  match l with
  | [] => ret None
  | x :: r => tick cb KEq ;;; if keqf cb p k (nkey x) then ret (Some (nd_id x)) else find_in_chain p k r
  end.
(** l.1720-1734 [find_node_impl] *)
Definition find_node_impl {X} (t : table) (k : K) (itb : biter) : M X (option nat) :=
  if bi_eqb itb (b_end (f_b t)) then ret None
  else l <- of_option (chain (f_b t) itb) ;; find_in_chain (f_pid t) k l.
(** l.1736-1740 [find_node] *)
Definition find_node {X} (t : table) (k : K) : M X (option nat * biter) :=
  h <- hash_for cb (f_hid t) k ;;
  itb <- of_option (at_hash (f_b t) h) ;;
  r <- find_node_impl t k itb ;;
  ret (r, itb).
(** l.1747-1768 [find] *)
Definition find {X} (t : table) (k : K) : M X eit :=
  if N.ltb 0 (f_size t) then
    h <- hash_for cb (f_hid t) k ;;
    itb <- of_option (at_hash (f_b t) h) ;;
    l <- of_option (chain (f_b t) itb) ;;
    r <- find_in_chain (f_pid t) k l ;;
    match r with Some i => ret (EI (Some i) itb) | None => ret e_end end
  else ret e_end.
(** l.1288-1310 [group_count] *)
Fixpoint count_chain {X} (p : N) (k : K) (found : bool) (l : list node) : M X N :=
  match l with
  | [] => ret 0%N
  | x :: r =>
      tick cb KEq ;;;
      if keqf cb p k (nkey x) then n <- count_chain p k true r ;; ret (n + 1)%N
      else if found then ret 0%N else count_chain p k false r
  end.
Definition group_count {X} (t : table) (k : K) : M X N :=
  if N.eqb (f_size t) 0 then ret 0%N
  else
    h <- hash_for cb (f_hid t) k ;;
    itb <- of_option (at_hash (f_b t) h) ;;
    l <- of_option (chain (f_b t) itb) ;;
    count_chain (f_pid t) k false l.
(** l.1278-1286 [next_group]: the group of k at the beginning of the remaining elements l, and what follows *)
Fixpoint next_group {X} (p : N) (k : K) (l : list node) : M X (list node * list node) :=
  match l with
  | [] => ret ([], [])
  | x :: r =>
      tick cb KEq ;;;
      if keqf cb p k (nkey x) then g <- next_group p k r ;; ret (x :: fst g, snd g) else ret ([], x :: r)
  end.
(** the elements from an iterator on *)
Definition rest (t : table) (it : eit) : option (list node) := walk (fuel_of t) (f_b t) it e_end.
(** unordered_map.hpp l.1799-1823 (the range as a list); unordered_multimap l.2408-2426: next_group *)
Definition equal_range {X} (t : table) (k : K) : M X (list node) :=
  it <- find t k ;;
  if e_eqb it e_end then ret []
  else if multi c then
    l <- of_option (rest t it) ;; g <- next_group (f_pid t) k l ;; ret (fst g)
  else
    last <- of_option (e_next (f_b t) it) ;;
    of_option (walk (fuel_of t) (f_b t) it last).

(** *** Insertion, unique keys *)
(** the common end of the insertion functions (l.1879-1887 and others) *)
Definition grow_for_one (h : N) (itb : biter) : M St biter :=
  t <- get_t ;;
  if N.ltb (f_ml t) (uadd (f_size t) 1) then
    reserve (uadd (f_size t) 1) ;;;
    t <- get_t ;;
    of_option (at_hash (f_b t) h)
  else ret itb.
Definition grow_insert (x : node) (h : N) (itb : biter) : M St eit :=
  itb <- grow_for_one h itb ;;
  on_b (fun b => insert_node b itb x) ;;;
  mod_t inc_size ;;;
  ret (EI (Some (nd_id x)) itb).
(** l.1865-1890 [emplace_unique(k,args)], 1962-1991, 2003-2030 [try_emplace_unique]: the key is at hand *)
Definition emplace_unique_key (kd : kind) (e : K * V) : M St (eit * bool) :=
  t <- get_t ;;
  h <- hash_for cb (f_hid t) (fst e) ;;
  itb <- of_option (at_hash (f_b t) h) ;;
  r <- find_node_impl t (fst e) itb ;;
  match r with
  | Some i => ret (EI (Some i) itb, false)
  | None =>
      x <- new_node kd e ;;
      it <- on_exn (grow_insert x h itb) (delete_node x) ;;
      ret (it, true)
  end.
(** l.1923-1950 [emplace_unique(no_key,args)] and one round of l.2182-2211 [insert_range_unique]: the node is constructed first *)
Definition emplace_unique_nokey (kd : kind) (e : K * V) : M St (eit * bool) :=
  x <- new_node kd e ;;
  on_exn
    (t <- get_t ;;
     h <- hash_for cb (f_hid t) (fst e) ;;
     itb <- of_option (at_hash (f_b t) h) ;;
     r <- find_node_impl t (fst e) itb ;;
     match r with
     | Some i => delete_node x ;;; ret (EI (Some i) itb, false)
     | None => it <- grow_insert x h itb ;; ret (it, true)
     end)
    (delete_node x).
Definition emplace_unique (kf : bool) (kd : kind) (e : K * V) : M St (eit * bool) :=
  if kf then emplace_unique_key kd e else emplace_unique_nokey kd e.
(** hint.p && key_eq()(k,get_key(hint.p)) *)
Definition hint_matches (hint : eit) (k : K) : M St bool :=
  match e_p hint with
  | None => ret false
  | Some _ =>
      t <- get_t ;;
      x <- of_option (e_node (f_b t) hint) ;;
      tick cb KEq ;;;
      ret (keqf cb (f_pid t) k (nkey x))
  end.
(** l.1854-1863 [emplace_hint_unique(hint,k,args)], 1993-2001, 2032-2041; l.1892-1921 [emplace_hint_unique(hint,no_key,args)] *)
Definition emplace_hint_unique (kf : bool) (hint : eit) (e : K * V) : M St eit :=
  if kf then
    b <- hint_matches hint (fst e) ;;
    if b : bool then ret hint else r <- emplace_unique_key KConstruct e ;; ret (fst r)
  else
    x <- new_node KConstruct e ;;
    on_exn
      (b <- hint_matches hint (fst e) ;;
       if b : bool then delete_node x ;;; ret hint
       else
         t <- get_t ;;
         h <- hash_for cb (f_hid t) (fst e) ;;
         itb <- of_option (at_hash (f_b t) h) ;;
         r <- find_node_impl t (fst e) itb ;;
         match r with
         | Some i => delete_node x ;;; ret (EI (Some i) itb)
         | None => grow_insert x h itb
         end)
      (delete_node x).
(** l.2043-2070 [insert_or_assign_unique]; the assignment is a KConstruct event *)
Definition assign_value (it : eit) (v : V) : M St unit :=
  t <- get_t ;;
  x <- of_option (e_node (f_b t) it) ;;
  tick cb KConstruct ;;;
  on_b (fun b => l <-o chain b (e_b it) ;; l' <-o replace_id (nd_id x) (Nd (nd_id x) (nd_al x) (nkey x, v)) l ;; set_chain b (e_b it) l').
Definition insert_or_assign_unique (k : K) (v : V) : M St (eit * bool) :=
  t <- get_t ;;
  h <- hash_for cb (f_hid t) k ;;
  itb <- of_option (at_hash (f_b t) h) ;;
  r <- find_node_impl t k itb ;;
  match r with
  | Some i => assign_value (EI (Some i) itb) v ;;; ret (EI (Some i) itb, false)
  | None =>
      x <- new_node KConstruct (k, v) ;;
      it <- on_exn (grow_insert x h itb) (delete_node x) ;;
      ret (it, true)
  end.
(** l.2182-2211 [insert_range_unique] *)
Fixpoint insert_range_unique (l : list (K * V)) : M St unit :=
  match l with [] => ret tt | e :: r => emplace_unique_nokey KConstruct e ;;; insert_range_unique r end.

(** *** Insertion, equivalent keys *)
(** l.2449-2465 [emplace_equiv(n)]; n has been constructed by the caller *)
Definition emplace_equiv (x : node) : M St eit :=
  on_exn
    (t <- get_t ;;
     h <- hash_for cb (f_hid t) (nkey x) ;;
     itb <- of_option (at_hash (f_b t) h) ;;
     hint <- find_node_impl t (nkey x) itb ;;
     itb <- grow_for_one h itb ;;
     on_b (fun b => insert_node_hint b itb x hint) ;;;
     mod_t inc_size ;;;
     ret (EI (Some (nd_id x)) itb))
    (delete_node x).
(** l.2467-2496 [emplace_hint_equiv] *)
Definition emplace_hint_equiv (hint : eit) (x : node) : M St eit :=
  on_exn
    (t <- get_t ;;
     let needs_rehash := N.ltb (f_ml t) (uadd (f_size t) 1) in
     usable <- hint_matches hint (nkey x) ;;
     q <- (if negb usable then
             h <- hash_for cb (f_hid t) (nkey x) ;;
             itb <- of_option (at_hash (f_b t) h) ;;
             p <- find_node_impl t (nkey x) itb ;;
             ret (h, itb, p)
           else if needs_rehash then
             h <- hash_for cb (f_hid t) (nkey x) ;; ret (h, e_b hint, e_p hint)
           else ret (0%N, e_b hint, e_p hint)) ;;
     let '(h, itb, p) := q in
     itb <- (if needs_rehash then
               reserve (uadd (f_size t) 1) ;;; t <- get_t ;; of_option (at_hash (f_b t) h)
             else ret itb) ;;
     on_b (fun b => insert_node_hint b itb x p) ;;;
     mod_t inc_size ;;;
     ret (EI (Some (nd_id x)) itb))
    (delete_node x).
(** l.2498-2509 [emplace_no_rehash_equiv] *)
Definition emplace_no_rehash_equiv (x : node) : M St unit :=
  on_exn
    (t <- get_t ;;
     h <- hash_for cb (f_hid t) (nkey x) ;;
     itb <- of_option (at_hash (f_b t) h) ;;
     hint <- find_node_impl t (nkey x) itb ;;
     on_b (fun b => insert_node_hint b itb x hint) ;;;
     mod_t inc_size)
    (delete_node x).
(** l.2570-2607 [insert_range_equiv]: forward and input iterators *)
Fixpoint insert_each_equiv (l : list (K * V)) : M St unit :=
  match l with [] => ret tt | e :: r => x <- new_node KConstruct e ;; emplace_equiv x ;;; insert_each_equiv r end.
Fixpoint insert_no_rehash (l : list (K * V)) : M St unit :=
  match l with [] => ret tt | e :: r => x <- new_node KConstruct e ;; emplace_no_rehash_equiv x ;;; insert_no_rehash r end.
Definition insert_range_equiv (fwd : bool) (l : list (K * V)) : M St unit :=
  if fwd then
    match l with
    | [] => ret tt
    | [e] => x <- new_node KConstruct e ;; emplace_equiv x ;;; ret tt
    | _ => t <- get_t ;; reserve_for_insert (uadd (f_size t) (N.of_nat (length l))) ;;; insert_no_rehash l
    end
  else insert_each_equiv l.

(** *** Erasure *)
(** l.2230-2243 [erase_key_unique_impl], 1770-1784 [find_prev] *)
Definition find_prev (t : table) (k : K) (itb : biter) : M St (option nat) :=
  if N.ltb 0 (f_size t) then l <- of_option (chain (f_b t) itb) ;; find_in_chain (f_pid t) k l else ret None.
Definition lookup_at (itb : biter) (i : nat) : M St node :=
  t <- get_t ;; of_option (l <-o chain (f_b t) itb ;; lookup_id i l).
Definition erase_key_unique (k : K) : M St N :=
  t <- get_t ;;
  h <- hash_for cb (f_hid t) k ;;
  itb <- of_option (at_hash (f_b t) h) ;;
  r <- find_prev t k itb ;;
  match r with
  | None => ret 0%N
  | Some i =>
      x <- lookup_at itb i ;;
      on_b (fun b => extract_node b itb i) ;;;
      delete_node x ;;;
      mod_t dec_size ;;;
      ret 1%N
  end.
(** l.2626-2647 [erase_key_equiv_impl]: the loop deletes nodes from the link pp on; [l] is the list after that link, [pre] what is before *)
Fixpoint erase_run (p : N) (k : K) (itb : biter) (pre l : list node) : M St N :=
  match l with
  | [] => ret 0%N
  | x :: r =>
      tick cb KEq ;;;
      if keqf cb p (nkey x) k then
        on_b (fun b => set_chain b itb (pre ++ r)) ;;;
        delete_node x ;;;
        mod_t dec_size ;;;
        n <- erase_run p k itb pre r ;;
        ret (n + 1)%N
      else ret 0%N
  end.
Fixpoint split_id (i : nat) (l : list node) : option (list node * list node) :=
  match l with
  | [] => None
  | x :: r => if Nat.eqb (nd_id x) i then Some ([], x :: r) else pq <-o split_id i r ;; Some (x :: fst pq, snd pq)
  end.
Definition erase_key_equiv (k : K) : M St N :=
  t <- get_t ;;
  h <- hash_for cb (f_hid t) k ;;
  itb <- of_option (at_hash (f_b t) h) ;;
  r <- find_prev t k itb ;;
  match r with
  | None => ret 0%N
  | Some i =>
      pq <- of_option (l <-o chain (f_b t) itb ;; split_id i l) ;;
      n <- erase_run (f_pid t) k itb (fst pq) (snd pq) ;;
      t <- get_t ;;
      l <- of_option (chain (f_b t) itb) ;;
      (if is_nil l then on_b (fun b => b_unlink b itb) else ret tt) ;;;
      ret n
  end.
(** l.2245-2261 [erase_node] *)
Definition erase_node (it : eit) : M St eit :=
  t <- get_t ;;
  nxt <- of_option (e_next (f_b t) it) ;;
  x <- of_option (e_node (f_b t) it) ;;
  on_b (fun b => extract_node b (e_b it) (nd_id x)) ;;;
  delete_node x ;;;
  mod_t dec_size ;;;
  ret nxt.
(** l.2263-2300 [erase_nodes_range]; the link pp is given by the bucket itb and the nodes [pre] before it *)
Fixpoint erase_from (fuel : nat) (itb : biter) (pre : list node) (last : option nat) : M St unit :=
  match fuel with
  | O => undef
  | S fuel' =>
      t <- get_t ;;
      l <- of_option (chain (f_b t) itb) ;;
      let r := skipn (length pre) l in
      let here := first_id r in
      if (match here, last with None, None => true | Some i, Some j => Nat.eqb i j | _, _ => false end) then ret tt
      else
        match r with
        | [] => undef
        | x :: r' =>
            on_b (fun b => set_chain b itb (pre ++ r')) ;;;
            delete_node x ;;;
            mod_t dec_size ;;;
            if is_nil r' then
              t <- get_t ;;
              itb' <- of_option (increment (b_groups (f_b t)) itb) ;;
              (if is_nil pre then on_b (fun b => b_unlink b itb) else ret tt) ;;;
              erase_from fuel' itb' [] last
            else erase_from fuel' itb pre last
        end
  end.
Definition erase_nodes_range (first last : eit) : M St unit :=
  if e_eqb first last then ret tt
  else
    t <- get_t ;;
    i <- of_option (e_p first) ;;
    pq <- of_option (l <-o chain (f_b t) (e_b first) ;; split_id i l) ;;
    erase_from (fuel_of t) (e_b first) (fst pq) (e_p last).
(** l.1788-1799 [extract_by_key_impl], 2215-2224 [extract_by_iterator_unique], 2612-2619 [extract_by_iterator_equiv]: the node leaves the table *)
Definition extract_at (it : eit) : M St node :=
  t <- get_t ;;
  x <- of_option (e_node (f_b t) it) ;;
  on_b (fun b => extract_node b (e_b it) (nd_id x)) ;;;
  mod_t dec_size ;;;
  ret x.
Definition extract_key (k : K) : M St (option node) :=
  t <- get_t ;;
  it <- find t k ;;
  if e_eqb it e_end then ret None else x <- extract_at it ;; ret (Some x).
(** l.2706-2722 [clear_impl] *)
Fixpoint clear_chain (l : list node) (itb : biter) : M St unit :=
  match l with
  | [] => ret tt
  | x :: r => on_b (fun b => extract_node b itb (nd_id x)) ;;; delete_node x ;;; mod_t dec_size ;;; clear_chain r itb
  end.
Fixpoint clear_from (fuel : nat) (itb : biter) : M St unit :=
  match fuel with
  | O => undef
  | S fuel' =>
      t <- get_t ;;
      if bi_eqb itb (b_end (f_b t)) then ret tt
      else
        nxt <- of_option (increment (b_groups (f_b t)) itb) ;;
        l <- of_option (chain (f_b t) itb) ;;
        clear_chain l itb ;;;
        clear_from fuel' nxt
  end.
Definition clear : M St unit :=
  t <- get_t ;; itb <- of_option (b_begin (f_b t)) ;; clear_from (fuel_of t) itb.
(** l.1545-1558 [delete_buckets] *)
Fixpoint delete_from (fuel : nat) (pos : eit) : M St unit :=
  match fuel with
  | O => undef
  | S fuel' =>
      if e_eqb pos e_end then ret tt
      else
        t <- get_t ;;
        x <- of_option (e_node (f_b t) pos) ;;
        nxt <- of_option (e_next (f_b t) pos) ;;
        on_b (fun b => extract_node b (e_b pos) (nd_id x)) ;;;
        delete_node x ;;;
        mod_t dec_size ;;;
        delete_from fuel' nxt
  end.
Definition delete_buckets : M St unit :=
  t <- get_t ;;
  it <- of_option (e_begin t) ;;
  delete_from (fuel_of t) it ;;;
  t <- get_t ;;
  of_option (b_dealloc (f_al t) (f_b t)) ;;;
  mod_t (fun t => set_b (b_null (f_al t)) t).
(** l.2927-2944 [erase_if]; each call of the predicate is a KEq event *)
Fixpoint erase_if_from (fuel : nat) (pr : K * V -> bool) (pos : eit) : M St unit :=
  match fuel with
  | O => undef
  | S fuel' =>
      if e_eqb pos e_end then ret tt
      else
        t <- get_t ;;
        x <- of_option (e_node (f_b t) pos) ;;
        tick cb KEq ;;;
        nxt <- (if pr (nd_kv x) then erase_node pos else of_option (e_next (f_b t) pos)) ;;
        erase_if_from fuel' pr nxt
  end.
Definition erase_if (pr : K * V -> bool) : M St N :=
  t0 <- get_t ;;
  it <- of_option (e_begin t0) ;;
  erase_if_from (fuel_of t0) pr it ;;;
  t <- get_t ;;
  ret (usub (f_size t0) (f_size t)).

(** *** Node handles: l.2072-2139, 2511-2564. The handle's node is passed; None: it was inserted, Some: it stays in the handle *)
Definition insert_handle_unique (x : node) : M St (eit * option node) :=
  t <- get_t ;;
  h <- hash_for cb (f_hid t) (nkey x) ;;
  itb <- of_option (at_hash (f_b t) h) ;;
  r <- find_node_impl t (nkey x) itb ;;
  match r with
  | Some i => ret (EI (Some i) itb, Some x)
  | None =>
      reserve_for_insert (uadd (f_size t) 1) ;;;
      t <- get_t ;;
      itb <- of_option (at_hash (f_b t) h) ;;
      on_b (fun b => insert_node b itb x) ;;;
      mod_t inc_size ;;;
      ret (EI (Some (nd_id x)) itb, None)
  end.
Definition insert_handle_hint_unique (hint : eit) (x : node) : M St (eit * option node) :=
  b <- hint_matches hint (nkey x) ;;
  if b : bool then ret (hint, Some x)
  else
    t <- get_t ;;
    h <- hash_for cb (f_hid t) (nkey x) ;;
    itb <- of_option (at_hash (f_b t) h) ;;
    r <- find_node_impl t (nkey x) itb ;;
    match r with
    | Some i => ret (EI (Some i) itb, Some x)
    | None => it <- grow_insert x h itb ;; ret (it, None)
    end.
Definition insert_handle_equiv (x : node) : M St (eit * option node) :=
  t <- get_t ;;
  reserve_for_insert (uadd (f_size t) 1) ;;;
  t <- get_t ;;
  h <- hash_for cb (f_hid t) (nkey x) ;;
  itb <- of_option (at_hash (f_b t) h) ;;
  hint <- find_node_impl t (nkey x) itb ;;
  on_b (fun b => insert_node_hint b itb x hint) ;;;
  mod_t inc_size ;;;
  ret (EI (Some (nd_id x)) itb, None).
Definition insert_handle_hint_equiv (hint : eit) (x : node) : M St (eit * option node) :=
  t <- get_t ;;
  h <- hash_for cb (f_hid t) (nkey x) ;;
  itb <- (if N.ltb (f_ml t) (uadd (f_size t) 1) then
            reserve (uadd (f_size t) 1) ;;; t <- get_t ;; of_option (at_hash (f_b t) h)
          else ret (e_b hint)) ;;
  (* the hint's node is looked up through its own bucket, which may be another one after the rehash *)
  usable <- (match e_p hint with
             | None => ret false
             | Some i =>
                 t <- get_t ;;
                 x' <- of_option (lookup_id i (concat (b_chains (f_b t)))) ;;
                 tick cb KEq ;;; ret (keqf cb (f_pid t) (nkey x) (nkey x'))
             end) ;;
  q <- (if usable : bool then ret (itb, e_p hint)
        else
          t <- get_t ;;
          itb <- of_option (at_hash (f_b t) h) ;;
          pos <- find_node_impl t (nkey x) itb ;;
          ret (itb, pos)) ;;
  on_b (fun b => insert_node_hint b (fst q) x (snd q)) ;;;
  mod_t inc_size ;;;
  ret (EI (Some (nd_id x)) (fst q), None).
Definition insert_handle (hint : option eit) (x : node) : M St (eit * option node) :=
  match multi c, hint with
  | false, None => insert_handle_unique x
  | false, Some h => insert_handle_hint_unique h x
  | true, None => insert_handle_equiv x
  | true, Some h => insert_handle_hint_equiv h x
  end.

(** *** Construction, copy, move *)
(** l.1398-1404; 1392-1396 is n=0 *)
Definition new_table {X} (h p al n : N) : M X table :=
  b <- new_barray al n ;;
  ret (recalc (FT h p al 0 (Some f32_one) 0 b)).
(** destructor l.1533 *)
Definition destroy_table : M St unit := delete_buckets.
(** l.2305-2324 and 2657-2676 [copy_buckets] *)
Fixpoint copy_nodes (l : list node) : M St unit :=
  match l with
  | [] => ret tt
  | y :: r =>
      t <- get_t ;;
      h <- hash_for cb (f_hid t) (nkey y) ;;
      itb <- of_option (at_hash (f_b t) h) ;;
      x <- new_node KTransfer (nd_kv y) ;;
      on_exn
        (hint <- (if multi c then find_node_impl t (nkey y) itb else ret None) ;;
         on_b (fun b => insert_node_hint b itb x hint))
        (delete_node x) ;;;
      mod_t inc_size ;;;
      copy_nodes r
  end.
Definition copy_buckets (src : table) : M St unit :=
  reserve_for_insert (f_size src) ;;;
  l <- of_option (elements src) ;;
  copy_nodes l.
(** copy construction: l.1406-1411, unordered_map.hpp l.1440-1465 *)
Definition construct_then (mk : M heap table) (body : M St unit) : M heap table := fun h n =>
  match mk h n with
  | Ret t h1 n1 =>
      match body (t, h1) n1 with
      | Ret _ s n2 => Ret (fst s) (snd s) n2
      | Exn k s n2 => match destroy_table s n2 with Ret _ s' n3 => Exn k (snd s') n3 | _ => Undef end
      | Undef => Undef
      end
  | Exn k h1 n1 => Exn k h1 n1
  | Undef => Undef
  end.
Definition copy_construct (x : table) (al : N) : M heap table :=
  construct_then
    (b <- new_barray al (f_size x) ;; ret (recalc (FT (f_hid x) (f_pid x) al 0 (f_mlf x) 0 b)))
    (if N.ltb 0 (f_size x) then copy_buckets x else ret tt).
(** what remains of x when its buckets have been taken: fca.hpp l.601-643, implementation.hpp l.1413-1419, 1490-1499 *)
Definition emptied (x : table) : table := FT (f_hid x) (f_pid x) (f_al x) 0 (f_mlf x) 0 (b_null (f_al x)).
(** move construction l.1413-1419; state: x. The moved-from function objects keep their values. *)
Definition move_construct : M table table :=
  x <- get ;; put (emptied x) ;;; ret x.

(** two tables *)
Notation St2 := ((table * table) * heap)%type.
Definition on1 {A} (m : M St A) : M St2 A := lens (fun s => (fst (fst s), snd s)) (fun s x => ((fst x, snd (fst s)), snd x)) m.
Definition on2 {A} (m : M St A) : M St2 A := lens (fun s => (snd (fst s), snd s)) (fun s x => ((fst (fst s), fst x), snd x)) m.
Definition get2 : M St2 (table * table) := s <- get ;; ret (fst s).
Definition put2 (p : table * table) : M St2 unit := modify (fun s => (p, snd s)).

(** moving from an element of x in place *)
Definition leave (itb : biter) (y : node) : M St unit :=
  on_b (fun b => l <-o chain b itb ;; l' <-o replace_id (nd_id y) (Nd (nd_id y) (nd_al y) (leftover c (nd_kv y))) l ;; set_chain b itb l').
(** l.1502-1528 [move_construct_buckets], second part: loop over src *)
Fixpoint move_nodes_from (fuel : nat) (pos : eit) : M St2 unit :=
  match fuel with
  | O => undef
  | S fuel' =>
      if e_eqb pos e_end then ret tt
      else
        ts <- get2 ;;
        y <- of_option (e_node (f_b (snd ts)) pos) ;;
        x <- on1 (new_node KTransfer (nd_kv y)) ;;
        on2 (leave (e_b pos) y) ;;;
        ts <- get2 ;;
        on1 (on_exn (h <- hash_for cb (f_hid (fst ts)) (nkey x) ;;
                     itb <- of_option (at_hash (f_b (fst ts)) h) ;;
                     on_b (fun b => insert_node b itb x) ;;;
                     mod_t inc_size)
                    (delete_node x)) ;;;
        nxt <- of_option (e_next (f_b (snd ts)) pos) ;;
        move_nodes_from fuel' nxt
  end.
(** move construction with allocator: l.1421-1427, 1502-1528; state: x and the heap *)
Definition move_construct_al (al : N) : M St table := fun s n =>
  let x := fst s in
  match (b <- new_barray al (bucket_count (f_b x)) ;; ret (recalc (FT (f_hid x) (f_pid x) al 0 (f_mlf x) 0 b))) s n with
  | Ret t s1 n1 =>
      let body : M St2 unit :=
        if N.eqb al (f_al x) then
          of_option (b_dealloc al (f_b t)) ;;;
          put2 (FT (f_hid t) (f_pid t) al (f_size x) (f_mlf t) (f_ml x) (f_b x), emptied x)
        else if N.eqb (f_size x) 0 then ret tt
        else
          on1 (reserve (f_size x)) ;;;
          it <- of_option (e_begin x) ;;
          move_nodes_from (fuel_of x) it in
      match body ((t, x), snd s1) n1 with
      | Ret _ s2 n2 => Ret (fst (fst s2)) (snd (fst s2), snd s2) n2
      | Exn k s2 n2 =>
          match destroy_table (fst (fst s2), snd s2) n2 with Ret _ s3 n3 => Exn k (snd (fst s2), snd s3) n3 | _ => Undef end
      | Undef => Undef
      end
  | Exn k s1 n1 => Exn k s1 n1
  | Undef => Undef
  end.

(** l.1580-1601 [assign(x,is_unique,false_type)]. The function objects are copied by operations that do not throw here. *)
Definition assign_noprop (x : table) : M St unit :=
  mod_t (fun t => recalc (set_mlf (f_mlf x) t)) ;;;
  reserve_for_insert (f_size x) ;;;
  clear ;;;
  mod_t (set_hp (f_hid x) (f_pid x)) ;;;
  copy_buckets x.
(** l.1568-1578, 1603-1629 copy assignment (this != &x) *)
Definition copy_assign (x : table) : M St unit :=
  t <- get_t ;;
  if pocca cb then
    if N.eqb (f_al t) (f_al x) then assign_noprop x
    else
      nb <- new_barray (f_al x) (f_size x) ;;
      mod_t (set_hp (f_hid x) (f_pid x)) ;;;
      delete_buckets ;;;
      mod_t (fun t => set_b nb (set_al (f_al x) t)) ;;;
      mod_t (set_mlf (f_mlf x)) ;;;
      reserve (f_size x) ;;;
      (if N.ltb 0 (f_size x) then copy_buckets x else ret tt)
  else assign_noprop x.

(** l.2326-2348, 2678-2700 [move_assign_buckets] *)
Fixpoint move_assign_nodes (fuel : nat) (pos : eit) : M St2 unit :=
  match fuel with
  | O => undef
  | S fuel' =>
      if e_eqb pos e_end then ret tt
      else
        ts <- get2 ;;
        y <- of_option (e_node (f_b (snd ts)) pos) ;;
        on2 (tick cb KTransfer ;;; leave (e_b pos) y) ;;;
        on1 (h <- hash_for cb (f_hid (fst ts)) (nkey y) ;;
             itb <- of_option (at_hash (f_b (fst ts)) h) ;;
             hint <- (if multi c then find_node_impl (fst ts) (nkey y) itb else ret None) ;;
             x <- new_node KTransfer (nd_kv y) ;;
             on_b (fun b => insert_node_hint b itb x hint) ;;;
             mod_t inc_size) ;;;
        ts <- get2 ;;
        nxt <- of_option (e_next (f_b (snd ts)) pos) ;;
        move_assign_nodes fuel' nxt
  end.
(** l.1631-1704 move assignment (this != &x); state: (this, x) *)
Definition move_assign : M St2 unit :=
  ts <- get2 ;;
  let '(t, x) := ts in
  if pocma cb || N.eqb (f_al t) (f_al x) then
    on1 (mod_t (set_hp (f_hid x) (f_pid x)) ;;; delete_buckets) ;;;
    on1 (mod_t (fun t => FT (f_hid t) (f_pid t) (if pocma cb then f_al x else f_al t) (f_size x) (f_mlf x) (f_ml x) (f_b x))) ;;;
    on2 (mod_t emptied)
  else
    on1 (mod_t (fun t => recalc (set_mlf (f_mlf x) t)) ;;;
         (if N.ltb 0 (f_size x) then reserve_for_insert (f_size x) else ret tt) ;;;
         clear ;;;
         mod_t (set_hp (f_hid x) (f_pid x))) ;;;
    it <- of_option (e_begin x) ;;
    move_assign_nodes (fuel_of x) it.
(** l.1433-1485 [swap] (this != &x) *)
Definition swap_tables : M St2 unit :=
  ts <- get2 ;;
  let '(t, x) := ts in
  if pocs cb then put2 (x, t)
  else if N.eqb (f_al t) (f_al x) then
    put2 (FT (f_hid x) (f_pid x) (f_al t) (f_size x) (f_mlf x) (f_ml x) (f_b x),
          FT (f_hid t) (f_pid t) (f_al x) (f_size t) (f_mlf t) (f_ml t) (f_b t))
  else undef.
(** l.2141-2174 [merge_unique] *)
Fixpoint merge_from (fuel : nat) (pos : eit) : M St2 unit :=
  match fuel with
  | O => undef
  | S fuel' =>
      if e_eqb pos e_end then ret tt
      else
        ts <- get2 ;;
        y <- of_option (e_node (f_b (snd ts)) pos) ;;
        h <- hash_for cb (f_hid (fst ts)) (nkey y) ;;
        itb <- of_option (at_hash (f_b (fst ts)) h) ;;
        r <- find_node_impl (fst ts) (nkey y) itb ;;
        nxt <- of_option (e_next (f_b (snd ts)) pos) ;;
        match r with
        | Some _ => merge_from fuel' nxt
        | None =>
            y <- on2 (extract_at pos) ;;
            on1 (on_b (fun b => insert_node b itb y) ;;; mod_t inc_size) ;;;
            merge_from fuel' nxt
        end
  end.
Definition merge_unique : M St2 unit :=
  ts <- get2 ;;
  let '(t, x) := ts in
  if negb (N.eqb (f_al t) (f_al x)) then undef
  else if N.eqb (f_size x) 0 then ret tt
  else
    on1 (reserve_for_insert (uadd (f_size t) (f_size x))) ;;;
    it <- of_option (e_begin x) ;;
    merge_from (fuel_of x) it.
(** unordered_map.hpp l.2324-2362 [unordered_multimap::merge]: while(!source.empty()) insert(source.extract(source.begin())). If insert
    throws, the handle is destroyed with its element. *)
Fixpoint merge_multi_from (fuel : nat) : M St2 unit :=
  match fuel with
  | O => undef
  | S fuel' =>
      ts <- get2 ;;
      if N.eqb (f_size (snd ts)) 0 then ret tt
      else
        it <- of_option (e_begin (snd ts)) ;;
        y <- on2 (extract_at it) ;;
        on1 (on_exn (insert_handle_equiv y) (delete_node y)) ;;;
        merge_multi_from fuel'
  end.
Definition merge : M St2 unit :=
  if multi c then
    ts <- get2 ;;
    if negb (N.eqb (f_al (fst ts)) (f_al (snd ts))) then undef else merge_multi_from (fuel_of (snd ts))
  else merge_unique.

(** the same loop with source = *this (nothing in l.2324-2362 excludes it): [rounds] iterations at most; true: the loop has ended *)
Fixpoint merge_self (rounds : nat) : M St bool :=
  match rounds with
  | O => ret false
  | S rounds' =>
      t <- get_t ;;
      if N.eqb (f_size t) 0 then ret true
      else
        it <- of_option (e_begin t) ;;
        y <- extract_at it ;;
        on_exn (insert_handle_equiv y) (delete_node y) ;;;
        merge_self rounds'
  end.

(** *** Comparison; eeq is == of value_type *)
(** l.1832-1850 [equals_unique] *)
Fixpoint equals_loop {X} (eeq : K * V -> K * V -> bool) (y : table) (l : list node) : M X bool :=
  match l with
  | [] => ret true
  | a :: r =>
      q <- find_node y (nkey a) ;;
      match fst q with
      | None => ret false
      | Some i =>
          b <- of_option (l' <-o chain (f_b y) (snd q) ;; lookup_id i l') ;;
          if eeq (nd_kv a) (nd_kv b) then equals_loop eeq y r else ret false
      end
  end.
Definition equals_unique {X} (eeq : K * V -> K * V -> bool) (x y : table) : M X bool :=
  if N.eqb (f_size x) (f_size y) then l <- of_option (elements x) ;; equals_loop eeq y l else ret false.
(** l.2380-2445 [group_equals_equiv], [find_equiv], [count_equal_equiv]; the ranges as lists, both not empty *)
Fixpoint skip_equal (eeq : K * V -> K * V -> bool) (g1 g2 : list node) : option bool * (list node * list node) :=
  match g1, g2 with
  | a :: r1, b :: r2 =>
      if eeq (nd_kv a) (nd_kv b) then
        match r1, r2 with
        | [], [] => (Some true, ([], []))
        | [], _ | _, [] => (Some false, ([], []))
        | _, _ => skip_equal eeq r1 r2
        end
      else (None, (g1, g2))
  | _, _ => (None, (g1, g2))
  end.
Fixpoint check_counts (eeq : K * V -> K * V -> bool) (start_ rest_ g2 : list node) : bool :=
  match rest_ with
  | [] => true
  | a :: r =>
      if existsb (fun x => eeq (nd_kv x) (nd_kv a)) start_ then check_counts eeq (start_ ++ [a]) r g2
      else
        let count l := length (filter (fun x => eeq (nd_kv x) (nd_kv a)) l) in
        let matches := count g2 in
        if Nat.eqb matches 0 then false
        else if negb (Nat.eqb matches (1 + count r)) then false
        else check_counts eeq (start_ ++ [a]) r g2
  end.
Definition group_equals_equiv (eeq : K * V -> K * V -> bool) (g1 g2 : list node) : bool :=
  match skip_equal eeq g1 g2 with
  | (Some b, _) => b
  | (None, (r1, r2)) => if negb (Nat.eqb (length r1) (length r2)) then false else check_counts eeq [] r1 r2
  end.
(** l.2354-2378 [equals_equiv] *)
Fixpoint equals_groups {X} (fuel : nat) (eeq : K * V -> K * V -> bool) (x y : table) (l : list node) : M X bool :=
  match fuel with
  | O => undef
  | S fuel' =>
      match l with
      | [] => ret true
      | a :: _ =>
          n2 <- find y (nkey a) ;;
          if e_eqb n2 e_end then ret false
          else
            g1 <- next_group (f_pid x) (nkey a) l ;;
            l2 <- of_option (rest y n2) ;;
            g2 <- next_group (f_pid y) (nkey a) l2 ;;
            if group_equals_equiv eeq (fst g1) (fst g2) then equals_groups fuel' eeq x y (snd g1) else ret false
      end
  end.
Definition equals_equiv {X} (eeq : K * V -> K * V -> bool) (x y : table) : M X bool :=
  if N.eqb (f_size x) (f_size y) then l <- of_option (elements x) ;; equals_groups (S (length l)) eeq x y l else ret false.
Definition equal_tables {X} (eeq : K * V -> K * V -> bool) (x y : table) : M X bool :=
  if multi c then equals_equiv eeq x y else equals_unique eeq x y.

(** *** Bucket interface: l.1339-1361 *)
(** hash_to_bucket *)
Definition bucket_of {X} (t : table) (k : K) : M X N :=
  h <- hash_for cb (f_hid t) k ;; of_option (fca_position h (b_idx (f_b t))).
(** begin(n)..end(n) *)
Definition local_elements (t : table) (n : nat) : option (list node) :=
  if Nat.eqb (b_size (f_b t)) 0 then Some [] else nth_error (b_chains (f_b t)) n.
Definition bucket_size (t : table) (n : nat) : option N :=
  if N.ltb 0 (f_size t) then l <-o chain (f_b t) (b_at (f_b t) n) ;; Some (N.of_nat (length l)) else Some 0%N.
(** unordered_map.hpp l.1925-1934 [load_factor]: 0 for an empty container *)
Definition load_factor (t : table) : Z :=
  if N.eqb (f_size t) 0 then 0%Z else f32_div (f32_of_int (Z.of_N (f_size t))) (f32_of_int (Z.of_N (bucket_count (f_b t)))).
End Fca.
