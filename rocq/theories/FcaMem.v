(** The bucket and group arrays of the closed-addressing containers: the functions of FcaModel.v that allocate or release them,
    instrumented with the log of the calls the allocators receive (MemSpec.v). Every function below is the function of the same name
    (without the prime) of FcaModel.v or FcaWorld.v with the log carried along; the ones that do not allocate or release arrays are used
    as they are, through [quiet]. FcaMemProofs.v proves that dropping the log gives back the functions of FcaModel.v.
    Nodes are counted by the heap of FcaModel.v and are not in this log. *)
From Coq Require Import NArith ZArith Bool List Arith.
From Verif Require Import FloatModel HashArithModel FoaModel FcaLinks FcaModel FcaIter FcaSpec FcaWorld MemSpec.
From Verif Require FoaMem.
Import ListNotations.
Local Open Scope m_scope.

Notation L := FoaMem.L.
Notation quiet := FoaMem.quiet.
Notation emit := FoaMem.emit.
Notation part := FoaMem.part.

(** fca.hpp l.700-708 [get_bucket_allocator], [get_group_allocator]: the allocators bucket_allocator_type(al) and group_allocator_type(al) of node allocator al.
    They are objects of different types; the log names them by different numbers. *)
Definition for_buckets (al : N) : N := 2 * al.
Definition for_groups (al : N) : N := 2 * al + 1.
(** l.715-717 [buckets_len], [groups_len] *)
Definition buckets_len (size : nat) : N := N.of_nat (size + 1).
Definition groups_len (size : nat) : N := N.of_nat (size / 64 + 1).

Section Mem.
Context {K V : Type} (c : FCfg K V).
Notation node := (node K V).
Notation barray := (barray K V).
Notation table := (FcaModel.table K V).
Notation cb := (base c).
Notation St := (table * heap)%type.
Notation RSt := (St * barray)%type.
Notation St2 := ((table * table) * heap)%type.

(** fca.hpp l.546-594: two allocations; if the second one fails the first block is given back. The calls are numbered in elements. *)
Definition new_barray' {X} (al n : N) : M (L X) barray :=
  if N.eqb n 0 then ret (b_null al)
  else
    let idx := fca_size_index n in
    szN <- of_option (fca_size idx) ;;
    let sz := N.to_nat szN in
    quiet (tick cb KAlloc) ;;;
    emit (Alloc (for_buckets al) (buckets_len sz)) ;;;
    on_exn (quiet (tick cb KAlloc)) (emit (Free (for_buckets al) (buckets_len sz))) ;;;
    emit (Alloc (for_groups al) (groups_len sz)) ;;;
    gs <- of_option (new_groups sz) ;;
    ret (BA idx sz (repeat [] (sz + 1)) gs al).
(** l.644-675 [deallocate]: both arrays or none *)
Definition b_dealloc' {X} (al : N) (b : barray) : M (L X) unit :=
  of_option (b_dealloc al b) ;;;
  if Nat.eqb (b_size b) 0 then ret tt
  else emit (Free (for_buckets al) (buckets_len (b_size b))) ;;; emit (Free (for_groups al) (groups_len (b_size b))).

(** implementation.hpp l.2758-2802 [rehash_impl]; the local array is released on every exit *)
Definition rehash_body' (t : table) : M (L RSt) unit :=
  on_exn (quiet (transfer_all c (seq 0 (b_size (f_b t)))))
    (s <- get ;;
     it <- of_option (b_begin (snd (fst s))) ;;
     quiet (delete_transferred (S (b_size (snd (fst s)))) it) ;;;
     quiet (on_st (on_b (@b_unlink_empty K V))) ;;;
     s <- get ;;
     b_dealloc' (f_al t) (snd (fst s)) ;;; ret tt) ;;;
  s <- get ;;
  b_dealloc' (f_al t) (f_b (fst (fst (fst s)))) ;;;
  quiet (modify (fun s : RSt => ((recalc (set_b (snd s) (fst (fst s))), snd (fst s)), b_null (f_al t)))).
Definition rehash_impl' (n : N) : M (L St) unit :=
  s <- get ;;
  let t := fst (fst s) in
  nb <- new_barray' (f_al t) n ;;
  (fun s m =>
    match rehash_body' t ((fst s, nb), snd s) m with
    | Ret a s' m' => Ret a (fst (fst s'), snd s') m'
    | Exn k s' m' => Exn k (fst (fst s'), snd s') m'
    | Undef => Undef
    end).
Definition get_t' : M (L St) table := s <- get ;; ret (fst (fst s)).
(** l.2728-2756 *)
Definition rehash' (n : N) : M (L St) unit :=
  t <- get_t' ;;
  nb <- of_option (bucket_count_for (N.max (min_buckets (f_size t) (f_mlf t)) n)) ;;
  if negb (N.eqb nb (bucket_count (f_b t))) then rehash_impl' nb else ret tt.
Definition reserve' (n : N) : M (L St) unit := t <- get_t' ;; rehash' (min_buckets n (f_mlf t)).
Definition reserve_for_insert' (n : N) : M (L St) unit :=
  t <- get_t' ;;
  if N.ltb (f_ml t) n then
    q <- of_option (ceil_div n (f_mlf t)) ;;
    let r := f32_trunc (f32_add f32_one (q * 2 ^ 149)) in
    if Z.leb (2 ^ 64) r then undef
    else rehash_impl' (N.max (Z.to_N r) (uadd (bucket_count (f_b t)) 1))
  else ret tt.

(** *** Insertion, unique keys: l.1854-2070, 2182-2211 *)
Definition grow_for_one' (h : N) (itb : biter) : M (L St) biter :=
  t <- get_t' ;;
  if N.ltb (f_ml t) (uadd (f_size t) 1) then
    reserve' (uadd (f_size t) 1) ;;;
    t <- get_t' ;;
    of_option (at_hash (f_b t) h)
  else ret itb.
Definition grow_insert' (x : node) (h : N) (itb : biter) : M (L St) eit :=
  itb <- grow_for_one' h itb ;;
  quiet (on_b (fun b => insert_node b itb x)) ;;;
  quiet (mod_t inc_size) ;;;
  ret (EI (Some (nd_id x)) itb).
Definition emplace_unique_key' (kd : kind) (e : K * V) : M (L St) (eit * bool) :=
  t <- get_t' ;;
  h <- quiet (hash_for cb (f_hid t) (fst e)) ;;
  itb <- of_option (at_hash (f_b t) h) ;;
  r <- quiet (find_node_impl c t (fst e) itb) ;;
  match r with
  | Some i => ret (EI (Some i) itb, false)
  | None =>
      x <- quiet (new_node c kd e) ;;
      it <- on_exn (grow_insert' x h itb) (quiet (delete_node x)) ;;
      ret (it, true)
  end.
Definition emplace_unique_nokey' (kd : kind) (e : K * V) : M (L St) (eit * bool) :=
  x <- quiet (new_node c kd e) ;;
  on_exn
    (t <- get_t' ;;
     h <- quiet (hash_for cb (f_hid t) (fst e)) ;;
     itb <- of_option (at_hash (f_b t) h) ;;
     r <- quiet (find_node_impl c t (fst e) itb) ;;
     match r with
     | Some i => quiet (delete_node x) ;;; ret (EI (Some i) itb, false)
     | None => it <- grow_insert' x h itb ;; ret (it, true)
     end)
    (quiet (delete_node x)).
Definition emplace_unique' (kf : bool) (kd : kind) (e : K * V) : M (L St) (eit * bool) :=
  if kf then emplace_unique_key' kd e else emplace_unique_nokey' kd e.
Definition emplace_hint_unique' (kf : bool) (hint : eit) (e : K * V) : M (L St) eit :=
  if kf then
    b <- quiet (hint_matches c hint (fst e)) ;;
    if b : bool then ret hint else r <- emplace_unique_key' KConstruct e ;; ret (fst r)
  else
    x <- quiet (new_node c KConstruct e) ;;
    on_exn
      (b <- quiet (hint_matches c hint (fst e)) ;;
       if b : bool then quiet (delete_node x) ;;; ret hint
       else
         t <- get_t' ;;
         h <- quiet (hash_for cb (f_hid t) (fst e)) ;;
         itb <- of_option (at_hash (f_b t) h) ;;
         r <- quiet (find_node_impl c t (fst e) itb) ;;
         match r with
         | Some i => quiet (delete_node x) ;;; ret (EI (Some i) itb)
         | None => grow_insert' x h itb
         end)
      (quiet (delete_node x)).
Definition insert_or_assign_unique' (k : K) (v : V) : M (L St) (eit * bool) :=
  t <- get_t' ;;
  h <- quiet (hash_for cb (f_hid t) k) ;;
  itb <- of_option (at_hash (f_b t) h) ;;
  r <- quiet (find_node_impl c t k itb) ;;
  match r with
  | Some i => quiet (assign_value c (EI (Some i) itb) v) ;;; ret (EI (Some i) itb, false)
  | None =>
      x <- quiet (new_node c KConstruct (k, v)) ;;
      it <- on_exn (grow_insert' x h itb) (quiet (delete_node x)) ;;
      ret (it, true)
  end.
Fixpoint insert_range_unique' (l : list (K * V)) : M (L St) unit :=
  match l with [] => ret tt | e :: r => emplace_unique_nokey' KConstruct e ;;; insert_range_unique' r end.

(** *** Insertion, equivalent keys: l.2449-2607 *)
Definition emplace_equiv' (x : node) : M (L St) eit :=
  on_exn
    (t <- get_t' ;;
     h <- quiet (hash_for cb (f_hid t) (nkey x)) ;;
     itb <- of_option (at_hash (f_b t) h) ;;
     hint <- quiet (find_node_impl c t (nkey x) itb) ;;
     itb <- grow_for_one' h itb ;;
     quiet (on_b (fun b => insert_node_hint b itb x hint)) ;;;
     quiet (mod_t inc_size) ;;;
     ret (EI (Some (nd_id x)) itb))
    (quiet (delete_node x)).
Definition emplace_hint_equiv' (hint : eit) (x : node) : M (L St) eit :=
  on_exn
    (t <- get_t' ;;
     let needs_rehash := N.ltb (f_ml t) (uadd (f_size t) 1) in
     usable <- quiet (hint_matches c hint (nkey x)) ;;
     q <- (if negb usable then
             h <- quiet (hash_for cb (f_hid t) (nkey x)) ;;
             itb <- of_option (at_hash (f_b t) h) ;;
             p <- quiet (find_node_impl c t (nkey x) itb) ;;
             ret (h, itb, p)
           else if needs_rehash then
             h <- quiet (hash_for cb (f_hid t) (nkey x)) ;; ret (h, e_b hint, e_p hint)
           else ret (0%N, e_b hint, e_p hint)) ;;
     let '(h, itb, p) := q in
     itb <- (if needs_rehash then
               reserve' (uadd (f_size t) 1) ;;; t <- get_t' ;; of_option (at_hash (f_b t) h)
             else ret itb) ;;
     quiet (on_b (fun b => insert_node_hint b itb x p)) ;;;
     quiet (mod_t inc_size) ;;;
     ret (EI (Some (nd_id x)) itb))
    (quiet (delete_node x)).
Fixpoint insert_each_equiv' (l : list (K * V)) : M (L St) unit :=
  match l with [] => ret tt | e :: r => x <- quiet (new_node c KConstruct e) ;; emplace_equiv' x ;;; insert_each_equiv' r end.
Definition insert_range_equiv' (fwd : bool) (l : list (K * V)) : M (L St) unit :=
  if fwd then
    match l with
    | [] => ret tt
    | [e] => x <- quiet (new_node c KConstruct e) ;; emplace_equiv' x ;;; ret tt
    | _ => t <- get_t' ;; reserve_for_insert' (uadd (f_size t) (N.of_nat (length l))) ;;; quiet (insert_no_rehash c l)
    end
  else insert_each_equiv' l.

(** *** l.1545-1558 [delete_buckets], 1533 *)
Definition delete_buckets' : M (L St) unit :=
  t <- get_t' ;;
  it <- of_option (e_begin t) ;;
  quiet (delete_from (fuel_of t) it) ;;;
  t <- get_t' ;;
  b_dealloc' (f_al t) (f_b t) ;;;
  quiet (mod_t (fun t => set_b (b_null (f_al t)) t)).
Definition destroy_table' : M (L St) unit := delete_buckets'.

(** *** Node handles: l.2072-2139, 2511-2564 *)
Definition insert_handle_unique' (x : node) : M (L St) (eit * option node) :=
  t <- get_t' ;;
  h <- quiet (hash_for cb (f_hid t) (nkey x)) ;;
  itb <- of_option (at_hash (f_b t) h) ;;
  r <- quiet (find_node_impl c t (nkey x) itb) ;;
  match r with
  | Some i => ret (EI (Some i) itb, Some x)
  | None =>
      reserve_for_insert' (uadd (f_size t) 1) ;;;
      t <- get_t' ;;
      itb <- of_option (at_hash (f_b t) h) ;;
      quiet (on_b (fun b => insert_node b itb x)) ;;;
      quiet (mod_t inc_size) ;;;
      ret (EI (Some (nd_id x)) itb, None)
  end.
Definition insert_handle_hint_unique' (hint : eit) (x : node) : M (L St) (eit * option node) :=
  b <- quiet (hint_matches c hint (nkey x)) ;;
  if b : bool then ret (hint, Some x)
  else
    t <- get_t' ;;
    h <- quiet (hash_for cb (f_hid t) (nkey x)) ;;
    itb <- of_option (at_hash (f_b t) h) ;;
    r <- quiet (find_node_impl c t (nkey x) itb) ;;
    match r with
    | Some i => ret (EI (Some i) itb, Some x)
    | None => it <- grow_insert' x h itb ;; ret (it, None)
    end.
Definition insert_handle_equiv' (x : node) : M (L St) (eit * option node) :=
  t <- get_t' ;;
  reserve_for_insert' (uadd (f_size t) 1) ;;;
  t <- get_t' ;;
  h <- quiet (hash_for cb (f_hid t) (nkey x)) ;;
  itb <- of_option (at_hash (f_b t) h) ;;
  hint <- quiet (find_node_impl c t (nkey x) itb) ;;
  quiet (on_b (fun b => insert_node_hint b itb x hint)) ;;;
  quiet (mod_t inc_size) ;;;
  ret (EI (Some (nd_id x)) itb, None).
Definition insert_handle_hint_equiv' (hint : eit) (x : node) : M (L St) (eit * option node) :=
  t <- get_t' ;;
  h <- quiet (hash_for cb (f_hid t) (nkey x)) ;;
  itb <- (if N.ltb (f_ml t) (uadd (f_size t) 1) then
            reserve' (uadd (f_size t) 1) ;;; t <- get_t' ;; of_option (at_hash (f_b t) h)
          else ret (e_b hint)) ;;
  usable <- (match e_p hint with
             | None => ret false
             | Some i =>
                 t <- get_t' ;;
                 x' <- of_option (lookup_id i (concat (b_chains (f_b t)))) ;;
                 quiet (tick cb KEq) ;;; ret (keqf cb (f_pid t) (nkey x) (nkey x'))
             end) ;;
  q <- (if usable : bool then ret (itb, e_p hint)
        else
          t <- get_t' ;;
          itb <- of_option (at_hash (f_b t) h) ;;
          pos <- quiet (find_node_impl c t (nkey x) itb) ;;
          ret (itb, pos)) ;;
  quiet (on_b (fun b => insert_node_hint b (fst q) x (snd q))) ;;;
  quiet (mod_t inc_size) ;;;
  ret (EI (Some (nd_id x)) (fst q), None).
Definition insert_handle' (hint : option eit) (x : node) : M (L St) (eit * option node) :=
  match multi c, hint with
  | false, None => insert_handle_unique' x
  | false, Some h => insert_handle_hint_unique' h x
  | true, None => insert_handle_equiv' x
  | true, Some h => insert_handle_hint_equiv' h x
  end.

(** *** Construction, copy, move: l.1392-1427, 1502-1704, 2305-2348 *)
Definition new_table' {X} (h p al n : N) : M (L X) table :=
  b <- new_barray' al n ;;
  ret (recalc (FT h p al 0 (Some f32_one) 0 b)).
Definition copy_buckets' (src : table) : M (L St) unit :=
  reserve_for_insert' (f_size src) ;;;
  l <- of_option (elements src) ;;
  quiet (copy_nodes c l).
Definition construct_then' (mk : M (L heap) table) (body : M (L St) unit) : M (L heap) table := fun h n =>
  match mk h n with
  | Ret t h1 n1 =>
      match body ((t, fst h1), snd h1) n1 with
      | Ret _ s n2 => Ret (fst (fst s)) (snd (fst s), snd s) n2
      | Exn k s n2 => match destroy_table' s n2 with Ret _ s' n3 => Exn k (snd (fst s'), snd s') n3 | _ => Undef end
      | Undef => Undef
      end
  | Exn k h1 n1 => Exn k h1 n1
  | Undef => Undef
  end.
Definition copy_construct' (x : table) (al : N) : M (L heap) table :=
  construct_then'
    (b <- new_barray' al (f_size x) ;; ret (recalc (FT (f_hid x) (f_pid x) al 0 (f_mlf x) 0 b)))
    (if N.ltb 0 (f_size x) then copy_buckets' x else ret tt).
Definition on1' {A} (m : M (L St) A) : M (L St2) A := part (fun s => (fst (fst s), snd s)) (fun s x => ((fst x, snd (fst s)), snd x)) m.
Definition on2' {A} (m : M (L St) A) : M (L St2) A := part (fun s => (snd (fst s), snd s)) (fun s x => ((fst (fst s), fst x), snd x)) m.
Definition get2' : M (L St2) (table * table) := s <- get ;; ret (fst (fst s)).
Definition move_body' (al : N) (x t : table) : M (L St2) unit :=
  if N.eqb al (f_al x) then
    b_dealloc' al (f_b t) ;;;
    quiet (put2 (FT (f_hid t) (f_pid t) al (f_size x) (f_mlf t) (f_ml x) (f_b x), emptied x))
  else if N.eqb (f_size x) 0 then ret tt
  else
    on1' (reserve' (f_size x)) ;;;
    it <- of_option (e_begin x) ;;
    quiet (move_nodes_from c (fuel_of x) it).
Definition move_construct_al' (al : N) : M (L St) table := fun s n =>
  let x := fst (fst s) in
  match (b <- new_barray' al (bucket_count (f_b x)) ;; ret (recalc (FT (f_hid x) (f_pid x) al 0 (f_mlf x) 0 b))) s n with
  | Ret t s1 n1 =>
      match move_body' al x t (((t, x), snd (fst s1)), snd s1) n1 with
      | Ret _ s2 n2 => Ret (fst (fst (fst s2))) ((snd (fst (fst s2)), snd (fst s2)), snd s2) n2
      | Exn k s2 n2 =>
          match destroy_table' ((fst (fst (fst s2)), snd (fst s2)), snd s2) n2 with
          | Ret _ s3 n3 => Exn k ((snd (fst (fst s2)), snd (fst s3)), snd s3) n3 | _ => Undef end
      | Undef => Undef
      end
  | Exn k s1 n1 => Exn k s1 n1
  | Undef => Undef
  end.
Definition assign_noprop' (x : table) : M (L St) unit :=
  quiet (mod_t (fun t => recalc (set_mlf (f_mlf x) t))) ;;;
  reserve_for_insert' (f_size x) ;;;
  quiet (@clear K V) ;;;
  quiet (mod_t (set_hp (f_hid x) (f_pid x))) ;;;
  copy_buckets' x.
Definition copy_assign' (x : table) : M (L St) unit :=
  t <- get_t' ;;
  if pocca cb then
    if N.eqb (f_al t) (f_al x) then assign_noprop' x
    else
      nb <- new_barray' (f_al x) (f_size x) ;;
      quiet (mod_t (set_hp (f_hid x) (f_pid x))) ;;;
      delete_buckets' ;;;
      quiet (mod_t (fun t => set_b nb (set_al (f_al x) t))) ;;;
      quiet (mod_t (set_mlf (f_mlf x))) ;;;
      reserve' (f_size x) ;;;
      (if N.ltb 0 (f_size x) then copy_buckets' x else ret tt)
  else assign_noprop' x.
Definition move_assign' : M (L St2) unit :=
  ts <- get2' ;;
  let '(t, x) := ts in
  if pocma cb || N.eqb (f_al t) (f_al x) then
    on1' (quiet (mod_t (set_hp (f_hid x) (f_pid x))) ;;; delete_buckets') ;;;
    quiet (on1 (mod_t (fun t => FT (f_hid t) (f_pid t) (if pocma cb then f_al x else f_al t) (f_size x) (f_mlf x) (f_ml x) (f_b x))) ;;;
           on2 (mod_t (@emptied K V)))
  else
    on1' (quiet (mod_t (fun t => recalc (set_mlf (f_mlf x) t))) ;;;
          (if N.ltb 0 (f_size x) then reserve_for_insert' (f_size x) else ret tt) ;;;
          quiet (@clear K V) ;;;
          quiet (mod_t (set_hp (f_hid x) (f_pid x)))) ;;;
    it <- of_option (e_begin x) ;;
    quiet (move_assign_nodes c (fuel_of x) it).

(** *** Merge: l.2141-2174, unordered_map.hpp l.2324-2362 *)
Definition merge_unique' : M (L St2) unit :=
  ts <- get2' ;;
  let '(t, x) := ts in
  if negb (N.eqb (f_al t) (f_al x)) then undef
  else if N.eqb (f_size x) 0 then ret tt
  else
    on1' (reserve_for_insert' (uadd (f_size t) (f_size x))) ;;;
    it <- of_option (e_begin x) ;;
    quiet (merge_from c (fuel_of x) it).
Fixpoint merge_multi_from' (fuel : nat) : M (L St2) unit :=
  match fuel with
  | O => undef
  | S fuel' =>
      ts <- get2' ;;
      if N.eqb (f_size (snd ts)) 0 then ret tt
      else
        it <- of_option (e_begin (snd ts)) ;;
        y <- quiet (on2 (extract_at it)) ;;
        on1' (on_exn (insert_handle_equiv' y) (quiet (delete_node y))) ;;;
        merge_multi_from' fuel'
  end.
Definition merge' : M (L St2) unit :=
  if multi c then
    ts <- get2' ;;
    if negb (N.eqb (f_al (fst ts)) (f_al (snd ts))) then undef else merge_multi_from' (fuel_of (snd ts))
  else merge_unique'.

(** *** Programs: FcaWorld.v *)
Notation op1 := (op1 K V). Notation op := (op K V). Notation value := (value K V). Notation result := (result K V).
Notation mworld := (@mworld K V).
Definition exec1' (o : op1) : M (L St) value :=
  match o with
  | Insert kf e =>
      if multi c then x <- quiet (new_node c KConstruct e) ;; it <- emplace_equiv' x ;; y <- quiet (deref it) ;; ret (VIns y true)
      else r <- emplace_unique' kf KConstruct e ;; y <- quiet (deref (fst r)) ;; ret (VIns y (snd r))
  | InsertHint kf m e =>
      hint <- quiet (it_at m) ;;
      if multi c then x <- quiet (new_node c KConstruct e) ;; it <- emplace_hint_equiv' hint x ;; y <- quiet (deref it) ;; ret (VFound (Some y))
      else it <- emplace_hint_unique' kf hint e ;; y <- quiet (deref it) ;; ret (VFound (Some y))
  | InsertRange fwd l => (if multi c then insert_range_equiv' fwd l else insert_range_unique' l) ;;; ret VUnit
  | AssignList l => quiet (@clear K V) ;;; (if multi c then insert_range_equiv' true l else insert_range_unique' l) ;;; ret VUnit
  | InsertOrAssign k v => r <- insert_or_assign_unique' k v ;; y <- quiet (deref (fst r)) ;; ret (VIns y (snd r))
  | Index dv k => r <- emplace_unique' true KConstruct (k, dv) ;; y <- quiet (deref (fst r)) ;; ret (VVal (snd (snd y)))
  | Rehash n => rehash' n ;;; ret VUnit
  | Reserve n => reserve' n ;;; ret VUnit
  | Find _ | At _ | Count _ | Contains _ | EqualRange _ | EraseKey _ | EraseNth _ | EraseRange _ _ | EraseIf _ | Clear | MaxLoadFactor _
  | Iterate | Size => quiet (exec1 c o)
  end.
Definition run1' {A} (i : nat) (m : M (L St) A) : M (L mworld) A := fun w n =>
  match slot (fst w) i with
  | None => Undef
  | Some t => match m ((t, hp (fst w)), snd w) n with
      | Ret a s n' => Ret a (put_tab (fst w) i (Some (fst (fst s))) (snd (fst s)), snd s) n'
      | Exn k s n' => Exn k (put_tab (fst w) i (Some (fst (fst s))) (snd (fst s)), snd s) n'
      | Undef => Undef end
  end.
Definition run2' {A} (i j : nat) (m : M (L St2) A) : M (L mworld) A := fun w n =>
  match slot (fst w) i, slot (fst w) j with
  | Some t, Some x =>
      if Nat.eqb i j then Undef else
      match m (((t, x), hp (fst w)), snd w) n with
      | Ret a s n' => Ret a (put_tab (put_tab (fst w) i (Some (fst (fst (fst s)))) (snd (fst s))) j (Some (snd (fst (fst s)))) (snd (fst s)), snd s) n'
      | Exn k s n' => Exn k (put_tab (put_tab (fst w) i (Some (fst (fst (fst s)))) (snd (fst s))) j (Some (snd (fst (fst s)))) (snd (fst s)), snd s) n'
      | Undef => Undef end
  | _, _ => Undef
  end.
Definition run0' {A} (m : M (L heap) A) : M (L mworld) A := part (@hp K V) (fun w h => MW (tabs w) (hands w) h) m.
Definition exec' (o : op) : M (L mworld) value :=
  match o with
  | On i o => run1' i (exec1' o)
  | New h p al n => t <- run0' (new_table' h p al n) ;; quiet (push t) ;;; ret VUnit
  | CopyConstruct j al => w <- get ;; x <- of_option (slot (fst w) j) ;; t <- run0' (copy_construct' x al) ;; quiet (push t) ;;; ret VUnit
  | MoveConstruct j => quiet (exec c (MoveConstruct j))
  | MoveConstructAl j al => t <- run1' j (move_construct_al' al) ;; quiet (push t) ;;; ret VUnit
  | Destroy i => run1' i destroy_table' ;;; quiet (modify (fun w => put_tab w i None (hp w))) ;;; ret VUnit
  | CopyAssign i j => w <- get ;; x <- of_option (slot (fst w) j) ;; run1' i (copy_assign' x) ;;; ret VUnit
  | MoveAssign i j => run2' i j move_assign' ;;; ret VUnit
  | Swap i j => run2' i j (quiet (swap_tables c)) ;;; ret VUnit
  | Merge i j => run2' i j merge' ;;; ret VUnit
  | Equal i j eeq => quiet (exec c (Equal i j eeq))
  | ExtractKey i k => quiet (exec c (ExtractKey i k))
  | ExtractNth i m => quiet (exec c (ExtractNth i m))
  | SetHandle h e => quiet (exec c (SetHandle h e))
  | InsertHandle i h hint => w <- get ;;
      match nth_error (hands (fst w)) h with
      | Some (Some x) =>
          r <- run1' i (hi <- quiet (match hint with None => ret None | Some m => it <- it_at m ;; ret (Some it) end) ;;
                        p <- insert_handle' hi x ;; y <- quiet (deref (fst p)) ;; ret (y, snd p)) ;;
          quiet (set_hand h (snd r)) ;;; ret (VIns (fst r) (match snd r with None => true | Some _ => false end))
      | Some None => ret (VFound None)
      | None => undef
      end
  | DropHandle h => quiet (exec c (DropHandle h))
  end.
Definition returned' (r : R (L mworld) value) (res : result) (w' : L mworld) : Prop :=
  match r with Ret v w _ => res = Done v /\ w' = w | Exn k w _ => res = Threw k /\ w' = w | Undef => False end.
(** a program from its start: no container, no call to an allocator yet *)
Inductive runs' : list (op * result) -> L mworld -> Prop :=
| runs'_nil : runs' [] (start, [])
| runs'_snoc rs w o n r w' : runs' rs w -> pre c o (fst w) -> returned' (exec' o w n) r w' -> runs' (rs ++ [(o, r)]) w'.
End Mem.
