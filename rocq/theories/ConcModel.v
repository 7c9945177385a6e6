(** The concurrent containers: detail/foa/concurrent_table.hpp. Threads interleave at the granularity of atomic accesses to the
    shared data; each step below performs at most one access that changes it ([eff]).
    Assumptions and simplifications:
    - accesses are interleaved sequentially consistently (the code uses relaxed atomics for the metadata, l.200-214);
    - the group locks and the container lock are those of C32 and C34: an exclusive holder excludes all others; a thread waiting
      for a lock is blocked; operations needing exclusive access to containers run in one step when no thread is inside;
    - group metadata is the byte-per-slot layout; a group is read one byte at a time, in any order, without a lock;
    - the element counter is unbounded (wrapping it needs 2^60 threads inside one container);
    - a call of a user function is one step together with the access to the element it is given: the element is locked.
      User functions do not call operations of the same container (the code detects this, reentrancy_check.hpp). *)
From Coq Require Import NArith Bool List Arith.
From Verif Require Import SizeModel GroupModel FoaModel FoaSpec FoaWorld ConcSpec.
Import ListNotations.
Local Open Scope m_scope.
Local Open Scope N_scope.

Section Conc.
Context {K V : Type} (c : Cfg K V).
Notation pair := (K * V)%type.
Notation table := (table K V).
Notation cell := (cell K V).
Notation pop := (pop K V). Notation cop := (cop K V). Notation cres := (cres K V). Notation act := (act K V).

(** One container: concurrent_table.hpp l.253-340 [concurrent_table_arrays] adds one lock and one insertion counter per group (l.221-235).
    [cnt]: number of increments of each counter since the arrays were allocated; the code's uint32 value is this number modulo 2^32.
    Locks are not stored: who holds them follows from the positions of the threads. *)
Record Sh := MkSh { tb : table; cnt : list N }.

(** local variables of unprotected_internal_visit (l.1302-1341) and unprotected_norehash_emplace_and_visit (l.1682-1724):
    hash, counter (its value when read, before reduction modulo 2^32), prober *)
Record ctx := Ctx { x_h : N; x_cg : N; x_pb : prober }.
Definition x_g (x : ctx) : nat := N.to_nat (pb_pos (x_pb x)).
Definition set_pb (x : ctx) (pb : prober) : ctx := Ctx (x_h x) (x_cg x) pb.

(** what follows the removal of an element: return, or go on with the slots [ms] of the group *)
Inductive kont := KP (e : pair) | KB (ms : list nat) (acc : list (pair * bool)).
(** why a reservation is given up *)
Inductive why := QRestart (h : N) | QThrow | QFull.

(** positions of a thread *)
Inductive loc :=
| LEnter                                   (* before shared_access() *)
| LHash                                    (* before hash_for(k) *)
| LCount (h : N)                           (* before counter=insert_counter(pos0) *)
| LScan (x : ctx) (u m : list nat)         (* reading the group: slots not read yet, slots that match *)
| LLock (x : ctx) (m : list nat)           (* before access(access_mode,pos) *)
| LCheck (x : ctx) (m : list nat)          (* locked: before is_occupied(n), or before unlocking *)
| LCmp (x : ctx) (n : nat) (m : list nat)  (* before pred()(k,key) *)
| LCall (x : ctx) (n : nat)                (* before f(element) *)
| LMl (g n : nat) (kt : kont)              (* element destroyed; before ml-=maybe_caused_overflow *)
| LReset (g n : nat) (kt : kont)           (* before reset *)
| LDec (g : nat) (kt : kont)               (* before --size *)
| LOvf (x : ctx)                           (* before is_not_overflowed *)
| LRes (x : ctx)                           (* before ++size *)
| LChk (x : ctx) (s : N)                   (* before size_<=ml *)
| LIns (x : ctx)                           (* before access(group_exclusive,pos) *)
| LAvail (x : ctx)                         (* locked: before match_available *)
| LSkip (x : ctx)                          (* marked as overflowed, before unlocking *)
| LCnt (x : ctx) (n : nat)                 (* slot reserved: before insert_counter(pos0)++ *)
| LCons (x : ctx) (n : nat)                (* before construct_element *)
| LUndo (g n : nat) (q : why)              (* before ~reserve_slot *)
| LUndoUnl (g : nat) (q : why)             (* before unlocking *)
| LFail (q : why)                          (* before ~reserve_size *)
| LOut                                     (* res<0: before releasing the container *)
| LFull                                    (* before rehash_if_full *)
| BGrp (g : nat) (acc : list (pair * bool))                    (* bulk: before locking group g *)
| BMask (g : nat) (acc : list (pair * bool))                   (* before match_really_occupied *)
| BElem (g : nat) (ms : list nat) (acc : list (pair * bool))   (* before f on the next slot, or before unlocking *)
| SMl | SSz (m : N)                        (* size(): before reading ml, size *)
| LUnl (g : nat) (x : bool) (r : cres)     (* before unlocking group g *)
| LDone (r : cres)                         (* before releasing the container *)
| LRet (r : cres).                         (* before returning r *)

(** the access made by a step *)
Inductive eff :=
| ENone
| ESzInc | ESzDec
| EMlDec (b : bool)
| ESet (g n : nat) (h : N) | EReset (g n : nat) | EMark (g : nat) (h : N)
| ECnt (g : nat)
| ECell (i : nat) (x : cell).

(** an update of the metadata of one group: the atomic accesses of group15, core.hpp l.218-798 (GroupModel.v) *)
Definition on_groups (s : Sh) (g : nat) (f : bytes16 -> bytes16) : option Sh :=
  match put_group g f (arr (tb s)) O with Ret _ a _ => Some (MkSh (set_arr (tb s) a) (cnt s)) | _ => None end.
(** None: undefined (underflow, write outside the arrays or to the shared dummy group) *)
Definition apply (e : eff) (s : Sh) : option Sh :=
  match e with
  | ENone => Some s
  | ESzInc => Some (MkSh (set_sz (tb s) (sz (tb s) + 1)) (cnt s))
  | ESzDec => if sz (tb s) =? 0 then None else Some (MkSh (set_sz (tb s) (sz (tb s) - 1)) (cnt s))
  | EMlDec b => if b then if ml (tb s) =? 0 then None else Some (MkSh (set_ml (tb s) (ml (tb s) - 1)) (cnt s)) else Some s
  | ESet g n h => on_groups s g (fun b => b_set b n h)
  | EReset g n => on_groups s g (fun b => b_reset b n)
  | EMark g h => on_groups s g (fun b => b_mark_overflow b h)
  | ECnt g => match nth_error (cnt s) g with Some n => Some (MkSh (tb s) (set_nth (cnt s) g (n + 1))) | None => None end
  | ECell i x => match put_cell i x (arr (tb s)) O with Ret _ a _ => Some (MkSh (set_arr (tb s) a) (cnt s)) | _ => None end
  end.

(** what a step does: it waits for a lock, is undefined, or has an effect and goes on; no counterpart in /repo *)
Inductive outcome := Blocked | Ub | Step (e : eff) (l : loc) (a : option act).
(** a step without effect on the container; no counterpart in /repo *)
Definition go (l : loc) : outcome := Step ENone l None.

(** the 15 slots of a group (core.hpp l.218-798: group15, N=15) *)
Definition all15 : list nat := seq 0 15.
Definition memb (i : nat) (l : list nat) : bool := existsb (Nat.eqb i) l.
(** the mask is walked from its lowest bit (unchecked_countr_zero, mask&=mask-1) *)
Definition in_order (m : list nat) : list nat := filter (fun i => memb i m) all15.

(** access_mode of the lookup: group_exclusive for visit and erase, per the operation for insertions *)
Definition exclusive (p : pop) : bool := match p with PVisit x _ _ => x | PErase _ _ => true | PEmplace x _ _ _ _ => x end.

(** calling f on element e in slot i of group g, at position n: l.1286-1294 (visit), 916-926 (erase_if), 1692-1696 (f2) *)
Definition visit_slot (p : pop) (g n : nat) (e : pair) : outcome :=
  let i := slot_index g n in
  let upd x v r := Step (if x : bool then ECell i (Live (fst e, v)) else ENone) (LUnl g (exclusive p) r) (Some (APoint r)) in
  match p with
  | PVisit x _ f => let '(v, b) := f e in upd x v (match b with Some _ => RSeen e | None => RThrew end)
  | PEmplace x _ _ _ f2 => let '(v, b) := f2 e in upd x v (match b with Some _ => RSeen e | None => RThrew end)
  | PErase _ f =>
      match f e with
      | (v, Some true) => Step (ECell i Raw) (LMl g n (KP e)) (Some (APoint (RErased e)))   (* super::erase: core.hpp l.1692-1704 *)
      | (v, Some false) => upd true v (RKept e)
      | (v, None) => upd true v RThrew
      end
  end.

(** bulk visitation (ConcBulk.v) visits several keys; if the visit of one throws, the others are given up *)
Definition gives_up (p : pop) : bool := match p with PVisit _ _ _ => true | _ => false end.
(** end of an unsuccessful lookup *)
Definition not_found (p : pop) (x : ctx) : outcome :=
  match p with PEmplace _ _ _ _ _ => go (LRes x) | _ => go (LDone RNone) end.

(** single-key operations: visit_impl l.1206-1214, erase_if(key) l.910-928, emplace_and_visit_impl l.1597-1611.
    [free g x]: group g can be locked (exclusively if x); [i]: the next slot read by an unlocked scan;
    [thr]: the call of the hash function, the predicate or the constructor throws,
    or (before a lookup has locked a group, bulk visitation only) the visit of another key has thrown *)
Definition pstep (free : nat -> bool -> bool) (s : Sh) (p : pop) (l : loc) (i : nat) (thr : bool) : outcome :=
  let t := tb s in let a := arr t in let pos0 h := position h (a_gsi a) in
  match l with
  | LEnter => go LHash
  | LHash =>
      if thr then Step ENone (LDone RThrew) (Some (APoint RThrew)) else
      let h := hash_of c (hid t) (pkey p) in
      match p with PEmplace _ _ _ _ _ => go (LCount h) | _ => go (LScan (Ctx h 0 (pb_init (pos0 h))) all15 []) end
  | LCount h =>
      match nth_error (cnt s) (N.to_nat (pos0 h)) with
      | None => Ub
      | Some n => go (LScan (Ctx h n (pb_init (pos0 h))) all15 [])
      end
  (* unprotected_internal_visit, l.1302-1341 *)
  | LScan x u m =>
      if thr && gives_up p then Step ENone (LDone RThrew) (Some (APoint RThrew)) else
      match u with
      | [] => match m with [] => go (LOvf x) | _ => go (LLock x (in_order m)) end
      | _ => if memb i u then
               match get_group a (x_g x) with
               | None => Ub
               | Some b => go (LScan x (remove Nat.eq_dec i u) (if N.testbit (b_match b (x_h x)) (N.of_nat i) then i :: m else m))
               end
             else Blocked
      end
  | LLock x m => if free (x_g x) (exclusive p) then go (LCheck x m) else Blocked
  | LCheck x [] => go (LOvf x)
  | LCheck x (n :: m) =>
      match get_group a (x_g x) with
      | None => Ub
      | Some b => if b_is_occupied b n then go (LCmp x n m) else go (LCheck x m)
      end
  | LCmp x n m =>
      match get_cell a (slot_index (x_g x) n) with
      | Some (Live e) =>
          if thr then Step ENone (LUnl (x_g x) (exclusive p) RThrew) (Some (APoint RThrew))
          else if keqf c (pid t) (pkey p) (fst e) then go (LCall x n) else go (LCheck x m)
      | _ => Ub
      end
  | LCall x n =>
      match get_cell a (slot_index (x_g x) n) with
      | Some (Live e) => visit_slot p (x_g x) n e
      | _ => Ub
      end
  | LOvf x =>
      match get_group a (x_g x) with
      | None => Ub
      | Some b =>
          if b_is_not_overflowed b (x_h x) then not_found p x
          else let '(pb, more) := pb_next (x_pb x) (a_mask a) in
               if more then go (LScan (set_pb x pb) all15 []) else not_found p x
      end
  (* unprotected_norehash_emplace_and_visit, l.1698-1724, reserve_size l.1641-1660, reserve_slot l.1662-1680 *)
  | LRes x => Step ESzInc (LChk x (sz t + 1)) None
  | LChk x n => if n <=? ml t then go (LIns (set_pb x (pb_init (pos0 (x_h x))))) else go (LFail QFull)
  | LIns x => if free (x_g x) true then go (LAvail x) else Blocked
  | LAvail x =>
      match get_group a (x_g x) with
      | None => Ub
      | Some b =>
          let mask := b_match_available b in
          if negb (mask =? 0) then let n := countr_zero mask in Step (ESet (x_g x) n (x_h x)) (LCnt x n) None
          else Step (EMark (x_g x) (x_h x)) (LSkip x) None
      end
  | LSkip x => go (LIns (set_pb x (fst (pb_next (x_pb x) (a_mask a)))))
  | LCnt x n =>
      let g0 := N.to_nat (pos0 (x_h x)) in
      match nth_error (cnt s) g0 with
      | None => Ub
      | Some m => Step (ECnt g0)
          (if negb (m mod 2 ^ 32 =? x_cg x mod 2 ^ 32) then LUndo (x_g x) n (QRestart (x_h x)) else LCons x n) None
      end
  | LCons x n =>
      match p, get_cell a (slot_index (x_g x) n) with
      | PEmplace _ k v f1 _, Some Raw =>
          if thr then Step ENone (LUndo (x_g x) n QThrow) (Some (APoint RThrew))
          else let '(v', b) := f1 (k, v) in
               let r := match b with Some _ => RIns | None => RThrew end in
               Step (ECell (slot_index (x_g x) n) (Live (k, v'))) (LUnl (x_g x) true r) (Some (APoint r))
      | _, _ => Ub
      end
  | LUndo g n q => Step (EReset g n) (LUndoUnl g q) None
  | LUndoUnl g q => go (LFail q)
  | LFail q => Step ESzDec (match q with QRestart h => LCount h | QThrow => LDone RThrew | QFull => LOut end) None
  | LOut => go LFull
  (* recover_slot, core.hpp l.2260-2274 *)
  | LMl g n kt => match get_group a g with None => Ub | Some b => Step (EMlDec (b_maybe_caused_overflow b n)) (LReset g n kt) None end
  | LReset g n kt => Step (EReset g n) (LDec g kt) None
  | LDec g (KP e) => Step ESzDec (LUnl g true (RErased e)) None
  | LUnl g x r => go (LDone r)
  | LDone r => go (LRet r)
  | _ => Ub
  end.

(** visit_all, visit_while, erase_if(pred): for_all_elements_while l.1758-1777, callers l.1236-1247, 1262-1269, 930-943 *)
Definition bstep (free : nat -> bool -> bool) (s : Sh) (x : bool) (md : bmode) (f : nat -> ufun K V) (l : loc) : outcome :=
  let a := arr (tb s) in
  match l with
  | LEnter => go (BGrp 0 [])
  | BGrp g acc =>
      match a_elems a with
      | None => go (LDone (RBulk acc BDone))
      | Some _ => if Nat.eqb g (N.to_nat (a_mask a + 1)) then go (LDone (RBulk acc BDone))
                  else if free g x then go (BMask g acc) else Blocked
      end
  | BMask g acc =>
      match get_group a g with
      | None => Ub
      | Some b => go (BElem g (mask_loop 16 (match_really_occupied b (Nat.eqb (S g) (N.to_nat (a_mask a + 1))))) acc)
      end
  | BElem g [] acc => go (BGrp (S g) acc)
  | BElem g (n :: ms) acc =>
      let i := slot_index g n in
      match get_cell a i with
      | Some (Live e) =>
          let '(v, ob) := f (length acc) e in
          let d := erases md ob in
          let acc' := acc ++ [(e, d)] in
          Step (if d then ECell i Raw else if x then ECell i (Live (fst e, v)) else ENone)
               (if d then LMl g n (KB ms acc')
                else match ob with
                     | None => LUnl g x (RBulk acc' BThrew)
                     | Some b => if goes_on md ob then BElem g ms acc' else LUnl g x (RBulk acc' BHalted)
                     end)
               (Some (AElem e d))
      | _ => Ub
      end
  | LMl g n kt => match get_group a g with None => Ub | Some b => Step (EMlDec (b_maybe_caused_overflow b n)) (LReset g n kt) None end
  | LReset g n kt => Step (EReset g n) (LDec g kt) None
  | LDec g (KB ms acc) => Step ESzDec (BElem g ms acc) None
  | LUnl g x r => go (LDone r)
  | LDone r => go (LRet r)
  | _ => Ub
  end.

(** size() l.1062-1066, unprotected_size l.1424-1429 *)
Definition sstep (s : Sh) (l : loc) : outcome :=
  match l with
  | LEnter => go SMl
  | SMl => go (SSz (ml (tb s)))
  | SSz m => let r := if sz (tb s) <=? m then sz (tb s) else m in Step ENone (LDone (RSize r)) (Some (ASize r))
  | LDone r => go (LRet r)
  | _ => Ub
  end.

(** one step of a call: the functions above, by operation *)
Definition lstep (free : nat -> bool -> bool) (s : Sh) (o : cop) (l : loc) (i : nat) (thr : bool) : outcome :=
  match o with
  | Point p => pstep free s p l i thr
  | Bulk x md f => bstep free s (writes x md) md f l
  | SizeOf => sstep s l
  end.

(** the group lock held at a position, and whether it is exclusive *)
Definition mode (o : cop) : bool := match o with Point p => exclusive p | Bulk x md _ => writes x md | SizeOf => false end.
Definition lock_of (o : cop) (l : loc) : option (nat * bool) :=
  match l with
  | LCheck x _ | LCmp x _ _ | LCall x _ => Some (x_g x, mode o)
  | LMl g _ _ | LReset g _ _ | LDec g _ | LUndo g _ _ | LUndoUnl g _ => Some (g, true)
  | LAvail x | LSkip x | LCnt x _ | LCons x _ => Some (x_g x, true)
  | BMask g _ | BElem g _ _ => Some (g, mode o)
  | LUnl g x _ => Some (g, x)
  | _ => None
  end.
(** positions at which the thread does not hold the container lock *)
Definition outside (l : loc) : bool := match l with LEnter | LFull | LRet _ => true | _ => false end.

(** threads *)
Inductive pc := Idle | At (d : nat) (o : cop) (l : loc) | AtW (o : op K V) | RetW (r : result K V).
Record conf := Conf { boxes : list (option Sh); th : list pc }.

(** what the other threads hold in container d allows the lock *)
Definition allows (d g : nat) (x : bool) (p : pc) : bool :=
  match p with
  | At d' o l => match lock_of o l with
                 | Some (g', x') => negb (Nat.eqb d' d && Nat.eqb g' g) || (negb x && negb x')
                 | None => true end
  | _ => true
  end.
Definition others {A} (l : list A) (t : nat) : list A := firstn t l ++ skipn (S t) l.
Definition free_for (C : conf) (t d g : nat) (x : bool) : bool := forallb (allows d g x) (others (th C) t).
(** no other thread is inside container d *)
Definition inside (d : nat) (p : pc) : bool := match p with At d' _ l => Nat.eqb d' d && negb (outside l) | _ => false end.
Definition alone (C : conf) (t d : nat) : bool := forallb (fun p => negb (inside d p)) (others (th C) t).
(** no thread has a call on container d in progress *)
Definition on (d : nat) (p : pc) : bool := match p with At d' _ _ => Nat.eqb d' d | _ => false end.

(** lookup and update of containers and threads of a configuration; no counterpart in /repo *)
Definition box (C : conf) (d : nat) : option Sh := match nth_error (boxes C) d with Some o => o | None => None end.
Definition set_th (C : conf) (t : nat) (p : pc) : conf := Conf (boxes C) (set_nth (th C) t p).
Definition set_box (C : conf) (d : nat) (s : Sh) : conf := Conf (set_nth (boxes C) d (Some s)) (th C).

(** rehash_if_full, l.1726-1732; core.hpp l.1974-1978 *)
Definition rehash_if_full : M table unit := fun t n =>
  if sz t =? ml t then unchecked_rehash c (growth_request (sz t)) t n else Ret tt t n.

(** operator=(initializer_list), l.540-549; unprotected_emplace (l.1613-1629) does what emplace_impl (table.hpp l.629-655) does *)
Definition conc_assign_list (l : list pair) : M table unit :=
  clear ;;; (noshrink_reserve c (N.of_nat (length l)) ;;; m_insert_range c l).
(** operations on whole containers (l.487-549, 962-975, 999-1016, 1067-1077, 1092-1096): the code locks them and calls the functions of the
    base class table_core, modelled in FoaModel. The operations of the non-concurrent containers are also included: a non-concurrent container
    is used by one thread at a time, and becomes a concurrent one, and vice versa, by the move construction of ConcConv.v. *)
Definition wexec (o : op K V) : M (mworld (K:=K) (V:=V)) (value K V) :=
  match o with
  | On i (AssignList l) => run1 i (conc_assign_list l ;;; ret VUnit)
  | _ => exec c o
  end.
Definition wpre (o : op K V) (w : mworld (K:=K) (V:=V)) : Prop :=
  pre c o w /\ match o with On _ (AssignList l) => size_ok c (ceil_div_mlf (N.of_nat (length l))) | _ => True end.
(** the containers with no thread inside; a destroyed container must have no call in progress *)
Definition idle_world (C : conf) (o : op K V) : mworld (K:=K) (V:=V) :=
  map (fun d => match box C d with
                | Some s => if existsb (match o with Destroy _ => on d | _ => inside d end) (th C) then None else Some (tb s)
                | None => None end) (seq 0 (length (boxes C))).
(** putting back the containers that are in use; the counters of the others are those of their arrays: any values *)
Definition put_back (C : conf) (w0 w : mworld (K:=K) (V:=V)) (bs : list (option Sh)) : Prop :=
  length bs = length w /\
  forall d, (d < length w)%nat ->
    match slot w0 d, box C d with
    | None, Some s => nth_error bs d = Some (Some s)
    | _, _ => match slot w d with
              | Some t => exists n, nth_error bs d = Some (Some (MkSh t n)) /\ length n = length (a_groups (arr t))
              | None => nth_error bs d = Some None
              end
    end.

(** one step of one thread *)
Inductive gstep : conf -> option (event K V) -> conf -> Prop :=
| g_call C t d o s : nth_error (th C) t = Some Idle -> box C d = Some s ->
    gstep C (Some (ECall t (OnC d o))) (set_th C t (At d o LEnter))
| g_local C t d o l s i thr e l' a s' : nth_error (th C) t = Some (At d o l) -> box C d = Some s ->
    lstep (free_for C t d) s o l i thr = Step e l' a -> apply e s = Some s' ->
    gstep C (option_map (ELin t) a) (set_box (set_th C t (At d o l')) d s')
| g_full C t d o s n t' n' cn : nth_error (th C) t = Some (At d o LFull) -> box C d = Some s -> alone C t d = true ->
    rehash_if_full (tb s) n = Ret tt t' n' -> length cn = length (a_groups (arr t')) ->
    gstep C None (set_box (set_th C t (At d o LEnter)) d (MkSh t' cn))
| g_full_exn C t d o s n kd t' n' cn : nth_error (th C) t = Some (At d o LFull) -> box C d = Some s -> alone C t d = true ->
    rehash_if_full (tb s) n = Exn kd t' n' -> length cn = length (a_groups (arr t')) ->
    gstep C (Some (ELin t (APoint RThrew))) (set_box (set_th C t (At d o (LRet RThrew))) d (MkSh t' cn))
| g_ret C t d o r : nth_error (th C) t = Some (At d o (LRet r)) ->
    gstep C (Some (ERet t (AnsC r))) (set_th C t Idle)
| g_wcall C t o : nth_error (th C) t = Some Idle ->
    gstep C (Some (ECall t (Whole o))) (set_th C t (AtW o))
| g_whole C t o n r w bs : nth_error (th C) t = Some (AtW o) -> wpre o (idle_world C o) ->
    returned (wexec o (idle_world C o) n) r w -> put_back C (idle_world C o) w bs ->
    gstep C (Some (ELin t (AWhole r))) (Conf bs (set_nth (th C) t (RetW r)))
| g_wret C t r : nth_error (th C) t = Some (RetW r) ->
    gstep C (Some (ERet t (AnsW r))) (set_th C t Idle).

(** between the reading of an insertion counter and its comparison in one insertion, the counter (uint32 in the code) is
    incremented fewer than 2^32 times *)
Definition counters_fit (C : conf) : Prop := forall t d o x n s m,
  nth_error (th C) t = Some (At d o (LCnt x n)) -> box C d = Some s ->
  nth_error (cnt s) (N.to_nat (position (x_h x) (a_gsi (arr (tb s))))) = Some m -> m - x_cg x < 2 ^ 32.

(** executions of [n] threads from no container, all of whose states satisfy [P] *)
Inductive runs_with (P : conf -> Prop) (n : nat) : list (event K V) -> conf -> Prop :=
| r_nil : P (Conf [] (repeat Idle n)) -> runs_with P n [] (Conf [] (repeat Idle n))
| r_snoc es C e C' : runs_with P n es C -> gstep C e C' -> P C' ->
    runs_with P n (es ++ match e with Some x => [x] | None => [] end) C'.
End Conc.
