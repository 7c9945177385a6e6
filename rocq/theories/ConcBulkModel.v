(** visit(first,last,f) over a range of keys (bulk visitation): concurrent_table.hpp l.1216-1234, 1343-1425.
    Threads that make such calls are numbered separately from those of ConcModel. The local variables kept for each key of the range
    (hashes[i], positions[i], masks[i], and those of the lookup loop) are the position, in ConcModel, of an otherwise idle thread reserved for
    this key: the thread runs visit(key,f) for this key only, in the order imposed by the loops below. [b_ts]: these threads. *)
From Coq Require Import NArith Bool List Arith.
From Verif Require Import SizeModel GroupModel FoaModel FoaSpec FoaWorld ConcSpec ConcModel.
Import ListNotations.

Section BulkModel.
Context {K V : Type} (c : Cfg K V).
Notation loc := (@loc K V). Notation cres := (cres K V). Notation conf := (@conf K V). Notation pc := (@pc K V). Notation event := (event K V).

Definition bulk_visit_size : nat := 16.                                                       (* l.470 *)
Definition chunk (n : nat) : nat := if (n <? 2 * bulk_visit_size)%nat then n else bulk_visit_size.   (* l.1225 *)

(** the three loops of unprotected_bulk_visit: l.1355-1359, 1361-1370, 1372-1418 *)
Inductive phase := Hashing | Matching | Visiting.
Inductive bstate :=
| BWaiting                                                    (* before shared_access(), l.1221 *)
| BRun (first m : nat) (ph : phase) (i res : nat)             (* [first] keys in earlier chunks; [m]: this chunk; [i]: keys the loop has dealt with *)
| BThrown                                                     (* an exception is leaving the function *)
| BOut (r : option nat).                                      (* before returning r (None: the exception) *)
(** [b_keys]: the keys of the range and what the function does when called for each *)
Record bcall := BCallOf { b_d : nat; b_x : bool; b_keys : list (K * ufun K V); b_ts : list nat; b_st : bstate }.
Definition upd (b : bcall) (st : bstate) : bcall := BCallOf (b_d b) (b_x b) (b_keys b) (b_ts b) st.
Record bconf := BConf { bc : conf; bulks : list (option bcall) }.

(** the visit of one key *)
Definition key_op (x : bool) (kf : K * ufun K V) : cop K V := Point (PVisit x (fst kf) (snd kf)).
Definition key_at (b : bcall) (C : conf) (j : nat) (t : nat) (l : loc) : Prop := exists kf,
  nth_error (b_ts b) j = Some t /\ nth_error (b_keys b) j = Some kf /\ nth_error (th C) t = Some (At (b_d b) (key_op (b_x b) kf) l).
(** thread t makes one step of its lookup (g_local of ConcModel) *)
Inductive by_thread (C : conf) (t : nat) (i : nat) (thr : bool) : option event -> conf -> Prop :=
| by_thread_intro d o l s e l' a s' : nth_error (th C) t = Some (At d o l) -> box C d = Some s ->
    lstep c (free_for C t d) s o l i thr = Step e l' a -> apply e s = Some s' ->
    by_thread C t i thr (option_map (ELin t) a) (set_box (set_th C t (At d o l')) d s').
(** all threads of a call change position *)
Fixpoint place (C : conf) (ts : list nat) (ps : list pc) : conf :=
  match ts, ps with t :: ts', p :: ps' => place (set_th C t p) ts' ps' | _, _ => C end.
(** all keys of the call are at the positions ls *)
Definition keys_at (b : bcall) (C : conf) (ls : list loc) : Prop :=
  length ls = length (b_keys b) /\ forall j l, nth_error ls j = Some l -> exists t, key_at b C j t l.
Definition all_at (b : bcall) (ls : list loc) : list pc := map (fun x => At (b_d b) (key_op (b_x b) (fst x)) (snd x)) (combine (b_keys b) ls).

(** visible events: those of ConcModel, and the calls and returns of bulk visitations *)
Inductive bevent := BPlain (e : event) | BCall (u : nat) (d : nat) (x : bool) (keys : list (K * ufun K V)) (ts : list nat) | BRet (u : nat) (r : option nat).
Definition opt_ev (e : option event) : list bevent := match e with Some x => [BPlain x] | None => [] end.

(** thread t stands for a key of a bulk visitation in progress (concurrent_table.hpp l.1343-1417 treats up to 2*bulk_visit_size-1 keys at a time) *)
Definition owned (B : list (option bcall)) (t : nat) : Prop := exists u b, nth_error B u = Some (Some b) /\ In t (b_ts b).
(** the configuration after a step of bulk visitation u; no counterpart in /repo *)
Definition set_b (BC : bconf) (C : conf) (u : nat) (o : option bcall) : bconf := BConf C (set_nth (bulks BC) u o).
(** the thread of an event; no counterpart in /repo *)
Definition ev_thread (e : event) : nat := match e with ECall t _ | ELin t _ | ERet t _ => t end.

(** after the exception, the visits that are not finished are given up *)
Definition given_up (l : loc) : loc := match l with LDone r => LRet r | _ => LRet RThrew end.
Definition give_up_events (ts : list nat) (ls : list loc) : list bevent :=
  flat_map (fun x => match snd x with LDone _ => [] | _ => [BPlain (ELin (fst x) (APoint RThrew))] end) (combine ts ls).
Definition count (r : cres) : nat := match r with RSeen _ => 1 | _ => 0 end.

(** who makes a step: a bulk visitation, or anyone else; no counterpart in /repo *)
Inductive actor := Other | By (u : nat).
(** steps with bulk visitations: concurrent_table.hpp l.1343-1417, cases cited below *)
Inductive bstep : bconf -> actor -> list bevent -> bconf -> Prop :=
(** a step of another thread *)
| b_plain C B e C' : gstep c C e C' -> (forall t, owned B t -> nth_error (th C') t = nth_error (th C) t /\ forall x, e = Some x -> ev_thread x <> t) ->
    bstep (BConf C B) Other (opt_ev e) (BConf C' B)
(** the call *)
| b_call C B u d x keys ts s : nth_error B u = Some None -> box C d = Some s -> length ts = length keys -> NoDup ts ->
    (forall t, In t ts -> nth_error (th C) t = Some Idle) ->
    let b := BCallOf d x keys ts BWaiting in
    bstep (BConf C B) (By u) (BCall u d x keys ts :: map (fun y => BPlain (ECall (fst y) (OnC d (key_op x (snd y))))) (combine ts keys))
      (set_b (BConf C B) (place C ts (all_at b (repeat LEnter (length keys)))) u (Some b))
(** l.1221-1224: shared_access() *)
| b_enter C B u b : nth_error B u = Some (Some b) -> b_st b = BWaiting -> keys_at b C (repeat LEnter (length (b_keys b))) ->
    bstep (BConf C B) (By u) [] (set_b (BConf C B) (place C (b_ts b) (all_at b (repeat LHash (length (b_keys b))))) u
      (Some (upd b (BRun 0 (chunk (length (b_keys b))) Hashing 0 0))))
(** l.1355-1359 *)
| b_hash C B u b first m i res t j thr e C' l' : nth_error B u = Some (Some b) -> b_st b = BRun first m Hashing i res -> (i < m)%nat ->
    key_at b C (first + i) t LHash -> by_thread C t j thr e C' -> key_at b C' (first + i) t l' ->
    bstep (BConf C B) (By u) (opt_ev e) (set_b (BConf C B) C' u (Some (upd b match l' with LDone _ => BThrown | _ => BRun first m Hashing (S i) res end)))
| b_hash_end C B u b first m res : nth_error B u = Some (Some b) -> b_st b = BRun first m Hashing m res ->
    bstep (BConf C B) (By u) [] (set_b (BConf C B) C u (Some (upd b (BRun first m Matching 0 res))))
(** l.1361-1370; the first group of a key is read one slot at a time *)
| b_match C B u b first m i res t x v vs mk j e C' : nth_error B u = Some (Some b) -> b_st b = BRun first m Matching i res -> (i < m)%nat ->
    key_at b C (first + i) t (LScan x (v :: vs) mk) -> by_thread C t j false e C' ->
    bstep (BConf C B) (By u) (opt_ev e) (set_b (BConf C B) C' u (Some b))
| b_match_next C B u b first m i res t x mk : nth_error B u = Some (Some b) -> b_st b = BRun first m Matching i res -> (i < m)%nat ->
    key_at b C (first + i) t (LScan x [] mk) ->
    bstep (BConf C B) (By u) [] (set_b (BConf C B) C u (Some (upd b (BRun first m Matching (S i) res))))
| b_match_end C B u b first m res : nth_error B u = Some (Some b) -> b_st b = BRun first m Matching m res ->
    bstep (BConf C B) (By u) [] (set_b (BConf C B) C u (Some (upd b (BRun first m Visiting 0 res))))
(** l.1372-1418 *)
| b_visit C B u b first m i res t l j thr e C' : nth_error B u = Some (Some b) -> b_st b = BRun first m Visiting i res -> (i < m)%nat ->
    key_at b C (first + i) t l -> (forall r, l <> LDone r) -> (forall x us mk, l = LScan x us mk -> thr = false) -> by_thread C t j thr e C' ->
    bstep (BConf C B) (By u) (opt_ev e) (set_b (BConf C B) C' u (Some b))
| b_visit_next C B u b first m i res t r : nth_error B u = Some (Some b) -> b_st b = BRun first m Visiting i res -> (i < m)%nat ->
    key_at b C (first + i) t (LDone r) ->
    bstep (BConf C B) (By u) [] (set_b (BConf C B) C u (Some (upd b match r with RThrew => BThrown | _ => BRun first m Visiting (S i) (res + count r) end)))
(** l.1224-1231 *)
| b_chunk C B u b first m res : nth_error B u = Some (Some b) -> b_st b = BRun first m Visiting m res ->
    (first + m < length (b_keys b))%nat ->
    bstep (BConf C B) (By u) [] (set_b (BConf C B) C u (Some (upd b (BRun (first + m) (chunk (length (b_keys b) - (first + m))) Hashing 0 res))))
(** l.1232: the container is released *)
| b_end C B u b first m res rs : nth_error B u = Some (Some b) -> b_st b = BRun first m Visiting m res ->
    (length (b_keys b) <= first + m)%nat -> keys_at b C (map LDone rs) ->
    bstep (BConf C B) (By u) [] (set_b (BConf C B) (place C (b_ts b) (all_at b (map LRet rs))) u (Some (upd b (BOut (Some res)))))
| b_unwind C B u b ls : nth_error B u = Some (Some b) -> b_st b = BThrown -> keys_at b C ls ->
    bstep (BConf C B) (By u) (give_up_events (b_ts b) ls) (set_b (BConf C B) (place C (b_ts b) (all_at b (map given_up ls))) u (Some (upd b (BOut None))))
| b_ret C B u b r rs : nth_error B u = Some (Some b) -> b_st b = BOut r -> keys_at b C (map LRet rs) ->
    bstep (BConf C B) (By u) (BRet u r :: map (fun y => BPlain (ERet (fst y) (AnsC (snd y)))) (combine (b_ts b) rs))
      (set_b (BConf C B) (place C (b_ts b) (map (fun _ => Idle) rs)) u None).

(** executions of n threads of ConcModel and nb threads making bulk calls *)
Inductive bruns (n nb : nat) : list bevent -> bconf -> Prop :=
| br_nil : counters_fit (Conf (K:=K) (V:=V) [] (repeat Idle n)) -> bruns n nb [] (BConf (Conf [] (repeat Idle n)) (repeat None nb))
| br_snoc es C a es' C' : bruns n nb es C -> bstep C a es' C' -> counters_fit (bc C') -> bruns n nb (es ++ es') C'.
(** executions from C0 *)
Inductive bsteps (C0 : bconf) : list bevent -> bconf -> Prop :=
| bs_nil : bsteps C0 [] C0
| bs_snoc es C a es' C' : bsteps C0 es C -> bstep C a es' C' -> counters_fit (bc C') -> bsteps C0 (es ++ es') C'.
(** what happens to the single-key machine *)
Definition plain (es : list bevent) : list event := flat_map (fun x => match x with BPlain e => [e] | _ => [] end) es.
End BulkModel.
