(** The concurrent containers under the C++ memory model: detail/foa/concurrent_table.hpp, whose group metadata are relaxed atomics (l.199-213)
    read without a lock by lookups (l.1302-1341).
    The threads run the programs of ConcModel, but a thread does not read the current state of the container: it reads, at each location,
    the value of some write that is not overwritten by a write that happens before the read ([sees]).
    happens-before ([hb]) is sequenced-before and synchronizes-with, closed under transitivity; synchronizes-with ([sw]) comes from the locks
    (rw_spinlock.hpp: acquire on locking, release on unlocking; C58), from the insertion counters and from the client's own synchronization.
    Assumptions and simplifications, besides those of ConcModel about locks, layouts and calls of user functions:
    - executions are sequences of steps that respect happens-before and reads-from (no load reads from a later step: RC11's condition that
      sequenced-before and reads-from have no cycle) and the modification order of each location. The writes of a group are made with its exclusive lock held, those
      of a counter are read-modify-writes, so their modification order is that of the steps;
    - the accesses to size and max load, all seq_cst (core.hpp l.1145-1190), are exact; the insertion counters, also seq_cst (l.228), are treated
      as acquire/release only: a load may return an older value;
    - one read of a group byte is one load: reading several bytes at once is reading them one by one, in any order.
    [strong]: with or without the synchronization that the implementation of the locks and of the size counters gives in addition to what is needed. *)
From Coq Require Import NArith Bool List Arith.
From Verif Require Import SizeModel GroupModel FoaModel FoaSpec FoaWorld FoaFind ConcSpec ConcModel.
Import ListNotations.
Local Open Scope N_scope.

Section Weak.
Context {K V : Type} (c : Cfg K V).
Notation table := (table K V).
Notation pop := (pop K V). Notation cop := (cop K V). Notation cres := (cres K V).
Notation loc := (@loc K V). Notation eff := (@eff K V). Notation Sh := (@Sh K V). Notation conf := (@conf K V).

(** *** events: what a step of a thread does *)
Inductive wact :=
| WCall (d : nat) (o : cop) | WRet (d : nat) (r : cres)                 (* calls on container d and returns *)
| WLocal (d : nat) (o : cop) (l : loc) (e : eff) (l' : loc) (rd : nat)  (* a step of ConcModel, from position l to l', writing e; rd: when the value read by LCount was current *)
| WExcl (ds made : list nat)                                            (* exclusive access to all of the containers ds; made: containers constructed *)
| WBegin (o : op K V) | WEnd (r : result K V)                           (* calls of operations on whole containers *)
| WSend (m : nat) | WRecv (m : nat).                                    (* synchronization by the client: store-release and load-acquire *)
Definition wev := (nat * wact)%type.

(** locking and unlocking of group g of container d *)
Definition acquires (a : wact) (d g : nat) (x : bool) : Prop :=
  match a with WLocal d' o l _ l' _ => d' = d /\ lock_of o l = None /\ lock_of o l' = Some (g, x) | _ => False end.
Definition releases (a : wact) (d g : nat) (x : bool) : Prop :=
  match a with WLocal d' o l _ l' _ => d' = d /\ lock_of o l = Some (g, x) /\ lock_of o l' = None | _ => False end.
(** shared and exclusive locking and unlocking of container d *)
Definition enters (a : wact) (d : nat) : Prop := match a with WLocal d' _ l _ l' _ => d' = d /\ outside l = true /\ outside l' = false | _ => False end.
Definition leaves (a : wact) (d : nat) : Prop := match a with WLocal d' _ l _ l' _ => d' = d /\ outside l = false /\ outside l' = true | _ => False end.
Definition excl (a : wact) (d : nat) : Prop := match a with WExcl ds _ => In d ds | _ => False end.
Definition creates (a : wact) (d : nat) : Prop := match a with WExcl _ made => In d made | _ => False end.
(** the arrays of the container, with their locks, counters and metadata, may be other ones afterwards *)
Definition replaces (a : wact) (d : nat) : Prop := excl a d \/ creates a d.
(** insertion counters: insert_counter(pos0)++ and counter=insert_counter(pos0) *)
Definition increments (a : wact) (d g : nat) : Prop := match a with WLocal d' _ _ (ECnt g') _ _ => d' = d /\ g' = g | _ => False end.
Definition loads (a : wact) (d g rd : nat) : Prop := match a with WLocal d' _ (LCount _) _ (LScan x _ _) rd' => d' = d /\ x_g x = g /\ rd' = rd | _ => False end.
Definition resizes (a : wact) (d : nat) : Prop := match a with WLocal d' _ _ (ESzInc | ESzDec) _ _ => d' = d | _ => False end.
Definition reads_size (a : wact) (d : nat) : Prop := resizes a d \/ match a with WLocal d' _ (SSz _) _ _ _ => d' = d | _ => False end.
Definition lowers (a : wact) (d : nat) : Prop := match a with WLocal d' _ _ (EMlDec _) _ _ => d' = d | _ => False end.
Definition reads_ml (a : wact) (d : nat) : Prop := lowers a d \/ match a with WLocal d' _ (LChk _ _ | SMl) _ _ _ => d' = d | _ => False end.

(** *** happens-before *)
Section HB.
Variable strong : bool.
Definition same_arrays (log : list wev) (d i j : nat) : Prop := forall k t a, (i < k < j)%nat -> nth_error log k = Some (t, a) -> ~ replaces a d.
Inductive sync (log : list wev) (i j ti tj : nat) (a b : wact) : Prop :=
| s_group d g x y : releases a d g x -> acquires b d g y -> x || y || strong = true -> same_arrays log d i j -> sync log i j ti tj a b
| s_leave d : leaves a d -> excl b d -> sync log i j ti tj a b
| s_enter d : excl a d -> enters b d -> sync log i j ti tj a b
| s_excl d : excl a d -> excl b d -> sync log i j ti tj a b
| s_inc d g : increments a d g -> increments b d g -> same_arrays log d i j -> sync log i j ti tj a b
| s_load d g rd : increments a d g -> loads b d g rd -> (i < rd)%nat -> same_arrays log d i j -> sync log i j ti tj a b
| s_msg m : a = WSend m -> b = WRecv m -> sync log i j ti tj a b
(* what the implementation gives in addition: readers of one of the 128 container mutexes (l.107-123) and of a group's lock synchronize with each other, as do seq_cst accesses to size and max load *)
| s_mutex d : strong = true -> leaves a d -> enters b d -> Nat.modulo ti 128 = Nat.modulo tj 128 -> sync log i j ti tj a b
| s_size d : strong = true -> resizes a d -> reads_size b d -> sync log i j ti tj a b
| s_ml d : strong = true -> lowers a d -> reads_ml b d -> sync log i j ti tj a b.
Definition sw (log : list wev) (i j : nat) : Prop :=
  exists ti a tj b, nth_error log i = Some (ti, a) /\ nth_error log j = Some (tj, b) /\ (i < j)%nat /\ sync log i j ti tj a b.
Definition sb (log : list wev) (i j : nat) : Prop :=
  exists t a b, nth_error log i = Some (t, a) /\ nth_error log j = Some (t, b) /\ (i < j)%nat.
Inductive hb (log : list wev) (i j : nat) : Prop :=
| hb_sb : sb log i j -> hb log i j
| hb_sw : sw log i j -> hb log i j
| hb_trans k : hb log i k -> hb log k j -> hb log i j.
(** event i happens before what thread t does next *)
Definition knows (log : list wev) (t i : nat) : Prop := exists j a, nth_error log j = Some (t, a) /\ (i = j \/ hb log i j).

(** *** memory *)
(** the locations of a container: a byte of the metadata of a group (15: the overflow byte), an insertion counter, an element slot, and the rest (hash function, predicate, allocator, pointers to the arrays and their sizes) *)
Inductive vloc := VByte (g n : nat) | VCnt (g : nat) | VCell (i : nat) | VBox.
Definition hits (a : wact) (d : nat) (v : vloc) : Prop :=
  match a with
  | WLocal d' _ _ e _ _ => d' = d /\
      match e, v with
      | ESet g n _, VByte g' n' | EReset g n, VByte g' n' => g = g' /\ n = n'
      | EMark g _, VByte g' n' => g = g' /\ n' = 15%nat
      | ECnt g, VCnt g' => g = g'
      | ECell i _, VCell i' => i = i'
      | _, _ => False
      end
  | _ => replaces a d
  end.
Record W := MkW { w_now : conf; w_past : list conf; w_log : list wev }.
(** the state of container d after the first n events *)
Definition at_time (w : W) (n : nat) : option conf := nth_error (w_past w ++ [w_now w]) n.
(** thread t may read at v the value of v after the first n events: no later write is known *)
Definition readable (w : W) (t d : nat) (v : vloc) (n : nat) (s : Sh) : Prop :=
  (exists C, at_time w n = Some C /\ box C d = Some s) /\
  forall i u a, (n <= i)%nat -> nth_error (w_log w) i = Some (u, a) -> hits a d v -> ~ knows (w_log w) t i.
Definition same_box (s s' : Sh) : Prop :=
  hid (tb s) = hid (tb s') /\ pid (tb s) = pid (tb s') /\ aid (tb s) = aid (tb s') /\ a_owner (arr (tb s)) = a_owner (arr (tb s')) /\
  a_gsi (arr (tb s)) = a_gsi (arr (tb s')) /\ a_mask (arr (tb s)) = a_mask (arr (tb s')) /\
  map (@length N) (a_groups (arr (tb s))) = map (@length N) (a_groups (arr (tb s'))) /\
  option_map (@length _) (a_elems (arr (tb s))) = option_map (@length _) (a_elems (arr (tb s'))) /\ length (cnt s) = length (cnt s').
(** o: a state of container d made of what thread t may read at each location *)
Record sees (w : W) (t d : nat) (o : Sh) : Prop := {
  see_byte : forall g n, exists m s, readable w t d (VByte g n) m s /\ nth n (nth g (a_groups (arr (tb o))) []) 0 = nth n (nth g (a_groups (arr (tb s))) []) 0;
  see_cnt : forall g, exists m s, readable w t d (VCnt g) m s /\ nth_error (cnt o) g = nth_error (cnt s) g;
  see_cell : forall i, exists m s, readable w t d (VCell i) m s /\ get_cell (arr (tb o)) i = get_cell (arr (tb s)) i;
  see_box : exists m s, readable w t d VBox m s /\ same_box o s }.

(** *** operations on whole containers: the containers they lock *)
Definition touched (o : op K V) : list nat :=
  match o with
  | On i _ | Destroy i => [i]
  | New _ _ _ _ => []
  | CopyConstruct j _ | MoveConstruct j | MoveConstructAl j _ => [j]
  | CopyAssign i j | MoveAssign i j | Swap i j | Merge i j | Equal i j _ => [i; j]
  end.
(** the client has made the construction of container d happen before *)
Definition made_known (w : W) (t d : nat) : Prop := forall i u a, nth_error (w_log w) i = Some (u, a) -> creates a d -> knows (w_log w) t i.
(** an event of container d *)
Definition of_box (a : wact) (d : nat) : Prop :=
  match a with WCall d' _ | WRet d' _ | WLocal d' _ _ _ _ _ => d' = d | WExcl _ _ => replaces a d | _ => False end.

(** the execution extended by one event; no counterpart in /repo *)
Definition ext (w : W) (C : conf) (t : nat) (a : wact) : W := MkW C (w_past w ++ [w_now w]) (w_log w ++ [(t, a)]).

(** one step of one thread: those of ConcModel.gstep, except that reads follow [sees] *)
Inductive wstep (w : W) : W -> Prop :=
| w_call t d o s : nth_error (th (w_now w)) t = Some Idle -> box (w_now w) d = Some s -> made_known w t d ->
    wstep w (ext w (set_th (w_now w) t (At d o LEnter)) t (WCall d o))
| w_local t d o l s so rd i thr e l' a s' : nth_error (th (w_now w)) t = Some (At d o l) -> box (w_now w) d = Some s ->
    sees w t d so -> sz (tb so) = sz (tb s) -> ml (tb so) = ml (tb s) ->
    (forall x n, l = LCnt x n -> cnt so = cnt s) ->                      (* insert_counter(pos0)++ is a read-modify-write *)
    (forall h x u m, l = LCount h -> l' = LScan x u m ->                  (* the value of the counter is that of time rd *)
       exists sr, readable w t d (VCnt (x_g x)) rd sr /\ nth_error (cnt so) (x_g x) = nth_error (cnt sr) (x_g x)) ->
    lstep c (free_for (w_now w) t d) so o l i thr = Step e l' a -> apply e s = Some s' ->
    wstep w (ext w (set_box (set_th (w_now w) t (At d o l')) d s') t (WLocal d o l e l' rd))
| w_full t d o s n t' n' cn : nth_error (th (w_now w)) t = Some (At d o LFull) -> box (w_now w) d = Some s -> alone (w_now w) t d = true ->
    rehash_if_full c (tb s) n = Ret tt t' n' -> length cn = length (a_groups (arr t')) ->
    wstep w (ext w (set_box (set_th (w_now w) t (At d o LEnter)) d (MkSh t' cn)) t (WExcl [d] []))
| w_full_exn t d o s n kd t' n' cn : nth_error (th (w_now w)) t = Some (At d o LFull) -> box (w_now w) d = Some s -> alone (w_now w) t d = true ->
    rehash_if_full c (tb s) n = Exn kd t' n' -> length cn = length (a_groups (arr t')) ->
    wstep w (ext w (set_box (set_th (w_now w) t (At d o (LRet RThrew))) d (MkSh t' cn)) t (WExcl [d] []))
| w_ret t d o r : nth_error (th (w_now w)) t = Some (At d o (LRet r)) ->
    wstep w (ext w (set_th (w_now w) t Idle) t (WRet d r))
| w_begin t o : nth_error (th (w_now w)) t = Some Idle ->
    wstep w (ext w (set_th (w_now w) t (AtW o)) t (WBegin o))
| w_whole t o n r w' bs : nth_error (th (w_now w)) t = Some (AtW o) -> wpre c o (idle_world (w_now w) o) ->
    returned (wexec c o (idle_world (w_now w) o) n) r w' -> put_back (w_now w) (idle_world (w_now w) o) w' bs ->
    (forall d, (d < length (boxes (w_now w)))%nat -> ~ In d (touched o) -> nth_error bs d = nth_error (boxes (w_now w)) d) ->
    (forall d, In d (touched o) -> made_known w t d) ->
    (forall d, o = Destroy d -> forall i u a, nth_error (w_log w) i = Some (u, a) -> of_box a d -> knows (w_log w) t i) ->
    wstep w (ext w (Conf bs (set_nth (th (w_now w)) t (RetW r))) t
      (WExcl (touched o) (seq (length (boxes (w_now w))) (length bs - length (boxes (w_now w))))))
| w_end t r : nth_error (th (w_now w)) t = Some (RetW r) ->
    wstep w (ext w (set_th (w_now w) t Idle) t (WEnd r))
| w_send t m : nth_error (th (w_now w)) t = Some Idle -> (forall i u, nth_error (w_log w) i <> Some (u, WSend m)) -> wstep w (ext w (w_now w) t (WSend m))
| w_recv t m : nth_error (th (w_now w)) t = Some Idle -> wstep w (ext w (w_now w) t (WRecv m)).

(** executions of n threads from no container, all of whose states satisfy P *)
Inductive wruns (P : conf -> Prop) (n : nat) : W -> Prop :=
| wr_nil : P (Conf [] (repeat Idle n)) -> wruns P n (MkW (Conf [] (repeat Idle n)) [] [])
| wr_snoc w w' : wruns P n w -> wstep w w' -> P (w_now w') -> wruns P n w'.
End HB.
End Weak.
