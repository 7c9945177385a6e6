(** visit_all, visit_while and erase_if with an execution policy: concurrent_table.hpp l.613-631, 652-672, 948-960, 1248-1260, 1271-1283, 1779-1837.
    The code calls std::for_each (visit_all, erase_if) or std::all_of (visit_while) over the groups. The calls of its lambda for different groups (jobs) may be run by
    different threads, in any order and interleaved in any way. Job j is shown here as one of the traversals of ConcModel, made by an otherwise idle thread, that starts at
    group j and stops after it. If the user's function throws, the program ends (std::terminate): there is no such step. *)
From Coq Require Import NArith Bool List Arith.
From Verif Require Import SizeModel GroupModel FoaModel FoaSpec FoaWorld ConcSpec ConcModel.
From Verif Require ConcBulkModel.
Import ListNotations.

Section ParModel.
Context {K V : Type} (c : Cfg K V).
Notation loc := (@loc K V). Notation cres := (cres K V). Notation conf := (@conf K V). Notation pc := (@pc K V). Notation event := (event K V).
Notation calls := (list ((K * V) * bool)).

(** states of a traversal with an execution policy, concurrent_table.hpp l.946-959, 1248-1259, 1271-1283, 1790-1838 *)
Inductive pstate :=
| PWaiting                  (* before shared_access(), l.1253, 1276, 951 *)
| PRun                      (* in std::for_each, std::all_of *)
| POut (r : bool).          (* before returning r (visit_all, erase_if: true, and nothing is returned) *)
(** [p_f j n]: the n-th call of the function by the job of group j. [p_ts]: the threads that stand for the jobs *)
Record pcall := PCallOf { p_d : nat; p_x : bool; p_md : bmode; p_f : nat -> nat -> ufun K V; p_ts : list nat; p_st : pstate }.
Definition upd (b : pcall) (ts : list nat) (st : pstate) : pcall := PCallOf (p_d b) (p_x b) (p_md b) (p_f b) ts st.
Record pconf := PConf { pcf : conf; pars : list (option pcall) }.

(** the job of group j, concurrent_table.hpp l.1790-1838: the loop over the slots of one group *)
Definition job (b : pcall) (j : nat) : cop K V := Bulk (p_x b) (p_md b) (p_f b j).
Definition job_at (b : pcall) (C : conf) (j t : nat) (l : loc) : Prop :=
  nth_error (p_ts b) j = Some t /\ nth_error (th C) t = Some (At (p_d b) (job b j) l).
Definition jobs_at (b : pcall) (C : conf) (ls : list loc) : Prop :=
  length ls = length (p_ts b) /\ forall j l, nth_error ls j = Some l -> exists t, job_at b C j t l.
(** the threads ts at the positions ps *)
Notation place := ConcBulkModel.place.
(** the jobs at the positions ls *)
Definition jobs_to (b : pcall) (ls : list loc) : list pc := map (fun y => At (p_d b) (job b (fst y)) (snd y)) (combine (seq 0 (length ls)) ls).

(** visible events: those of ConcModel, and the calls and returns of traversals with a policy, with the calls of the function by each job *)
Inductive pevent := PPlain (e : event) | PCall (u : nat) (d : nat) (x : bool) (m : bmode) (f : nat -> nat -> ufun K V) | PRet (u : nat) (r : bool) (rs : list calls).
Definition opt_ev (e : option event) : list pevent := match e with Some x => [PPlain x] | None => [] end.
Definition owned (B : list (option pcall)) (t : nat) : Prop := exists u b, nth_error B u = Some (Some b) /\ In t (p_ts b).
Definition set_p (PC : pconf) (C : conf) (u : nat) (o : option pcall) : pconf := PConf C (set_nth (pars PC) u o).
Definition ev_thread (e : event) : nat := match e with ECall t _ | ELin t _ | ERet t _ => t end.

(** one step of the job at l of group j (g_local of ConcModel), as long as the job is not over *)
Definition running (j : nat) (l : loc) : bool := match l with BGrp g _ => Nat.eqb g j | LDone _ | LRet _ | LEnter => false | _ => true end.
Definition thrown (l : loc) : bool := match l with LUnl _ _ (RBulk _ BThrew) => true | _ => false end.
Inductive by_job (C : conf) (t : nat) : option event -> conf -> loc -> Prop :=
| by_job_intro d o l s e l' a s' : nth_error (th C) t = Some (At d o l) -> box C d = Some s ->
    lstep c (free_for C t d) s o l 0 false = Step e l' a -> apply e s = Some s' ->
    by_job C t (option_map (ELin t) a) (set_box (set_th C t (At d o l')) d s') l'.
(** how a job ends: after its group; because the function returned false (visit_while); or, if the function of another job has returned false, it is not started *)
Definition ended (stop : bool) (j : nat) (l : loc) (r : calls * bstat) : Prop :=
  match l with
  | BGrp g acc => (g = S j /\ r = (acc, BDone)) \/ (g = j /\ stop = true /\ r = (acc, BDone))
  | LDone (RBulk acc BHalted) => r = (acc, BHalted)
  | _ => False
  end.
Definition halted (r : calls * bstat) : bool := match snd r with BHalted => true | _ => false end.
Definition groups_of (C : conf) (d : nat) : option nat :=
  match box C d with Some s => match a_elems (arr (tb s)) with Some _ => Some (N.to_nat (a_mask (arr (tb s)) + 1)) | None => Some 0 end | None => None end.

(** who makes a step: a parallel traversal, or anyone else; no counterpart in /repo *)
Inductive actor := Other | By (u : nat).
(** steps with parallel traversals, cases cited below *)
Inductive pstep : pconf -> actor -> list pevent -> pconf -> Prop :=
(** a step of another thread *)
| p_plain C B e C' : gstep c C e C' -> (forall t, owned B t -> nth_error (th C') t = nth_error (th C) t /\ forall x, e = Some x -> ev_thread x <> t) ->
    pstep (PConf C B) Other (opt_ev e) (PConf C' B)
(** the call *)
| p_call C B u d x m f s : nth_error B u = Some None -> box C d = Some s ->
    pstep (PConf C B) (By u) [PCall u d x m f] (set_p (PConf C B) C u (Some (PCallOf d x m f [] PWaiting)))
(** shared_access(), then l.1792-1798, 1817-1820: one job for each group, none if there are no elements *)
| p_enter C B u b ts m : nth_error B u = Some (Some b) -> p_st b = PWaiting -> groups_of C (p_d b) = Some m -> length ts = m -> NoDup ts ->
    (forall t, In t ts -> nth_error (th C) t = Some Idle) ->
    pstep (PConf C B) (By u) (map (fun y => PPlain (ECall (snd y) (OnC (p_d b) (job b (fst y))))) (combine (seq 0 m) ts))
      (set_p (PConf C B) (place C ts (jobs_to b (map (fun j => BGrp j []) (seq 0 m)))) u (Some (upd b ts (if Nat.eqb m 0 then POut true else PRun))))
(** l.1799-1810, 1821-1833 *)
| p_work C B u b j t l e C' l' : nth_error B u = Some (Some b) -> p_st b = PRun -> job_at b C j t l -> running j l = true ->
    by_job C t e C' l' -> thrown l' = false ->
    pstep (PConf C B) (By u) (opt_ev e) (set_p (PConf C B) C' u (Some b))
(** std::for_each, std::all_of return; the container is released *)
| p_end C B u b ls rs : nth_error B u = Some (Some b) -> p_st b = PRun -> jobs_at b C ls -> length rs = length ls ->
    (forall j l r, nth_error ls j = Some l -> nth_error rs j = Some r -> ended (existsb halted rs) j l r) ->
    pstep (PConf C B) (By u) [] (set_p (PConf C B) (place C (p_ts b) (jobs_to b (map (fun r => LRet (RBulk (fst r) (snd r))) rs))) u
      (Some (upd b (p_ts b) (POut (negb (existsb halted rs))))))
| p_ret C B u b r rs : nth_error B u = Some (Some b) -> p_st b = POut r -> jobs_at b C (map (fun r => LRet (RBulk (fst r) (snd r))) rs) ->
    pstep (PConf C B) (By u) (PRet u r (map fst rs) :: map (fun y => PPlain (ERet (fst y) (AnsC (RBulk (fst (snd y)) (snd (snd y)))))) (combine (p_ts b) rs))
      (set_p (PConf C B) (place C (p_ts b) (map (fun _ => Idle) rs)) u None).

(** executions of n threads of ConcModel and np threads making calls with a policy *)
Inductive pruns (n np : nat) : list pevent -> pconf -> Prop :=
| pr_nil : counters_fit (Conf (K:=K) (V:=V) [] (repeat Idle n)) -> pruns n np [] (PConf (Conf [] (repeat Idle n)) (repeat None np))
| pr_snoc es C a es' C' : pruns n np es C -> pstep C a es' C' -> counters_fit (pcf C') -> pruns n np (es ++ es') C'.
(** executions from C0, all of whose states satisfy P *)
Inductive psteps (P : conf -> Prop) (C0 : pconf) : list pevent -> pconf -> Prop :=
| ps_nil : P (pcf C0) -> psteps P C0 [] C0
| ps_snoc es C a es' C' : psteps P C0 es C -> pstep C a es' C' -> P (pcf C') -> psteps P C0 (es ++ es') C'.
Definition plain (es : list pevent) : list event := flat_map (fun x => match x with PPlain e => [e] | _ => [] end) es.
End ParModel.
