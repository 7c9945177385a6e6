(** C60. The reentrancy check of the concurrent containers.

    Reading guide. A [prog] is what one thread does: accesses to containers (numbered), in whose scope user functions may access containers again, throw, and
    catch. [run p 0 start] is the code of reentrancy_check.hpp (entry traces in a thread-local list): how the program ends, the events others notice
    (lock requests, unlocks, failed assertions) and the memory. [run_unchecked p]: the same without the check. ReentSpec.v: [checked] (a container is reported
    iff an enclosing call of the thread is accessing it), [has_after] (locks a thread has after some events), [self_lock] (a thread requests a lock it has). *)
From Coq Require Import Bool List Arith Lia.
From Verif Require Import ReentModel ReentSpec ReentProofs.
Import ListNotations.

(** the linked list of entry traces implements the specification, and is empty again at the end, also after exceptions *)
Theorem C60_check_is_exact : forall p, exists m, run p 0 start = (fst (checked p []), snd (checked p []), m) /\ header m = None.
Proof. intros p. destruct (run_checked p 0 start [] start_chain) as (m & E & (H & _)). exists m. auto. Qed.
Print Assumptions C60_check_is_exact.
(** with the check, no thread ever requests a lock it has, and it releases all locks *)
Theorem C60_no_self_deadlock : forall p, let l := snd (fst (run p 0 start)) in ~ self_lock l /\ has_after [] l = [].
Proof.
  intros p. destruct (C60_check_is_exact p) as (m & -> & _). cbn [fst snd]. destruct (checked_fine p [] [] (fun z => iff_refl _)) as (A & B). split; [|exact B]. apply fine_self. exact A.
Qed.
Print Assumptions C60_no_self_deadlock.
(** an assertion fails exactly if the program without the check makes a thread request a lock it has; otherwise the check changes nothing *)
Theorem C60_reports_exactly_the_self_locking_programs : forall p, let '(r, l, _) := run p 0 start in
  (reported l <-> self_lock (snd (run_unchecked p))) /\ (~ reported l -> run_unchecked p = (r, l)).
Proof.
  intros p. destruct (C60_check_is_exact p) as (m & -> & _). destruct (checked_or_reported p [] [] (fun z => iff_refl _)) as (A & B). destruct (checked_fine p [] [] (fun z => iff_refl _)) as (F & _).
  destruct (checked p []) as [r l] eqn:E. cbn [fst snd] in *. change (rep l) with (reported l) in *. split.
  - destruct (rep_dec l) as [R|R]; change (rep l) with (reported l) in R.
    + split; [intros _|intros _; exact R]. pose proof (B R) as N. apply not_fine_self. exact N.
    + split; [intros H; contradiction|]. rewrite (A R). cbn [snd]. intros H. exfalso. revert H. apply fine_self. exact F.
  - exact A.
Qed.
Print Assumptions C60_reports_exactly_the_self_locking_programs.
(** accesses to different containers may be nested. If all threads nest them in the order of addresses, no deadlock arises, even though readers are held back
    while a writer waits: whatever has happened, some thread can go on ([steps false]: any grants the locks permit; [can_step true]: the stricter rule) *)
Theorem C60_ordered_nesting_does_not_deadlock : forall ps S, Forall (fun p => increasing p []) ps -> steps false (threads ps) S ->
  (exists u, In u S /\ todo u <> []) -> exists l u r, S = l ++ u :: r /\ can_step true u (l ++ r) = true.
Proof. intros ps S F H D. apply progress; [|exact D]. apply (wt_steps false (threads ps)); [exact H|]. apply threads_wt. exact F. Qed.
Print Assumptions C60_ordered_nesting_does_not_deadlock.
Theorem C60_ordered_nesting_is_not_reported : forall p, increasing p [] -> ~ reported (snd (fst (run p 0 start))).
Proof.
  intros p H. destruct (C60_check_is_exact p) as (m & -> & _). cbn [fst snd]. exact (proj2 (inc_ordered p [] [] [] H (fun z => iff_refl _) eq_refl)).
Qed.
Print Assumptions C60_ordered_nesting_is_not_reported.
(** limits of the check: two threads that visit one container and clear the other in the visitation function are not reported but can wait for each other forever *)
Definition cross (x y : nat) : prog := Access x false (Access y true Skip).
Theorem C60_cross_deadlock_is_not_reported : let ps := [cross 0 1; cross 1 0] in
  Forall (fun p => ~ reported (snd (fst (run p 0 start)))) ps /\
  exists S, steps false (threads ps) S /\ (forall u, In u S -> todo u <> []) /\ forall l u r, S = l ++ u :: r -> can_step false u (l ++ r) = false.
Proof.
  cbv zeta. split.
  - repeat constructor; intros (x & I); cbn in I; intuition discriminate.
  - set (S0 := threads [cross 0 1; cross 1 0]).
    assert (exists u v, steps false S0 [after (Th [] (snd (checked (cross 0 1) []))); after (Th [] (snd (checked (cross 1 0) [])))] /\ u = v :> nat) as (u & _ & H & _).
    { exists 0, 0. split; [|reflexivity]. apply (steps_one false S0 [after (Th [] (snd (checked (cross 0 1) [])))] (Th [] (snd (checked (cross 1 0) []))) []); [|reflexivity].
      apply (steps_one false S0 [] (Th [] (snd (checked (cross 0 1) []))) [Th [] (snd (checked (cross 1 0) []))]); [apply steps_refl|reflexivity]. }
    eexists. split; [exact H|]. split; [intros w [<-|[<-|[]]]; discriminate|]. intros l w r E. cbn in E. destruct l as [|a [|b l]]; cbn in E; [injection E as <- <-; reflexivity|injection E as <- <- <-; reflexivity|].
    injection E as _ _ E. destruct l; discriminate.
Qed.
Print Assumptions C60_cross_deadlock_is_not_reported.
(** why shared accesses must not be nested either: with the check disabled, a lookup in the visitation function of a lookup can wait forever for a thread that
    waits to rehash; with the check it is reported *)
Definition nested : prog := Access 0 false (Access 0 false Skip).
Definition writer : prog := Seq (Access 1 false Skip) (Access 0 true Skip).
Theorem C60_nested_lookups_can_deadlock_and_are_reported :
  reported (snd (fst (run nested 0 start))) /\
  exists S, steps true [Th [] (snd (run_unchecked nested)); Th [] (snd (run_unchecked writer))] S /\
    (forall u, In u S -> todo u <> []) /\ forall l u r, S = l ++ u :: r -> can_step true u (l ++ r) = false.
Proof.
  split; [exists 0; cbn; auto|]. eexists. split.
  { set (u := Th [] (snd (run_unchecked nested))). set (w := Th [] (snd (run_unchecked writer))).
    apply (steps_one true _ [after u] (after w) []); [|reflexivity].
    apply (steps_one true _ [after u] w []); [|reflexivity].
    apply (steps_one true _ [] u [w]); [apply steps_refl|reflexivity]. }
  split; [intros w [<-|[<-|[]]]; discriminate|]. intros l w r E. cbn in E. destruct l as [|a [|b l]]; cbn in E; [injection E as <- <-; reflexivity|injection E as <- <- <-; reflexivity|].
  injection E as _ _ E. destruct l; discriminate.
Qed.
Print Assumptions C60_nested_lookups_can_deadlock_and_are_reported.
(** an example: a merge in a visitation function, a caught exception, an emplace that unlocks early, a report *)
Example C60_example :
  let p := Seq (Try (Access 2 false (Seq (Access2 0 1 Skip) Throw))) (Seq (Early 1 false Skip (Access 1 true Skip)) (Access2 3 4 (Access 4 false Skip))) in
  fst (run p 0 start) = (Thrown, [ELock 2 false; ELock 0 true; ELock 1 true; EUnlock 1 true; EUnlock 0 true; EUnlock 2 false;
    ELock 1 false; EUnlock 1 false; ELock 1 true; EUnlock 1 true; ELock 3 true; ELock 4 true; EAssert 4; EUnlock 4 true; EUnlock 3 true]).
Proof. reflexivity. Qed.
Example C60_example_ordered : Forall (fun p => increasing p []) [Access 0 false (Access2 2 1 (Access 3 false Skip)); Access 1 false (Access 3 true Skip); Early 2 false (Access 3 true Throw) Skip].
Proof.
  apply Forall_cons; [|apply Forall_cons; [|apply Forall_cons; [|apply Forall_nil]]]; cbn [increasing In]; repeat split; intros; repeat match goal with H : _ \/ _ |- _ => destruct H | H : False |- _ => destruct H end; subst; lia.
Qed.
