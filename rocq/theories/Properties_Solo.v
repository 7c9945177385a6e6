(** C52, C53: progress of calls on the concurrent containers. *)
From Coq Require Import NArith Bool List Arith Lia.
From Verif Require Import SizeModel FoaModel FoaBase FoaArr FoaSpec FoaWorld FoaExamples
  ConcSpec ConcModel ConcInv ConcSys ConcSys2 ConcVisit ConcProgress ConcExec ConcWrap ConcExamples ConcSolo ConcSolo2 ConcBound.
From Verif Require Properties_Conc.
Import ListNotations.
Local Open Scope N_scope.

Section P.
Context {K V : Type} (c : Cfg K V).
Hypothesis HC : good_cfg c.
Notation run := (runs_with c counters_fit).

(** no thread but [t] is inside container [d]: the others have no call in progress on it, have not entered it yet, have left it and are about to return,
    or wait to have it grown *)
Definition others_outside (C : @conf K V) (t d : nat) : Prop :=
  forall t' o l, t' <> t -> nth_error (th C) t' = Some (ConcModel.At d o l) -> outside l = true.
Lemma outside_alone C t d : others_outside C t d -> alone C t d = true.
Proof.
  intros H. unfold alone. apply forallb_forall. intros p Hp. apply others_in in Hp as (t' & N & E). destruct p as [|d' o l| |]; try reflexivity.
  cbn [inside]. destruct (Nat.eqb_spec d' d) as [->|]; [|reflexivity]. rewrite (H t' o l N E). reflexivity.
Qed.

(** *** C52: from every reachable state, a call whose thread is alone inside the container completes if it is left alone: it is never blocked, and
    every sequence of its steps leads to its return (with a result or an exception) *)
Theorem C52_left_alone_a_call_completes : forall n es C t d o l, run n es C -> nth_error (th C) t = Some (ConcModel.At d o l) -> others_outside C t d ->
  completes c t C.
Proof.
  intros n es C t d o l R Ht H. eapply (solo_completes c HC); [eapply Properties_Conc.run_inv; eassumption|eapply Properties_Conc.run_fit; eassumption|exact Ht|apply outside_alone, H].
Qed.
(** there is no endless sequence of steps of one call only *)
Theorem C52_no_endless_call : forall n es C t d o l (f : nat -> conf), run n es C -> nth_error (th C) t = Some (ConcModel.At d o l) -> others_outside C t d ->
  f O = C -> (forall i, exists e, own_step c t (f i) e (f (S i)) /\ counters_fit (f (S i))) -> exists i, nth_error (th (f i)) t = Some Idle.
Proof.
  intros n es C t d o l f R Ht H F0 Hf. pose proof (C52_left_alone_a_call_completes n es C t d o l R Ht H) as X.
  assert (exists i, f i = C) as [i Ei] by eauto. clear F0 R Ht H. revert i Ei.
  induction X as [C E|C _ Hs IH]; intros i Ei; [exists i; rewrite Ei; exact E|].
  destruct (Hf i) as (e & Hi & Fi). rewrite Ei in Hi. exact (IH _ _ Hi Fi (S i) eq_refl).
Qed.

(** *** C53: a call that inserts nothing (visit, erase, visit_all, visit_while, erase_if, size) makes at most 80 steps per group of the container after entering it,
    whatever the other threads do meanwhile: it may wait for groups that are locked, but never retries *)
Theorem C53_calls_that_insert_nothing_are_bounded : forall n es C0 t d o e C s m C', run n es C0 ->
  nth_error (th C0) t = Some (ConcModel.At d o LEnter) -> gstep c C0 e C -> counters_fit C -> nth_error (th C) t <> nth_error (th C0) t ->
  Properties_Conc.holds C d s -> inserts o = false -> walk c t C m C' -> (m <= 80 * length (a_groups (arr (tb s))) + 9)%nat.
Proof.
  intros n es C0 t d o e C s m C' R H0 Gs Fit Ne Hb Ni Wk.
  eapply (bounded c HC); [eapply Properties_Conc.run_inv; eassumption|eapply Properties_Conc.run_fit; eassumption|exact H0|exact Gs|exact Fit|exact Ne|apply Properties_Conc.holds_box, Hb|exact Ni|exact Wk].
Qed.
End P.

(** C52: thread 0, about to lock a group to insert key 5, has been overtaken by the insertion of key 7; it is alone in the container and will start again *)
Definition overtaken := do_call 1 (ins1 7) (until 0 at_ins (then_ (MCall 0 0 (ins1 5)) r0)).
Example C52_case : exists es x s, runs_with wcfg counters_fit 3 es (snd overtaken) /\ nth_error (th (snd overtaken)) 0 = Some (ConcModel.At 0 (ins1 5) (LIns x)) /\
  others_outside (snd overtaken) 0 0 /\ Properties_Conc.holds (snd overtaken) 0 s /\
  nth_error (cnt s) (N.to_nat (position (x_h x) (a_gsi (arr (tb s))))) = Some (x_cg x + 1).
Proof.
  do 3 eexists. split; [eapply (played nothrow false 3 (fst overtaken)); vm_compute; reflexivity|].
  split; [vm_compute; reflexivity|]. split; [|split; vm_compute; reflexivity].
  intros t' o l N H. destruct t' as [|[|[|t']]]; [destruct (N eq_refl)|vm_compute in H; discriminate H|vm_compute in H; discriminate H|].
  destruct t'; vm_compute in H; discriminate H.
Qed.
(** schedules as executions around the call of thread [t] *)
Definition mover (m : @move) : nat := match m with MCall t _ _ | MLocal t _ _ | MFull t _ | MRet t | MWCall t _ | MWhole t _ => t end.
Fixpoint wplay (t : nat) (ms : list move) (C : @conf N N) (k : nat) : option (nat * conf) :=
  match ms with
  | [] => Some (k, C)
  | m :: ms =>
      match do_move nothrow false m C with
      | Some (_, C') => if fitb C' then
          if Nat.eqb (mover m) t then match m with MLocal _ _ _ => wplay t ms C' (S k) | _ => None end else wplay t ms C' k
          else None
      | None => None end
  end.
Lemma move_others m C e C' t : do_move nothrow false m C = Some (e, C') -> mover m <> t -> nth_error (th C') t = nth_error (th C) t.
Proof.
  intros H N. destruct m as [t1 d o|t1 i x|t1 n|t1|t1 o|t1 n]; cbn [do_move mover] in *;
    repeat (match type of H with context [match ?x with _ => _ end] => destruct x end; try discriminate H); injection H as <- <-; cbn [set_box set_th th]; apply others_err; congruence.
Qed.
Lemma wplay_ok t C0 : forall ms C k k' C', walk wcfg t C0 k C -> wplay t ms C k = Some (k', C') -> walk wcfg t C0 k' C'.
Proof.
  induction ms as [|m ms IH]; intros C k k' C' W H; cbn [wplay] in H; [injection H as <- <-; exact W|].
  destruct (do_move nothrow false m C) as [[e C1]|] eqn:E; [|discriminate]. destruct (fitb C1) eqn:F; [|discriminate]. pose proof (fitb_ok _ F) as Fit.
  pose proof (do_move_ok nothrow false m C e C1 E) as G. destruct (Nat.eqb_spec (mover m) t) as [Em|Em].
  - destruct m as [| t1 i x| | | |]; try discriminate. cbn [mover] in Em. subst t1. apply (IH _ _ _ _) in H; [exact H|]. cbn [do_move] in E.
    destruct (nth_error (th C) t) as [[|d o l| |]|] eqn:Et; try discriminate. destruct (box C d) as [s|]; [|discriminate].
    destruct (lstep _ _ _ _ _ _ _) as [| |ef l' a] eqn:El; try discriminate. destruct (apply ef s) as [s'|]; [|discriminate]. injection E as <- <-.
    eapply w_own; [exact W|exact G|exact Fit| |]; cbn [set_box set_th th]; rewrite (self_err _ _ _ _ Et); [|eauto].
    rewrite Et. intros Q. injection Q as Q. exact (moves_on _ _ _ _ _ _ _ _ _ _ El Q).
  - apply (IH _ _ _ _) in H; [exact H|]. eapply w_other; [exact W|exact G|exact Fit|]. eapply move_others; eassumption.
Qed.
(** C53: the call erase_if of thread 2 in a container of 2 groups, during which thread 0 inserts an element; it makes 13 steps after entering *)
Definition entered := then_ (MLocal 2 0 false) (then_ (MCall 2 0 (Bulk true BErase pick7)) r1).
Definition around := until 2 never (do_call 0 (ins1 8) (until 2 at_second entered)).
Example C53_case : exists C0 s, (exists es, runs_with wcfg counters_fit 3 es C0) /\ nth_error (th C0) 2 = Some (ConcModel.At 0 (Bulk true BErase pick7) LEnter) /\
  gstep wcfg C0 None (snd entered) /\ Properties_Conc.holds (snd entered) 0 s /\ length (a_groups (arr (tb s))) = 2%nat /\
  exists m, walk wcfg 2 (snd entered) m (snd around) /\ m = 13%nat.
Proof.
  exists (snd (then_ (MCall 2 0 (Bulk true BErase pick7)) r1)). eexists. split; [eexists; eapply (played nothrow false 3 (fst (then_ (MCall 2 0 (Bulk true BErase pick7)) r1))); vm_compute; reflexivity|].
  split; [vm_compute; reflexivity|]. split; [apply (do_move_ok nothrow false (MLocal 2 0 false)); vm_compute; reflexivity|].
  split; [vm_compute; reflexivity|]. split; [vm_compute; reflexivity|].
  eexists. split; [eapply (wplay_ok 2 (snd entered) (skipn (length (fst entered)) (fst around))); [apply w_nil|vm_compute; reflexivity]|].
  vm_compute. reflexivity.
Qed.

(** one query for all theorems of this file *)
Definition all_theorems := (@C52_left_alone_a_call_completes, @C52_no_endless_call, @C53_calls_that_insert_nothing_are_bounded).
Print Assumptions all_theorems.
