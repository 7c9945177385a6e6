(** Concrete runs of the concurrent containers, showing that the hypotheses of the theorems of Properties_Conc.v are met. *)
From Coq Require Import NArith Bool List Arith Lia.
From Verif Require Import SizeModel GroupModel FoaModel FoaArr FoaSpec FoaWorld FoaExamples ConcSpec ConcModel ConcVisit ConcExec ConcWrap.
Import ListNotations.
Local Open Scope N_scope.

(** Thread 0 starts inserting key 5; before it reserves a slot, thread 1 inserts key 7, which starts probing at the same group: thread 0
    starts again, then succeeds. Thread 2 calls erase_if with a function that changes values and accepts key 7: it has finished the first
    group when thread 0 inserts key 8 there; the traversal goes on. Then thread 1 calls size() and rehash(100). *)
Definition pick7 : nat -> ufun N N := fun _ e => (snd e + 1, Some (fst e =? 7)).
Definition at_second (l : @loc N N) := match l with BGrp (S _) _ => true | _ => false end.
Definition r0 := then_ (MRet 0) (then_ (MWhole 0 0) (then_ (MWCall 0 (New 1 0 0 10)) ([], start 3))).
Definition r1 := then_ (MRet 0) (until 0 never (do_call 1 (ins1 7) (until 0 at_ins (then_ (MCall 0 0 (ins1 5)) r0)))).
Definition r2 := until 2 at_second (then_ (MCall 2 0 (Bulk true BErase pick7)) r1).
Definition r3 := then_ (MRet 2) (until 2 never (do_call 0 (ins1 8) r2)).
Definition r4 := then_ (MRet 1) (then_ (MWhole 1 0) (then_ (MWCall 1 (On 0 (Rehash 100))) (do_call 1 SizeOf r3))).

Definition e1 : list (event N N) :=
  [ECall 0 (Whole (New 1 0 0 10)); ELin 0 (AWhole (Done VUnit)); ERet 0 (AnsW (Done VUnit));
   ECall 0 (OnC 0 (ins1 5)); ECall 1 (OnC 0 (ins1 7)); ELin 1 (APoint RIns); ERet 1 (AnsC RIns); ELin 0 (APoint RIns); ERet 0 (AnsC RIns)].
Definition e2' : list (event N N) := [ECall 2 (OnC 0 (Bulk true BErase pick7)); ELin 2 (AElem (7, 107) true); ELin 2 (AElem (5, 105) false)].
Definition e3 : list (event N N) := [ECall 0 (OnC 0 (ins1 8)); ELin 0 (APoint RIns); ERet 0 (AnsC RIns)].
Definition e4 : list (event N N) :=
  [ERet 2 (AnsC (RBulk [(7, 107, true); (5, 105, false)] BDone));
   ECall 1 (OnC 0 SizeOf); ELin 1 (ASize 2); ERet 1 (AnsC (RSize 2));
   ECall 1 (Whole (On 0 (Rehash 100))); ELin 1 (AWhole (Done VUnit)); ERet 1 (AnsW (Done VUnit))].
Definition ex1 : conf := Eval vm_compute in snd r1.
Definition ex2 : conf := Eval vm_compute in snd r2.
Definition ex4 : conf := Eval vm_compute in snd r4.
Lemma ex1_runs : runs_with wcfg counters_fit 3 e1 ex1.
Proof. apply (played nothrow false 3 (fst r1)); vm_compute; reflexivity. Qed.
Lemma ex2_runs : runs_with wcfg counters_fit 3 (e1 ++ e2') ex2.
Proof. apply (played nothrow false 3 (fst r2)); vm_compute; reflexivity. Qed.
Lemma ex4_runs : runs_with wcfg counters_fit 3 (e1 ++ e2' ++ e3 ++ e4) ex4.
Proof. apply (played nothrow false 3 (fst r4)); vm_compute; reflexivity. Qed.

(** the call of erase_if, from its first state to its return; key 5 is present throughout *)
Definition presb (q : N) (C : @conf N N) : bool :=
  match box C 0 with
  | Some s => (pid (tb s) =? 0) && match a_elems (arr (tb s)) with
      | Some cs => existsb (fun x => match x with Live e => q =? fst e | _ => false end) cs | None => false end
  | None => false end.
Lemma presb_ok q C : presb q C = true -> present wcfg C 0 0 q.
Proof.
  unfold presb, present. destruct (box C 0) as [s|]; [|discriminate]. intros H. apply andb_prop in H as [H1 H2]. apply N.eqb_eq in H1.
  destruct (a_elems (arr (tb s))) as [cs|] eqn:E; [|discriminate]. apply existsb_exists in H2 as (x & Hx & H2). destruct x as [e| |]; try discriminate.
  apply In_nth_error in Hx as [i Hi]. exists s, i, e. split; [reflexivity|]. split; [exact H1|]. split; [unfold get_cell; rewrite E; exact Hi|exact H2].
Qed.
Definition both (C : @conf N N) : bool := fitb C && presb 5 C.
Lemma both_ok C : both C = true -> counters_fit C /\ present wcfg C 0 0 5.
Proof. intros H. apply andb_prop in H as [A B]. split; [apply fitb_ok, A|apply presb_ok, B]. Qed.
Definition exc : conf := Eval vm_compute in snd (then_ (MCall 2 0 (Bulk true BErase pick7)) r1).
Definition exr : conf := Eval vm_compute in snd (until 2 never (do_call 0 (ins1 8) r2)).
Lemma exc_step : gstep wcfg ex1 (Some (ECall 2 (OnC 0 (Bulk true BErase pick7)))) exc.
Proof. apply (do_move_ok nothrow false (MCall 2 0 (Bulk true BErase pick7))). vm_compute. reflexivity. Qed.
Lemma exc_steps : steps wcfg (fun C => counters_fit C /\ present wcfg C 0 0 5) exc (tl e2' ++ e3) exr.
Proof.
  set (ms := skipn (S (length (fst r1))) (fst (until 2 never (do_call 0 (ins1 8) r2)))).
  apply (play_steps nothrow false both _ both_ok ms exc [] exc); [apply st_nil, both_ok; vm_compute; reflexivity|vm_compute; reflexivity].
Qed.
