(** C43: without the bound on the insertion counter, uniqueness fails. Thread 0 starts inserting key 5 and stops just before it
    reserves a slot; thread 1 inserts key 5, then inserts and erases key 7 until the 32-bit counter of the group has its first value
    again; thread 0 goes on. *)
From Coq Require Import NArith Bool List Arith Lia.
From Verif Require Import SizeModel GroupModel FoaModel FoaArr FoaSpec FoaWorld FoaExamples ConcSpec ConcModel ConcVisit ConcExec.
Import ListNotations.
Local Open Scope N_scope.

Definition wcfg := ecfg nothrow false.
Notation mplay := (play nothrow false (fun _ => true)).
Definition keep : ufun N N := fun e => (snd e, Some true).
Definition ins1 (k : N) : cop N N := Point (PEmplace false k (k + 100) keep keep).
Definition era1 (k : N) : cop N N := Point (PErase k keep).
Definition at_ins (l : @loc N N) := match l with LIns _ => true | _ => false end.
Definition at_cnt (l : @loc N N) := match l with LCnt _ _ => true | _ => false end.
Definition never (l : @loc N N) := false.
(** thread t runs until [stop] *)
Definition until (t : nat) (stop : loc -> bool) (r : list move * @conf N N) : list move * conf :=
  let '(ms, C) := r in let '(ms1, C1) := alone_moves nothrow false 300 stop t C in (ms ++ ms1, C1).
Definition then_ (m : move) (r : list move * @conf N N) : list move * conf :=
  let '(ms, C) := r in match do_move nothrow false m C with Some (_, C1) => (ms ++ [m], C1) | None => (ms, start 0) end.
Definition do_call (t : nat) (o : cop N N) (r : list move * @conf N N) := then_ (MRet t) (until t never (then_ (MCall t 0 o) r)).

(** a container with one group sequence for all keys; its arrays allocated by a first insertion *)
Definition prep := then_ (MRet 0) (then_ (MWhole 0 0) (then_ (MWCall 0 (New 1 0 0 10)) ([], start 2))).
(** thread 0 is about to reserve a slot for key 5, thread 1 has inserted it *)
Definition p0 := do_call 1 (ins1 5) (until 0 at_ins (then_ (MCall 0 0 (ins1 5)) prep)).
Definition c0 : conf := Eval vm_compute in snd p0.
Definition m0 : list move := Eval vm_compute in fst p0.
Definition put_cnt (C : @conf N N) (m : N) : conf :=
  match boxes C with [Some s] => Conf [Some (MkSh (tb s) (m :: tl (cnt s)))] (th C) | _ => C end.
Definition cyc (m : N) : conf := put_cnt c0 m.
(** thread 1 inserts key 7, up to the comparison of the counter ... *)
Definition p1 := until 1 at_cnt (then_ (MCall 1 0 (ins1 7)) ([], c0)).
Definition m1 : list move := Eval vm_compute in fst p1.
Definition c1 : conf := Eval vm_compute in snd p1.
Definition set_cg (l : @loc N N) (m : N) : loc := match l with LCnt x n => LCnt (Ctx (x_h x) m (x_pb x)) n | LCons x n => LCons (Ctx (x_h x) m (x_pb x)) n | _ => l end.
Definition put_cg (C : @conf N N) (m : N) : conf :=
  match th C with [p; At d o l] => Conf (boxes C) [p; At d o (set_cg l m)] | _ => C end.
(** ... then finishes and erases it *)
Definition p2 := do_call 1 (era1 7) (then_ (MRet 1) (until 1 never (then_ (MLocal 1 0 false) ([], c1)))).
Definition m2 : list move := Eval vm_compute in tl (fst p2).
Definition c2 : conf := Eval vm_compute in snd (then_ (MLocal 1 0 false) ([], c1)).
Lemma cyc_phase1 m : mplay m1 (cyc m) = Some ([ECall 1 (OnC 0 (ins1 7))], put_cg (put_cnt c1 m) m).
Proof. vm_compute. reflexivity. Qed.
Lemma cyc_phase2 m : do_move nothrow false (MLocal 1 0 false) (put_cg (put_cnt c1 m) m) = Some (None, put_cg (put_cnt c2 (m + 1)) m).
Proof.
  transitivity (match (if negb (m mod 2 ^ 32 =? m mod 2 ^ 32) then None else Some (@None (event N N), put_cg (put_cnt c2 (m + 1)) m)) with x => x end).
  2:{ rewrite N.eqb_refl. reflexivity. }
  unfold do_move, put_cg, put_cnt, c1, c2. cbn [boxes th nth_error box set_cg x_h x_pb cnt tl tb].
  unfold lstep, pstep. cbn [tb cnt arr a_gsi x_h x_cg]. change (N.to_nat (position 0 63)) with 0%nat. cbn [nth_error].
  rewrite N.eqb_refl. cbn [negb apply cnt nth_error tb option_map]. reflexivity.
Qed.
Definition e2 : list (event N N) := [ELin 1 (APoint RIns); ERet 1 (AnsC RIns); ECall 1 (OnC 0 (era1 7)); ELin 1 (APoint (RErased (7, 107))); ERet 1 (AnsC (RErased (7, 107)))].
Lemma cyc_phase3 m cg : mplay m2 (put_cg (put_cnt c2 m) cg) = Some (e2, cyc m).
Proof. vm_compute. reflexivity. Qed.

Definition any (C : @conf N N) : Prop := True.
Lemma any_ok C : (fun _ : @conf N N => true) C = true -> any C. Proof. exact (fun _ => I). Qed.
Lemma cyc_round n es m : runs_with wcfg any n es (cyc m) -> runs_with wcfg any n (es ++ ECall 1 (OnC 0 (ins1 7)) :: e2) (cyc (m + 1)).
Proof.
  intros R. pose proof (play_runs nothrow false _ any any_ok m1 n es _ _ _ R (cyc_phase1 m)) as R1.
  pose proof (r_snoc _ any n _ _ _ _ R1 (do_move_ok _ _ _ _ _ _ (cyc_phase2 m)) I) as R2. rewrite app_nil_r in R2.
  pose proof (play_runs nothrow false _ any any_ok m2 n _ _ _ _ R2 (cyc_phase3 (m + 1) m)) as R3. rewrite <- app_assoc in R3. exact R3.
Qed.
Lemma cyc_rounds n es m r : runs_with wcfg any n es (cyc m) -> exists es1, runs_with wcfg any n (es ++ es1) (cyc (m + N.of_nat r)) /\
  forall e, In e es1 -> In e (ECall 1 (OnC 0 (ins1 7)) :: e2).
Proof.
  intros R. induction r as [|r (es1 & IH & H)].
  - exists []. rewrite app_nil_r. replace (m + N.of_nat 0) with m by lia. split; [exact R|intros e []].
  - exists (es1 ++ ECall 1 (OnC 0 (ins1 7)) :: e2). replace (m + N.of_nat (S r)) with (m + N.of_nat r + 1) by lia. rewrite app_assoc. split; [apply cyc_round, IH|].
    intros e He. apply in_app_or in He as [He|He]; auto.
Qed.

(** thread 0 goes on *)
Definition c3 : conf := Eval vm_compute in snd (until 0 at_cnt ([], c0)).
Definition m3 : list move := Eval vm_compute in fst (until 0 at_cnt ([], c0)).
Definition c4 : conf := put_cnt c0 (2 ^ 32).
Definition m4 : list move := Eval vm_compute in fst (then_ (MRet 0) (until 0 never ([], c4))).
Definition c5 : conf := Eval vm_compute in snd (then_ (MRet 0) (until 0 never ([], c4))).
Lemma last_phase : mplay m4 (cyc (2 ^ 32)) = Some ([ELin 0 (APoint RIns); ERet 0 (AnsC RIns)], c5).
Proof. vm_compute. reflexivity. Qed.
Definition e0 : list (event N N) := Eval vm_compute in match mplay m0 (start 2) with Some (es, _) => es | None => [] end.
Lemma first_phase : mplay m0 (start 2) = Some (e0, cyc 1).
Proof. vm_compute. reflexivity. Qed.
Lemma wrapped : exists es, runs_with wcfg any 2 es c5 /\
  In (ERet 0 (AnsC RIns)) es /\ forall t f, ~ In (ECall t (OnC 0 (Point (PErase 5 f)))) es.
Proof.
  pose proof (play_runs nothrow false _ any any_ok m0 2 [] _ _ _ (r_nil wcfg any 2 I) first_phase) as R0.
  destruct (cyc_rounds 2 _ 1 (N.to_nat (2 ^ 32 - 1)) R0) as (es1 & R1 & H1). rewrite N2Nat.id in R1. change (1 + (2 ^ 32 - 1)) with (2 ^ 32) in R1.
  pose proof (play_runs nothrow false _ any any_ok m4 2 _ _ _ _ R1 last_phase) as R2. eexists. split; [exact R2|]. split.
  - apply in_or_app. right. right. left. reflexivity.
  - intros t f Hin. apply in_app_or in Hin as [Hin|Hin]; [apply in_app_or in Hin as [Hin|Hin]|].
    + cbn [app] in Hin. unfold e0 in Hin. cbn [In] in Hin. repeat destruct Hin as [Hin|Hin]; try discriminate Hin; exact Hin.
    + apply H1 in Hin. unfold e2, ins1, era1 in Hin. cbn [In] in Hin. repeat destruct Hin as [Hin|Hin]; try discriminate Hin; exact Hin.
    + cbn [In] in Hin. repeat destruct Hin as [Hin|Hin]; try discriminate Hin; exact Hin.
Qed.
