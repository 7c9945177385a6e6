(** C57, continued: every sequentially consistent execution is one of the executions of C57. [continues c P C es C']: from configuration C, a sequence of steps of the
    sequentially consistent model (ConcModel.gstep) with events es leads to C'; it has no effect of an operation on whole containers (for those the client has to
    synchronize the threads, which ConcModel does not represent), and all its configurations satisfy P. *)
From Coq Require Import NArith Bool List Arith Lia.
From Verif Require Import SizeModel FoaModel FoaArr FoaSpec FoaWorld FoaExamples ConcSpec ConcModel ConcExec ConcWrap WeakModel WeakHb WeakSee WeakExec WeakLin WeakExamples WeakSC.
Import ListNotations.
Local Open Scope N_scope.
(** if every thread knows of the containers constructed so far, then every sequentially consistent continuation is possible in the weak model, with the same calls and returns *)
Theorem C57_sequentially_consistent_executions_are_included :
  forall (K V : Type) (c : Cfg K V) (st : bool) (P : @conf K V -> Prop) n w es C, wruns c st P n w ->
  (forall t d i u a, (t < length (th (w_now w)))%nat -> nth_error (w_log w) i = Some (u, a) -> creates a d -> knows st (w_log w) t i) ->
  continues c P (w_now w) es C ->
  exists w', wruns c st P n w' /\ w_now w' = C /\ history (w_log w') = history (w_log w) ++ filter visible es.
Proof.
  intros K V c st P n w es C R M X. destruct (sc_run c st P n w es C R) as (w' & R' & E & _ & H); [|exact X|eauto].
  split; [eapply run_len; exact R|]. intros t d Lt i u a Hi Hc. eapply M; eauto.
Qed.
Print Assumptions C57_sequentially_consistent_executions_are_included.

(** a concrete case: thread 0 has made a container and told thread 1; then thread 0 inserts key 5 while thread 1 looks it up *)
Lemma play_continues (P : @conf N N -> Prop) ok ms : (forall C, ok C = true -> P C) -> forall C0 es0 C es C', continues wcfg P C0 es0 C -> play nothrow false ok ms C = Some (es, C') ->
  forallb (fun e => match e with ELin _ (AWhole _) => false | _ => true end) es = true -> continues wcfg P C0 (es0 ++ es) C'.
Proof.
  intros Ho. induction ms as [|m ms IH]; intros C0 es0 C es C' X E F; cbn [play] in E.
  - injection E as <- <-. rewrite app_nil_r. exact X.
  - destruct (do_move nothrow false m C) as [[e C1]|] eqn:D; [|discriminate E]. destruct (ok C1) eqn:O; [|discriminate E].
    destruct (play nothrow false ok ms C1) as [[es1 C2]|] eqn:Y; [|discriminate E]. injection E as <- <-.
    assert (continues wcfg P C0 (es0 ++ match e with Some x => [x] | None => [] end) C1) as X1.
    { eapply c_snoc; [exact X|exact (do_move_ok _ _ _ _ _ _ D)| |apply Ho, O]. intros t r ->. discriminate F. }
    specialize (IH C0 _ C1 es1 C2 X1 Y). destruct e as [e|]; [|rewrite app_nil_r in IH; auto]. cbn [forallb] in F. apply andb_prop in F as [_ F].
    rewrite <- app_assoc in IH. apply IH, F.
Qed.
Definition both (C : @conf N N) : list move * @conf N N :=
  then_ (MRet 1) (until 1 never (then_ (MRet 0) (until 0 never (then_ (MCall 1 0 (vis1 5)) (until 0 at_ins (then_ (MCall 0 0 (ins1 5)) ([], C))))))).
Example C57_sequentially_consistent_example : forall st, let w := snd (sb0 st) in
  wruns wcfg st counters_fit 2 w /\
  (forall t d i u a, (t < length (th (w_now w)))%nat -> nth_error (w_log w) i = Some (u, a) -> creates a d -> knows st (w_log w) t i) /\
  exists es C, continues wcfg counters_fit (w_now w) es C /\
    filter visible es = [ECall 0 (OnC 0 (ins1 5)); ECall 1 (OnC 0 (vis1 5)); ERet 0 (AnsC RIns); ERet 1 (AnsC (RSeen (5, 105)))].
Proof.
  intros st w. split; [|split].
  - assert (wplay st nothrow false (rev (fst (sb0 st))) (wstart 2) = Some w) as E by (destruct st; vm_compute; reflexivity). exact (wplayed st nothrow false 2 _ _ _ (sb_start st) E).
  - intros t d i u a Lt Hi Hc. assert (t < 2)%nat as Lt2 by (assert (length (th (w_now w)) = 2%nat) as L by (destruct st; vm_compute; reflexivity); rewrite L in Lt; exact Lt). clear Lt.
    assert (i < 5)%nat as Li by (pose proof (nth_lt _ _ _ Hi) as Q; assert (length (w_log w) = 5%nat) as L by (destruct st; vm_compute; reflexivity); rewrite L in Q; exact Q).
    assert (nth_error (w_log w) 3 = Some (0%nat, WSend 7) /\ nth_error (w_log w) 4 = Some (1%nat, WRecv 7)) as [H3 H4] by (destruct st; vm_compute; auto).
    assert (u = 0%nat /\ i = 1%nat) as [-> ->].
    { destruct i as [|[|[|[|[|]]]]]; try lia; [| | | |]; destruct st; vm_compute in Hi; injection Hi as <- <-; try contradiction; auto. }
    destruct t as [|[|]]; [eapply knows_own; exact Hi| |lia].
    exists 4%nat, (WRecv 7). split; [exact H4|]. right. apply hb_trans with 3%nat.
    + apply hb_sb. exists 0%nat, a, (WSend 7). auto.
    + apply hb_sw. exists 0%nat, (WSend 7), 1%nat, (WRecv 7). split; [exact H3|]. split; [exact H4|]. split; [lia|]. eapply s_msg; reflexivity.
  - destruct (play nothrow false fitb (fst (both (w_now w))) (w_now w)) as [[es C]|] eqn:E.
    + exists es, C. split.
      * apply (play_continues counters_fit fitb _ fitb_ok (w_now w) [] (w_now w) es C (c_nil _ _ _) E).
        assert (forallb (fun e => match e with ELin _ (AWhole _) => false | _ => true end) (match play nothrow false fitb (fst (both (w_now w))) (w_now w) with Some (es, _) => es | None => [] end) = true) as F
          by (destruct st; vm_compute; reflexivity). rewrite E in F. exact F.
      * assert (filter visible (match play nothrow false fitb (fst (both (w_now w))) (w_now w) with Some (es, _) => es | None => [] end) =
          [ECall 0 (OnC 0 (ins1 5)); ECall 1 (OnC 0 (vis1 5)); ERet 0 (AnsC RIns); ERet 1 (AnsC (RSeen (5, 105)))]) as F by (destruct st; vm_compute; reflexivity). rewrite E in F. exact F.
    + assert (match play nothrow false fitb (fst (both (w_now w))) (w_now w) with Some _ => true | None => false end = true) as F by (destruct st; vm_compute; reflexivity). rewrite E in F. discriminate F.
Qed.
