(** C55: visit_all, visit_while and erase_if with an execution policy. The machine is that of ConcParModel.v: np threads making such calls run with n threads, of which some stand
    for the jobs of these calls (one for each group of the container, run in any order, in any interleaving) and the others make all other calls. [pruns c n np es PC].
    In an event [PRet u r rs]: r is what visit_while returns (true for visit_all, erase_if); rs lists, for each job, the elements its function was called on, and whether they were erased.
    In [PCall u d x m f]: [f j k] is what the function does in the (k+1)-th call by job j. *)
From Coq Require Import NArith Bool List Arith Lia Permutation.
From Verif Require Properties_Conc.
From Verif Require Import SizeModel GroupModel FoaModel FoaArr FoaSpec FoaWorld FoaExamples ConcSpec ConcModel ConcInv ConcSys ConcSys2 ConcLin1 ConcLin3 ConcVisit ConcProps ConcLog ConcProgress ConcExec ConcWrap ConcExamples
  ConcPar ConcParModel ConcPar2 ConcPar3 ConcPar4 ConcParExec.
Import ListNotations.
Local Open Scope N_scope.

Section P.
Context {K V : Type} (c : Cfg K V).
Hypothesis HC : good_cfg c.
Notation stored := Properties_Conc.stored. Notation holds := Properties_Conc.holds. Notation abstract := Properties_Conc.abstract.
Notation pconf := (@pconf K V). Notation pcall := (@pcall K V).

(** the calls of all threads, those of the jobs included, are those of the atomic machine of ConcSpec.v, where a job is a traversal that accesses one element at a time *)
Theorem C55_linearizable : forall n np es PC, pruns c n np es PC -> atomic_history (keqf c) (moves c) (filter visible (plain es)).
Proof. intros n np es PC R. exact (plinearizable c HC n np es PC R). Qed.
(** each call of the function takes effect in one step, which changes one element as the specification says (ConcSpec.espec); so do the calls of the other threads *)
Theorem C55_instants : forall n np es PC a ev PC' t ac, pruns c n np es PC -> pstep c PC a ev PC' -> In (PPlain (ELin t ac)) ev ->
  exists ca done, calls_of (pcf PC) t = Pend ca done /\ takes_effect (keqf c) (moves c) (calls_of (pcf PC)) t ca done ac (abstract (pcf PC)) (abstract (pcf PC')).
Proof.
  intros n np es PC a ev PC' t ac R St H. rewrite !Properties_Conc.abstract_absw. apply (ginv_instant c HC); [exact (re_inv _ _ _ (preach c HC _ _ _ _ R))|]. eapply instant_step; eassumption.
Qed.
(** and no other step changes the contents *)
Theorem C55_other_steps_change_nothing : forall n np es PC a ev PC', pruns c n np es PC -> pstep c PC a ev PC' -> (forall t ac, ~ In (PPlain (ELin t ac)) ev) ->
  same_world (abstract (pcf PC)) (abstract (pcf PC')).
Proof.
  intros n np es PC a ev PC' R St H. destruct (silent_step c _ _ _ _ St H) as [E|(e & G & Ne)].
  - unfold Properties_Conc.abstract. rewrite E. unfold same_world. generalize (boxes (pcf PC)). clear. intros bs. induction bs as [|[s|] bs IH]; [constructor|constructor; [repeat split; apply Permutation_refl|exact IH]|constructor; [exact Logic.I|exact IH]].
  - exact (Properties_Conc.inv_silent c HC _ _ _ (re_inv _ _ _ (preach c HC _ _ _ _ R)) G Ne).
Qed.
(** at any moment, no two equivalent elements, and exact accounting *)
Theorem C55_no_equivalent_elements : forall n np es PC d s i j e e', pruns c n np es PC -> holds (pcf PC) d s -> i <> j ->
  nth_error (stored s) i = Some e -> nth_error (stored s) j = Some e' -> keqf c (pid (tb s)) (fst e) (fst e') = false.
Proof.
  intros n np es PC d s i j e e' R Hb N Hi Hj. destruct (Properties_Conc.live_positions _ _ _ _ _ N Hi Hj) as (i' & j' & N' & E1 & E2).
  apply (ginv_uniq c (pcf PC) d s (re_inv _ _ _ (preach c HC _ _ _ _ R)) (Properties_Conc.holds_box _ _ _ Hb) i' j' e e' N'); unfold get_cell; destruct (a_elems (arr (tb s))); auto; destruct i', j'; discriminate.
Qed.
Theorem C55_counters : forall n np es PC d s, pruns c n np es PC -> holds (pcf PC) d s ->
  let m := N.of_nat (length (stored s)) in
  m <= ml (tb s) /\ m <= sz (tb s) <= m + N.of_nat (length (filter (inside d) (th (pcf PC)))) /\ ml (tb s) <= capacity (arr (tb s)) < 2 ^ 64.
Proof. intros n np es PC d s R Hb. apply (ginv_size c (pcf PC) d s (re_inv _ _ _ (preach c HC _ _ _ _ R)) (Properties_Conc.holds_box _ _ _ Hb)). Qed.
(** two jobs, or a job and another thread, access the slot of an element at the same time only to read it *)
Theorem C55_exclusive_access : forall n np es PC t t' p p' d i w w', pruns c n np es PC -> t <> t' ->
  nth_error (th (pcf PC)) t = Some p -> nth_error (th (pcf PC)) t' = Some p' ->
  slot_use d p = Some (i, w) -> slot_use d p' = Some (i, w') -> w = false /\ w' = false.
Proof. intros n np es PC t t' p p' d i w w' R N H1 H2 U1 U2. exact (ginv_exclusive c (pcf PC) t t' p p' d i w w' (re_inv _ _ _ (preach c HC _ _ _ _ R)) N H1 H2 U1 U2). Qed.
(** no step of a job is undefined *)
Theorem C55_steps_are_defined : forall n np es PC t d o l s, pruns c n np es PC -> nth_error (th (pcf PC)) t = Some (ConcModel.At d o l) -> holds (pcf PC) d s ->
  l <> LFull -> (forall r, l <> LRet r) -> forall i thr,
  match lstep c (free_for (pcf PC) t d) s o l i thr with Blocked => True | Ub => False | Step e _ _ => apply e s <> None end.
Proof.
  intros n np es PC t d o l s R Ht Hb Nl Nr i thr. pose proof (preach c HC _ _ _ _ R) as [G _ F _ _].
  exact (ginv_defined c (pcf PC) t d o l s G F Ht (Properties_Conc.holds_box _ _ _ Hb) Nl Nr i thr).
Qed.

(** *** a call, from its first to its last step *)
(** If an element equivalent to q is present from the call to the return, then the function is called at most once on it, and exactly once if the traversal was not interrupted *)
Theorem C55_present_elements_are_visited_once : forall n np es0 PC0 u d x m f a1 ev1 PC1 p q es PC r rs a2 ev2 PC2,
  pruns c n np es0 PC0 -> pstep c PC0 a1 ev1 PC1 -> In (PCall u d x m f) ev1 ->
  psteps c (fun C => counters_fit C /\ present c C d p q) PC1 es PC -> (forall r rs, ~ In (PRet u r rs) es) ->
  pstep c PC a2 ev2 PC2 -> In (PRet u r rs) ev2 ->
  let calls := length (filter (fun eb => keqf c p q (fst (fst eb))) (concat rs)) in
  (calls <= 1)%nat /\ (r = true -> calls = 1%nat).
Proof.
  intros n np es0 PC0 u d x m f a1 ev1 PC1 p q es PC r rs a2 ev2 PC2 R S1 I1 H Nr S2 I2. destruct (call_inv c _ _ _ _ _ _ _ _ _ S1 I1) as (s & -> & -> & Hn & Hb & E1).
  assert (counters_fit (pcf PC1)) as F1 by (clear - H; induction H as [X|? ? ? ? ? ? IH]; [apply X|exact IH]). pose proof (pr_snoc c _ _ _ _ _ _ _ R S1 F1) as R1.
  apply (pvisited c HC n np _ PC1 u (PCallOf d x m f [] PWaiting) p q es PC r rs a2 ev2 PC2 R1); [rewrite E1; cbn [set_p pars]; eapply self_err; exact Hn|reflexivity|exact H|exact Nr|exact S2|exact I2].
Qed.
(** The jobs made exactly these calls of the function, between the call and the return ([ts]: the threads that stand for the jobs). None of them threw. A job of visit_while stops when
    its function returns false, and only then; visit_while returns false if and only if this happened. *)
Theorem C55_calls_of_the_function : forall n np es0 PC0 u d x m f a1 ev1 PC1 es PC r rs a2 ev2 PC2,
  pruns c n np es0 PC0 -> pstep c PC0 a1 ev1 PC1 -> In (PCall u d x m f) ev1 ->
  psteps c counters_fit PC1 es PC -> (forall r rs, ~ In (PRet u r rs) es) ->
  pstep c PC a2 ev2 PC2 -> In (PRet u r rs) ev2 ->
  (exists ts, NoDup ts /\ length ts = length rs /\ forall j t l, nth_error ts j = Some t -> nth_error rs j = Some l -> exists pre,
     filter (ev_by t) (plain es) = pre ++ ECall t (OnC d (Bulk x m (f j))) :: map (fun eb => ELin t (AElem (fst eb) (snd eb))) l) /\
  (forall j l k e b, nth_error rs j = Some l -> nth_error l k = Some (e, b) ->
     exists y, snd (f j k e) = Some y /\ (m = BWhile -> y = false -> r = false /\ length l = S k)) /\
  (r = false -> m = BWhile /\ exists j l k e b, nth_error rs j = Some l /\ nth_error l k = Some (e, b) /\ snd (f j k e) = Some false).
Proof.
  intros n np es0 PC0 u d x m f a1 ev1 PC1 es PC r rs a2 ev2 PC2 R S1 I1 H Nr S2 I2. destruct (call_inv c _ _ _ _ _ _ _ _ _ S1 I1) as (s & -> & -> & Hn & Hb & E1).
  assert (counters_fit (pcf PC1)) as F1 by (clear - H; induction H as [X|? ? ? ? ? ? IH]; [apply X|exact IH]). pose proof (pr_snoc c _ _ _ _ _ _ _ R S1 F1) as R1.
  assert (nth_error (pars PC1) u = Some (Some (PCallOf d x m f [] PWaiting))) as Hu1 by (rewrite E1; cbn [set_p pars]; eapply self_err; exact Hn).
  destruct (args_steps c _ _ _ _ u _ H Hu1 Nr) as (b & Hu & (A1 & A2 & A3 & A4)). cbn [p_d p_x p_md p_f] in *.
  destruct (since_steps c HC _ _ _ _ u _ _ _ R1 Hu1 eq_refl H Nr) as (b' & Hu' & Sin). assert (b' = b) by congruence. subst b'.
  pose proof (preach c HC _ _ _ _ (psteps_run c counters_fit _ _ _ _ _ _ R1 (fun _ H => H) H)) as Re.
  destruct (ret_inv c _ _ _ _ _ _ _ S2 I2) as (b2 & rs0 & _ & Hu2 & Hs & Hj & -> & _ & _). assert (b2 = b) by congruence. subst b2.
  destruct (pi_ok _ (re_pinv _ _ _ Re) u b Hu) as [ND Ok]. unfold POK in Ok. rewrite Hs in Ok. destruct Ok as (rs1 & Hj1 & Nt & Er). pose proof (map_out _ _ (jobs_uniq _ _ _ _ Hj1 Hj)) as ->.
  assert (forall j y, nth_error rs0 j = Some y -> bulk_ends m (f j) (fst y) (snd y)) as Ends.
  { intros j y Ey. destruct (job_result c _ _ u b rs0 j y Re Hu Hj Ey) as [B _]. rewrite A3, A4 in B. exact B. }
  assert (forall j l, nth_error (map fst rs0) j = Some l -> exists y, nth_error rs0 j = Some y /\ fst y = l) as Get.
  { intros j l E. rewrite nth_error_map in E. destruct (nth_error rs0 j) as [y|]; [|discriminate]. injection E as <-. eauto. }
  split; [|split].
  - exists (p_ts b). split; [exact ND|]. destruct Hj as [Lj Hj]. rewrite map_length in Lj. split; [rewrite map_length; auto|]. intros j t l Ht Hl. destruct (Get j l Hl) as (y & Ey & <-).
    destruct (Hj j (out_of y)) as (t1 & T1 & T2); [rewrite nth_error_map, Ey; reflexivity|]. assert (t1 = t) by congruence. subst t1. destruct (Sin j t _ (conj T1 T2)) as [pre E]. exists pre. rewrite E.
    unfold job. rewrite A1, A2, A3, A4. cbn [lins out_of]. unfold bacts. rewrite map_map. reflexivity.
  - intros j l k e b0 Hl Hk. destruct (Get j l Hl) as (y & Ey & <-). destruct (Ends j y Ey) as [E2 E3]. pose proof (Nt y (nth_error_In _ _ Ey)) as Ny.
    assert (k < length (fst y))%nat as Lk by (apply nth_error_Some; congruence).
    assert (snd y = BDone \/ (S k < length (fst y))%nat \/ (snd y = BHalted /\ length (fst y) = S k)) as Cases.
    { destruct (snd y) eqn:Sy; [auto| |destruct (Ny eq_refl)]. destruct (Nat.lt_ge_cases (S k) (length (fst y))); [auto|]. right. right. split; [reflexivity|lia]. }
    assert (goes_on m (snd (f j k e)) = true \/ (snd y = BHalted /\ length (fst y) = S k /\ snd (f j k e) = Some false)) as Cases2.
    { destruct Cases as [Sd|[Lt|[Sh Le]]].
      - rewrite Sd in E3. left. apply (E3 k). rewrite Hk. reflexivity.
      - left. apply (E2 k); [exact Lt|]. rewrite Hk. reflexivity.
      - rewrite Sh in E3. destruct E3 as (_ & k' & Lk' & Eo). assert (k' = k) by lia. subst k'. rewrite Hk in Eo. injection Eo as Eo. auto. }
    destruct Cases2 as [Go|(Sh & Le & Eo)].
    + destruct (snd (f j k e)) as [y0|]; [|destruct m; discriminate]. exists y0. split; [reflexivity|]. intros -> ->. discriminate Go.
    + exists false. split; [exact Eo|]. intros _ _. split; [|exact Le]. rewrite Er. apply negb_false_iff, existsb_exists. exists y. split; [eapply nth_error_In; exact Ey|]. unfold halted. rewrite Sh. reflexivity.
  - intros ->. symmetry in Er. apply negb_false_iff, existsb_exists in Er as (y & Hy & Eh). apply In_nth_error in Hy as [j Ey]. destruct (Ends j y Ey) as [_ E3]. unfold halted in Eh. destruct (snd y); try discriminate.
    destruct E3 as (Em & k & Lk & Eo). split; [exact Em|]. destruct (nth_error (fst y) k) as [[e b0]|] eqn:Ek; [|discriminate]. injection Eo as Eo. exists j, (fst y), k, e, b0. rewrite nth_error_map, Ey. auto.
Qed.
(** *** progress. If the functions do not throw, then while a call is in progress, with a policy or not, some thread can make a step of its own call; a call with a policy can start
    as soon as there are threads for its jobs *)
Theorem C55_no_deadlock : forall n np es PC, pruns c n np es PC ->
  (forall u b j k e, nth_error (pars PC) u = Some (Some b) -> snd (p_f b j k e) <> None) ->
  (exists u b, nth_error (pars PC) u = Some (Some b) /\ p_st b <> PWaiting) \/ (exists t d o l, nth_error (th (pcf PC)) t = Some (ConcModel.At d o l)) ->
  (exists u b ev PC', nth_error (pars PC) u = Some (Some b) /\ pstep c PC (By u) ev PC') \/
  (exists t d o l ev PC', ~ owned (pars PC) t /\ nth_error (th (pcf PC)) t = Some (ConcModel.At d o l) /\ pstep c PC Other ev PC' /\
    nth_error (th (pcf PC')) t <> Some (ConcModel.At d o l)).
Proof. intros n np es PC R Nf H. apply (pno_deadlock c HC PC es (preach c HC _ _ _ _ R)); [|exact H]. intros u b Hu j k e. exact (Nf u b j k e Hu). Qed.
Theorem C55_a_call_starts : forall n np es PC u b s ts, pruns c n np es PC -> nth_error (pars PC) u = Some (Some b) -> p_st b = PWaiting -> holds (pcf PC) (p_d b) s ->
  NoDup ts -> (forall t, In t ts -> nth_error (th (pcf PC)) t = Some Idle) ->
  length ts = match a_elems (arr (tb s)) with Some _ => N.to_nat (a_mask (arr (tb s)) + 1) | None => 0%nat end ->
  exists ev PC', pstep c PC (By u) ev PC'.
Proof.
  intros n np es [C B] u b s ts _ Hu Hs Hb ND Hi L. apply Properties_Conc.holds_box in Hb. eapply (enter_step c C B u b s ts); try assumption.
  unfold groups_of. cbn [pcf] in Hb. rewrite Hb. destruct (a_elems (arr (tb s))); congruence.
Qed.
End P.

(** *** concrete runs. A container with two groups holds keys 5, 7 and 8 (8 in the second group). erase_if(policy) is called with a function that adds 1 to the value and accepts key 7;
    threads 2 and 3 stand for its jobs, whose steps alternate; meanwhile thread 0 inserts key 9 *)
Notation stored := Properties_Conc.stored. Notation holds := Properties_Conc.holds.
Definition erase7 : nat -> nat -> ufun N N := fun _ _ e => (snd e + 1, Some (fst e =? 7)).
Definition setup : list pmove := map XPlain (fst (do_call 0 (ins1 8) (do_call 0 (ins1 7) (do_call 0 (ins1 5) (then_ (MRet 0) (then_ (MWhole 0 0) (then_ (MWCall 0 (New 0 0 0 20)) ([], start 4)))))))).
Definition init : @pconf N N := PConf (start 4) [None].
Notation pp := (pplay nothrow false).
(** the moves of a schedule that are possible *)
Fixpoint greedy (ms : list pmove) (PC : @pconf N N) : list pmove :=
  match ms with
  | [] => []
  | m :: r => match do_pmove nothrow false m PC with Some (_, PC') => m :: greedy r PC' | None => greedy r PC end
  end.
Definition moves1 : list pmove := XPlain (MCall 0 0 (ins1 9)) :: concat (repeat ([XJob 0 0; XJob 0 1] ++ map (fun i => XPlain (MLocal 0 i false)) (seq 0 15)) 40) ++ [XPlain (MRet 0); XEnd 0].
Definition conf_after (ms : list pmove) (PC : @pconf N N) : @pconf N N := match pp (fun _ => true) ms PC with Some (_, PC') => PC' | None => PC end.
Definition q0 : @pconf N N := Eval vm_compute in conf_after setup init.
Definition q1 : @pconf N N := Eval vm_compute in conf_after [XCall 0 0 true BErase erase7] q0.
Definition sched1 : list pmove := Eval vm_compute in XEnter 0 [2; 3]%nat :: greedy moves1 (conf_after [XEnter 0 [2; 3]%nat] q1).
Definition q2 : @pconf N N := Eval vm_compute in conf_after sched1 q1.
Definition ev_of (ms : list pmove) (PC : @pconf N N) : list (@pevent N N) := match pp fitb ms PC with Some (es, _) => es | None => [] end.
Definition es0 : list (@pevent N N) := Eval vm_compute in ev_of setup init.
Definition es1 : list (@pevent N N) := Eval vm_compute in ev_of sched1 q1.
Definition instants_of (es : list (@pevent N N)) : list (nat * act N N) := flat_map (fun e => match e with PPlain (ELin t a) => [(t, a)] | _ => [] end) es.
Definition q3 : @pconf N N := Eval vm_compute in conf_after [XRet 0] q2.
Definition es3 : list (@pevent N N) := Eval vm_compute in ev_of [XRet 0] q2.
Lemma wHC : good_cfg wcfg. Proof. apply ecfg_good. Qed.
Lemma q0_runs : pruns wcfg 4 1 es0 q0.
Proof. apply (pplay_runs nothrow false setup 4 1 [] init es0 q0); [exact (pr_nil wcfg 4 1 (fitb_ok (Conf [] (repeat Idle 4)) eq_refl))|vm_compute; reflexivity]. Qed.
Lemma q1_step : exists a, pstep wcfg q0 a [PCall 0 0 true BErase erase7] q1.
Proof. apply (do_pmove_ok nothrow false (XCall 0 0 true BErase erase7) q0 es0 _ _ (preach wcfg wHC _ _ _ _ q0_runs)). vm_compute. reflexivity. Qed.
Lemma q1_runs : pruns wcfg 4 1 (es0 ++ [PCall 0 0 true BErase erase7]) q1.
Proof. destruct q1_step as [a S1]. eapply pr_snoc; [exact q0_runs|exact S1|apply fitb_ok; vm_compute; reflexivity]. Qed.
Lemma q2_steps : psteps wcfg (fun C => counters_fit C /\ present wcfg C 0 0 5) q1 es1 q2.
Proof.
  apply (pplay_steps nothrow false both _ both_ok (fun C H => proj1 H) sched1 4 1 _ q1 [] q1 es1 q2 q1_runs); [apply ps_nil, both_ok; vm_compute; reflexivity|vm_compute; reflexivity].
Qed.
Lemma q2_steps_fit : psteps wcfg counters_fit q1 es1 q2.
Proof. apply (pplay_steps nothrow false fitb _ fitb_ok (fun C H => H) sched1 4 1 _ q1 [] q1 es1 q2 q1_runs); [apply ps_nil, fitb_ok; vm_compute; reflexivity|vm_compute; reflexivity]. Qed.
Lemma q2_runs : pruns wcfg 4 1 ((es0 ++ [PCall 0 0 true BErase erase7]) ++ es1) q2.
Proof. exact (psteps_run wcfg counters_fit _ _ _ _ _ _ q1_runs (fun _ H => H) q2_steps_fit). Qed.
Lemma q3_step : exists a, pstep wcfg q2 a es3 q3.
Proof. apply (do_pmove_ok nothrow false (XRet 0) q2 _ _ _ (preach wcfg wHC _ _ _ _ q2_runs)). vm_compute. reflexivity. Qed.
Lemma no_ret : forall r rs, ~ In (PRet 0 r rs) es1.
Proof.
  intros r rs H. assert (existsb (fun e => match e with PRet _ _ _ => true | _ => false end) es1 = true) as E by (apply existsb_exists; eexists; split; [exact H|reflexivity]). vm_compute in E. discriminate E.
Qed.
Definition in_box (q : @pconf N N) : list (N * N) := match box (pcf q) 0 with Some s => stored s | None => [] end.
Example C55_example :
  (exists a, pruns wcfg 4 1 es0 q0 /\ pstep wcfg q0 a [PCall 0 0 true BErase erase7] q1) /\
  psteps wcfg (fun C => counters_fit C /\ present wcfg C 0 0 5) q1 es1 q2 /\ (forall r rs, ~ In (PRet 0 r rs) es1) /\
  (exists a, pstep wcfg q2 a es3 q3) /\ In (PRet 0 true [[(5, 105, false); (7, 107, true)]; [(8, 108, false)]]) es3 /\
  instants_of es1 = [(2%nat, AElem (5, 105) false); (3%nat, AElem (8, 108) false); (2%nat, AElem (7, 107) true); (0%nat, APoint RIns)] /\
  in_box q0 = [(5, 105); (7, 107); (8, 108)] /\ in_box q2 = [(5, 106); (8, 109); (9, 109)].
Proof.
  destruct q1_step as [a S1]. split; [exists a; split; [exact q0_runs|exact S1]|]. split; [exact q2_steps|]. split; [exact no_ret|]. split; [exact q3_step|].
  split; [left; vm_compute; reflexivity|]. split; [vm_compute; reflexivity|]. split; vm_compute; reflexivity.
Qed.

(** visit_while with a function that refuses key 8: the job of the second group stops there, the other is not started, and the call returns false *)
Definition not8 : nat -> nat -> ufun N N := fun _ _ e => (snd e, Some (negb (fst e =? 8))).
Definition w1 : @pconf N N := Eval vm_compute in conf_after [XCall 0 0 false BWhile not8] q0.
Definition sched2 : list pmove := Eval vm_compute in XEnter 0 [2; 3]%nat :: greedy (concat (repeat [XJob 0 1] 60) ++ [XEnd 0]) (conf_after [XEnter 0 [2; 3]%nat] w1).
Definition w2 : @pconf N N := Eval vm_compute in conf_after sched2 w1.
Definition es2 : list (@pevent N N) := Eval vm_compute in ev_of sched2 w1.
Definition w3 : @pconf N N := Eval vm_compute in conf_after [XRet 0] w2.
Definition es4 : list (@pevent N N) := Eval vm_compute in ev_of [XRet 0] w2.
Lemma w1_step : exists a, pstep wcfg q0 a [PCall 0 0 false BWhile not8] w1.
Proof. apply (do_pmove_ok nothrow false (XCall 0 0 false BWhile not8) q0 es0 _ _ (preach wcfg wHC _ _ _ _ q0_runs)). vm_compute. reflexivity. Qed.
Lemma w1_runs : pruns wcfg 4 1 (es0 ++ [PCall 0 0 false BWhile not8]) w1.
Proof. destruct w1_step as [a S1]. eapply pr_snoc; [exact q0_runs|exact S1|apply fitb_ok; vm_compute; reflexivity]. Qed.
Lemma w2_steps : psteps wcfg counters_fit w1 es2 w2.
Proof. apply (pplay_steps nothrow false fitb _ fitb_ok (fun C H => H) sched2 4 1 _ w1 [] w1 es2 w2 w1_runs); [apply ps_nil, fitb_ok; vm_compute; reflexivity|vm_compute; reflexivity]. Qed.
Lemma w3_step : exists a, pstep wcfg w2 a es4 w3.
Proof. apply (do_pmove_ok nothrow false (XRet 0) w2 _ _ _ (preach wcfg wHC _ _ _ _ (psteps_run wcfg counters_fit _ _ _ _ _ _ w1_runs (fun _ H => H) w2_steps))). vm_compute. reflexivity. Qed.
Example C55_example_while :
  (exists a, pruns wcfg 4 1 es0 q0 /\ pstep wcfg q0 a [PCall 0 0 false BWhile not8] w1) /\ psteps wcfg counters_fit w1 es2 w2 /\
  (exists a, pstep wcfg w2 a es4 w3) /\ In (PRet 0 false [[]; [(8, 108, false)]]) es4.
Proof. destruct w1_step as [a S1]. split; [exists a; split; [exact q0_runs|exact S1]|]. split; [exact w2_steps|]. split; [exact w3_step|]. left; vm_compute; reflexivity. Qed.

Definition all_theorems := (@C55_linearizable, @C55_instants, @C55_other_steps_change_nothing, @C55_no_equivalent_elements, @C55_counters, @C55_exclusive_access, @C55_steps_are_defined,
  @C55_present_elements_are_visited_once, @C55_calls_of_the_function, @C55_no_deadlock, @C55_a_call_starts).
Print Assumptions all_theorems.
