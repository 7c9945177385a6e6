(** Traversals with an execution policy: reachable configurations, results, progress. *)
From Coq Require Import NArith Bool List Arith Lia Permutation.
From Verif Require Import FloatModel SizeModel SizeProofs GroupModel GroupSpec FoaModel FoaGroup FoaBase FoaFind FoaArr FoaInv FoaRehash FoaSpec FoaWorld FoaRun
  ConcSpec ConcModel ConcInv ConcStep ConcStep2 ConcStep3 ConcSys ConcSys2 ConcLin1 ConcLin2 ConcLin3 ConcVisit ConcProps ConcLog ConcProgress ConcPar ConcParModel ConcPar2 ConcPar3.
From Verif Require ConcBulkModel ConcBulk ConcBulk2.
Import ListNotations.
Notation set_nth := FoaModel.set_nth.
Notation place := ConcBulkModel.place.

Section Par4.
Context {K V : Type} (c : Cfg K V).
Hypothesis HC : good_cfg c.
Notation Sh := (@Sh K V).
Notation pop := (pop K V). Notation cop := (cop K V). Notation loc := (@loc K V). Notation cres := (cres K V).
Notation conf := (@conf K V). Notation pc := (@pc K V).
Notation GInv := (GInv c).
Notation event := (event K V).
Notation At := ConcModel.At.
Notation calls := (list ((K * V) * bool)).
Notation pcall := (@pcall K V). Notation pconf := (@pconf K V). Notation pevent := (@pevent K V).
Notation xsteps := (xsteps c). Notation xstep := (xstep c). Notation pstep := (pstep c). Notation pruns := (pruns c). Notation psteps := (psteps c).
Notation Log := (@Log K V).

(** *** the events of a thread *)
Lemma log_xstep C es e C' : GInv C -> xstep C e C' -> Log C es -> Log C' (es ++ ConcPar.ev_opt e).
Proof.
  intros G St L. destruct St as [C0 e0 C1 H|C0 t d x md f g acc s l' Ht Hb Hs]; [exact (log_step c _ _ _ _ G H L)|].
  cbn [ConcPar.ev_opt]. rewrite app_nil_r. intros t1 p H. cbn [set_th th] in H. destruct (Nat.eq_dec t1 t) as [->|N]; [|rewrite others_err in H by exact N; exact (L t1 p H)].
  rewrite (self_err _ _ _ _ Ht) in H. injection H as <-. destruct (L t _ Ht) as [pre E]. exists pre. rewrite E. destruct Hs as [->|(g' & -> & _)]; reflexivity.
Qed.
Lemma log_xsteps C es0 es C' : GInv C -> Log C es0 -> xsteps C es C' -> Log C' (es0 ++ es).
Proof.
  intros G L H. induction H as [|es C1 e C2 H IH St F]; [rewrite app_nil_r; exact L|]. rewrite app_assoc.
  eapply log_xstep; [eapply xsteps_ginv; eassumption|exact St|exact IH].
Qed.
Lemma plain_app (a b : list pevent) : plain (a ++ b) = plain a ++ plain b.
Proof. apply flat_map_app. Qed.

(** *** reachable configurations *)
Record Reach (PC : pconf) (es : list pevent) : Prop := {
  re_inv : GInv (pcf PC); re_pinv : PInv PC; re_fit : counters_fit (pcf PC); re_main : Main c (pcf PC) (plain es); re_log : Log (pcf PC) (plain es) }.
Lemma reach_pstep PC es a es' PC' : Reach PC es -> pstep PC a es' PC' -> counters_fit (pcf PC') -> Reach PC' (es ++ es').
Proof.
  intros [G I F M L] St F'. destruct (pstep_ok c HC _ _ _ _ G F F' I St) as [X I']. split; [eapply xsteps_ginv; eassumption|exact I'|exact F'| |]; rewrite plain_app.
  - eapply xsteps_main; eassumption.
  - eapply log_xsteps; eassumption.
Qed.
Theorem preach n np es PC : pruns n np es PC -> Reach PC es.
Proof.
  intros R. induction R as [F|es PC a es' PC' R IH St F]; [|eapply reach_pstep; eassumption].
  split; cbn [pcf pars]; [apply (ginv_init c n)| |exact F|apply (main_init c n)|].
  - split; cbn [pars pcf]; [intros u b H|intros u b u' b' t H _ _ _]; apply nth_error_In, repeat_spec in H; discriminate.
  - intros t p H. cbn [th] in H. apply nth_error_In, repeat_spec in H. subst p. exists []. exact Logic.I.
Qed.
Lemma psteps_run (P : conf -> Prop) n np es0 PC0 es PC : pruns n np es0 PC0 -> (forall C, P C -> counters_fit C) -> psteps P PC0 es PC -> pruns n np (es0 ++ es) PC.
Proof. intros R HP H. induction H as [H|es PC1 a es' PC2 H IH St HP2]; [rewrite app_nil_r; exact R|]. rewrite app_assoc. eapply pr_snoc; [exact IH|exact St|apply HP, HP2]. Qed.

(** *** linearizability *)
Theorem plinearizable n np es PC : pruns n np es PC -> atomic_history (keqf c) (moves c) (filter visible (plain es)).
Proof.
  intros R. destruct (re_main _ _ (preach _ _ _ _ R)) as (fl & _ & _ & _ & H). destruct (H (fun _ => false)) as (es' & st & R1 & R2 & _); [intros t E; discriminate|].
  exists es', (AS st (absw (pcf PC))). split; [exact R1|]. symmetry. exact R2.
Qed.
(** a step with an instant is one step of a thread *)
Lemma opt_in (e : option event) x : In (PPlain x) (opt_ev e) -> e = Some x.
Proof. destruct e as [y|]; [|intros []]. intros [H|[]]. injection H as ->. reflexivity. Qed.
Lemma instant_step PC a es PC' t ac : pstep PC a es PC' -> In (PPlain (ELin t ac)) es -> gstep c (pcf PC) (Some (ELin t ac)) (pcf PC').
Proof.
  intros St H. destruct St as [C B e C' G Ho|C B u d x m f s Hu Hb|C B u b ts m Hu Hs Hm L ND Hi|C B u b j t0 l e C' l' Hu Hs Hj Hr Hy Nt|C B u b ls rs Hu Hs Hj L Hend|C B u b r rs Hu Hs Hj]; cbn [pcf set_p].
  - apply opt_in in H. subst e. exact G.
  - destruct H as [H|[]]. discriminate.
  - apply in_map_iff in H as (y & E & _). discriminate.
  - apply opt_in in H. subst e. eapply by_job_gstep. exact Hy.
  - destruct H.
  - destruct H as [H|H]; [discriminate|]. apply in_map_iff in H as (y & E & _). discriminate.
Qed.
Lemma silent_step PC a es PC' : pstep PC a es PC' -> (forall t ac, ~ In (PPlain (ELin t ac)) es) ->
  boxes (pcf PC') = boxes (pcf PC) \/ exists e, gstep c (pcf PC) e (pcf PC') /\ forall t ac, e <> Some (ELin t ac).
Proof.
  intros St H. destruct St as [C B e C' G Ho|C B u d x m f s Hu Hb|C B u b ts m Hu Hs Hm L ND Hi|C B u b j t0 l e C' l' Hu Hs Hj Hr Hy Nt|C B u b ls rs Hu Hs Hj L Hend|C B u b r rs Hu Hs Hj]; cbn [pcf set_p].
  - right. exists e. split; [exact G|]. intros t ac ->. apply (H t ac). left. reflexivity.
  - left. reflexivity.
  - left. apply ConcBulk.place_boxes.
  - right. exists e. split; [eapply by_job_gstep; exact Hy|]. intros t ac ->. apply (H t ac). left. reflexivity.
  - left. apply ConcBulk.place_boxes.
  - left. apply ConcBulk.place_boxes.
Qed.

(** *** results *)
Lemma ret_inv PC a es PC' u r rs : pstep PC a es PC' -> In (PRet u r rs) es -> exists b rs0, a = By u /\ nth_error (pars PC) u = Some (Some b) /\ p_st b = POut r /\
  jobs_at b (pcf PC) (map out_of rs0) /\ rs = map fst rs0 /\ PC' = set_p PC (place (pcf PC) (p_ts b) (map (fun _ => Idle) rs0)) u None /\
  es = PRet u r (map fst rs0) :: map (fun y => PPlain (ERet (fst y) (AnsC (RBulk (fst (snd y)) (snd (snd y)))))) (combine (p_ts b) rs0).
Proof.
  intros St H. assert (forall e : option event, ~ In (PRet u r rs) (opt_ev e)) as No by (intros [e|] Hi; [destruct Hi as [Hi|[]]; discriminate Hi|exact Hi]).
  destruct St as [C B e C' G Ho|C B u1 d x m f s Hu Hb|C B u1 b ts m Hu Hs Hm L ND Hi|C B u1 b j t0 l e C' l' Hu Hs Hj Hr Hy Nt|C B u1 b ls rs1 Hu Hs Hj L Hend|C B u1 b r1 rs1 Hu Hs Hj]; cbn [pcf set_p pars].
  - destruct (No _ H).
  - destruct H as [H|[]]. discriminate.
  - apply in_map_iff in H as (y & E & _). discriminate.
  - destruct (No _ H).
  - destruct H.
  - destruct H as [H|H]; [|apply in_map_iff in H as (y & E & _); discriminate]. injection H as -> -> <-. exists b, rs1. repeat split; auto; apply Hj.
Qed.
Lemma call_inv PC a es PC' u d x m f : pstep PC a es PC' -> In (PCall u d x m f) es -> exists s, es = [PCall u d x m f] /\ a = By u /\ nth_error (pars PC) u = Some None /\ box (pcf PC) d = Some s /\
  PC' = set_p PC (pcf PC) u (Some (PCallOf d x m f [] PWaiting)).
Proof.
  intros St H. assert (forall e : option event, ~ In (PCall u d x m f) (opt_ev e)) as No by (intros [e|] Hi; [destruct Hi as [Hi|[]]; discriminate Hi|exact Hi]).
  destruct St as [C B e C' G Ho|C B u1 d1 x1 m1 f1 s Hu Hb|C B u1 b ts m1 Hu Hs Hm L ND Hi|C B u1 b j t0 l e C' l' Hu Hs Hj Hr Hy Nt|C B u1 b ls rs1 Hu Hs Hj L Hend|C B u1 b r1 rs1 Hu Hs Hj]; cbn [pcf set_p pars].
  - destruct (No _ H).
  - destruct H as [H|[]]. injection H as -> -> -> -> ->. exists s. auto 10.
  - apply in_map_iff in H as (y & E & _). discriminate.
  - destruct (No _ H).
  - destruct H.
  - destruct H as [H|H]; [discriminate|apply in_map_iff in H as (y & E & _); discriminate].
Qed.
(** a call keeps its arguments *)
Definition same_args (b b' : pcall) : Prop := p_d b' = p_d b /\ p_x b' = p_x b /\ p_md b' = p_md b /\ p_f b' = p_f b.
Lemma args_step PC a es PC' u b : pstep PC a es PC' -> nth_error (pars PC) u = Some (Some b) -> (forall r rs, ~ In (PRet u r rs) es) ->
  exists b', nth_error (pars PC') u = Some (Some b') /\ same_args b b'.
Proof.
  intros St Hb Nr. assert (same_args b b) as Sb by (repeat split).
  destruct St as [C B e C' G Ho|C B u1 d1 x1 m1 f1 s Hu Hbx|C B u1 b1 ts m1 Hu Hs Hm L ND Hi|C B u1 b1 j t0 l e C' l' Hu Hs Hj Hr Hy Nt|C B u1 b1 ls rs1 Hu Hs Hj L Hend|C B u1 b1 r1 rs1 Hu Hs Hj]; cbn [pcf set_p pars] in *.
  - exists b. auto.
  - exists b. destruct (Nat.eq_dec u1 u) as [->|N]; [congruence|]. rewrite others_err by congruence. auto.
  - destruct (Nat.eq_dec u1 u) as [->|N]; [|exists b; rewrite others_err by congruence; auto]. eexists. split; [eapply self_err; exact Hb|]. assert (b1 = b) by congruence. subst. repeat split.
  - destruct (Nat.eq_dec u1 u) as [->|N]; [|exists b; rewrite others_err by congruence; auto]. eexists. split; [eapply self_err; exact Hb|]. assert (b1 = b) by congruence. subst. repeat split.
  - destruct (Nat.eq_dec u1 u) as [->|N]; [|exists b; rewrite others_err by congruence; auto]. eexists. split; [eapply self_err; exact Hb|]. assert (b1 = b) by congruence. subst. repeat split.
  - destruct (Nat.eq_dec u1 u) as [->|N]; [destruct (Nr _ _ (or_introl eq_refl))|exists b; rewrite others_err by congruence; auto].
Qed.
Lemma args_steps P PC es PC' u b : psteps P PC es PC' -> nth_error (pars PC) u = Some (Some b) -> (forall r rs, ~ In (PRet u r rs) es) ->
  exists b', nth_error (pars PC') u = Some (Some b') /\ same_args b b'.
Proof.
  intros H Hb. induction H as [H|es PC1 a es' PC2 H IH St HP2]; intros Nr; [exists b; split; [exact Hb|repeat split]|].
  destruct IH as (b1 & H1 & (A1 & A2 & A3 & A4)); [intros r rs Hi; apply (Nr r rs), in_or_app; auto|].
  destruct (args_step _ _ _ _ u b1 St H1) as (b2 & H2 & (B1 & B2 & B3 & B4)); [intros r rs Hi; apply (Nr r rs), in_or_app; auto|].
  exists b2. split; [exact H2|]. repeat split; congruence.
Qed.
(** the calls of the function by each job, and the instants of the thread that stands for it *)
Lemma job_result PC es u b rs j r : Reach PC es -> nth_error (pars PC) u = Some (Some b) -> jobs_at b (pcf PC) (map out_of rs) -> nth_error rs j = Some r ->
  bulk_ends (p_md b) (p_f b j) (fst r) (snd r) /\ exists t pre, nth_error (p_ts b) j = Some t /\
  filter (ev_by t) (plain es) = pre ++ ECall t (OnC (p_d b) (job b j)) :: map (fun eb => ELin t (AElem (fst eb) (snd eb))) (fst r).
Proof.
  intros [G I F M L] Hu Hj Er. destruct (proj2 Hj j (out_of r)) as (t & T1 & T2); [rewrite nth_error_map, Er; reflexivity|]. split.
  - destruct (gi_at _ _ G _ _ _ _ T2) as [s Hb]. destruct (gi_box _ _ G _ s Hb) as [k Hk]. pose proof (proj2 (view_at _ _ t _ _) T2) as Hv.
    pose proof (proj1 (cb_ti _ _ _ _ (proj1 Hk) _ _ _ Hv)) as W. exact W.
  - destruct (L _ _ T2) as [pre E]. exists t, pre. split; [exact T1|]. rewrite E. cbn [job lins out_of]. unfold bacts. rewrite map_map. reflexivity.
Qed.

Lemma owned_job (PC : pconf) u (b : pcall) t : PInv PC -> nth_error (pars PC) u = Some (Some b) -> In t (p_ts b) -> exists j l, job_at b (pcf PC) j t l.
Proof.
  intros I Hu Ht. destruct (pi_ok _ I u b Hu) as [_ S]. destruct (pok_jobs _ _ S) as [ls Hls]. apply In_nth_error in Ht as [j Hj].
  assert (j < length (p_ts b))%nat as Lj by (apply nth_error_Some; congruence). destruct (nth_error ls j) as [l|] eqn:El; [|apply nth_error_None in El; destruct Hls as [Ll _]; lia].
  destruct (proj2 Hls j l El) as (t1 & Hk). exists j, l. assert (t1 = t) as <- by (destruct Hk as [Z _]; congruence). exact Hk.
Qed.
(** the events of the jobs of a call *)
Definition Since (PC : pconf) (b : pcall) (es : list event) : Prop := forall j t l, job_at b (pcf PC) j t l ->
  exists pre, filter (ev_by t) es = pre ++ ECall t (OnC (p_d b) (job b j)) :: map (ELin t) (lins (job b j) l).
Lemma ev_by_thread t (x : event) : ev_by t x = true <-> ev_thread x = t.
Proof. destruct x; cbn; apply Nat.eqb_eq. Qed.
Lemma filter_none t (es : list event) : (forall x, In x es -> ev_thread x <> t) -> filter (ev_by t) es = [].
Proof.
  induction es as [|x es IH]; intros H; [reflexivity|]. cbn [filter]. destruct (ev_by t x) eqn:E; [apply ev_by_thread in E; destruct (H x (or_introl eq_refl) E)|]. apply IH. intros y Hy. apply H. right. exact Hy.
Qed.
Lemma filter_one t j (ts : list nat) (f : nat -> event) : (forall y, ev_thread (f y) = nth y ts 0%nat) -> NoDup ts -> nth_error ts j = Some t ->
  filter (ev_by t) (map f (seq 0 (length ts))) = [f j].
Proof.
  intros Hf ND Hj. assert (j < length ts)%nat as Lj by (apply nth_error_Some; congruence). replace (length ts) with (j + S (length ts - S j))%nat by lia.
  rewrite seq_app, map_app, filter_app. cbn [seq map plus filter]. assert (ev_by t (f j) = true) as -> by (apply ev_by_thread; rewrite Hf; apply nth_error_nth, Hj).
  assert (forall y, y <> j -> (y < length ts)%nat -> ev_thread (f y) <> t) as Ny.
  { intros y N Ly E. rewrite Hf in E. apply N. eapply NoDup_nth_error; [exact ND|exact Ly|]. rewrite Hj, <- E. apply nth_error_nth'. exact Ly. }
  rewrite !filter_none; [reflexivity| |]; intros x Hx; apply in_map_iff in Hx as (y & <- & Hy); apply in_seq in Hy; apply Ny; lia.
Qed.
Lemma since_step PC es0 a es1 es PC' u b : Reach PC es0 -> pstep PC a es PC' -> nth_error (pars PC) u = Some (Some b) -> (forall r rs, ~ In (PRet u r rs) es) ->
  Since PC b es1 -> exists b', nth_error (pars PC') u = Some (Some b') /\ Since PC' b' (es1 ++ plain es).
Proof.
  intros [G I F _ _] St Hb Nr S.
  assert (forall PC1 es2, (forall t, In t (p_ts b) -> nth_error (th (pcf PC1)) t = nth_error (th (pcf PC)) t /\ forall x, In x es2 -> ev_thread x <> t) -> Since PC1 b (es1 ++ es2)) as Still.
  { intros PC1 es2 H j t l [J1 J2]. destruct (H t) as [H1 H2]; [eapply nth_error_In; exact J1|]. rewrite H1 in J2. destruct (S j t l (conj J1 J2)) as [pre E]. exists pre.
    rewrite filter_app, (filter_none t es2 H2), app_nil_r. exact E. }
  assert (forall u1 b1 t, u1 <> u -> nth_error (pars PC) u1 = Some (Some b1) -> In t (p_ts b1) -> In t (p_ts b) -> False) as Dis by (intros u1 b1 t N H1 H2 H3; apply N; eapply (pi_disj _ I); eassumption).
  destruct St as
   [C B e C' H Ho|C B u1 d x m f s Hu Hbx|C B u1 b1 ts m Hu Hs Hm L NDt Hi|C B u1 b1 j t l e C' l' Hu Hs Hj Hr Hy Nt|C B u1 b1 ls rs Hu Hs Hj L Hend|C B u1 b1 r rs Hu Hs Hj]; cbn [pcf pars set_p] in *.
  - exists b. split; [exact Hb|]. apply Still. cbn [pcf]. intros t Ht. destruct (Ho t) as [H1 H2]; [exists u, b; auto|]. split; [exact H1|]. rewrite plain_opt. intros y Hy. destruct e as [e|]; [|destruct Hy]. destruct Hy as [->|[]]. auto.
  - exists b. split; [rewrite others_err by congruence; exact Hb|]. apply Still. intros t Ht. split; [reflexivity|intros y []].
  - destruct (Nat.eq_dec u1 u) as [->|N].
    + assert (b1 = b) as -> by congruence. eexists. split; [eapply self_err; exact Hb|]. intros j t l [J1 J2]. cbn [p_ts upd p_d pcf set_p] in *. change (job (upd b ts _) j) with (job b j) in *.
      assert (j < length ts)%nat as Lj by (apply nth_error_Some; congruence).
      rewrite (ConcBulk.place_in ts C _ j t (At (p_d b) (job b j) (BGrp j [])) NDt J1) in J2.
      * injection J2 as <-. exists (filter (ev_by t) es1). rewrite (plain_map (fun y : nat * nat => ECall (snd y) (OnC (p_d b) (job b (fst y))))), filter_app. f_equal.
        change (map (ELin t) (lins (job b j) (BGrp j []))) with (@nil event).
        replace (combine (seq 0 m) ts) with (map (fun y => (y, nth y ts 0%nat)) (seq 0 m)).
        -- rewrite map_map. cbn [fst snd]. subst m. rewrite (filter_one t j ts (fun y => ECall (nth y ts 0%nat) (OnC (p_d b) (job b y)))); [|reflexivity|exact NDt|exact J1].
           rewrite (nth_error_nth _ _ 0%nat J1). reflexivity.
        -- subst m. apply list_ext. intros i. rewrite nth_error_map. destruct (Nat.lt_ge_cases i (length ts)) as [Li|Li].
           ++ rewrite seq_at by exact Li. cbn [option_map]. symmetry. apply ConcBulk2.combine_get; [apply seq_at, Li|apply nth_error_nth'; exact Li].
           ++ assert (nth_error (seq 0 (length ts)) i = None) as -> by (apply nth_error_None; rewrite seq_length; exact Li). symmetry. apply nth_error_None. rewrite combine_length, seq_length. lia.
      * apply jobs_to_get. rewrite nth_error_map, seq_at by lia. reflexivity.
      * rewrite (Hi t) by (eapply nth_error_In; exact J1). discriminate.
    + exists b. split; [rewrite others_err by congruence; exact Hb|]. apply Still. intros t Ht.
      assert (~ In t ts) as Nin. { intros Ht'. destruct (owned_job (PConf C B) u b t I Hb Ht) as (j & l & _ & J2). cbn [pcf] in J2. rewrite (Hi t Ht') in J2. discriminate. }
      split; [apply ConcBulk.place_out; exact Nin|]. intros y Hy. rewrite (plain_map (fun y : nat * nat => ECall (snd y) (OnC (p_d b1) (job b1 (fst y))))) in Hy. apply in_map_iff in Hy as ([j1 t1] & <- & Hy).
      cbn [ev_thread fst snd]. apply in_combine_r in Hy. intros ->. exact (Nin Hy).
  - destruct (Nat.eq_dec u1 u) as [->|N].
    + assert (b1 = b) as -> by congruence. exists b. split; [eapply self_err; exact Hb|]. intros j1 t1 l1 [J1 J2]. cbn [pcf set_p] in J2. destruct (Nat.eq_dec t1 t) as [->|Nt1].
      * destruct (pi_ok _ I u b Hb) as [ND _]. assert (j1 = j) as -> by (destruct Hj as [Z _]; eapply NoDup_nth_error; [exact ND|apply nth_error_Some; congruence|congruence]).
        destruct (S j t l Hj) as [pre E]. exists pre. destruct Hj as [Z1 Z2]. destruct Hy as [d o l2 s2 ef l' a s2' Y1 Y2 Y3 Y4]. rewrite Z2 in Y1. injection Y1 as <- <- <-.
        cbn [set_box set_th th] in J2. rewrite (self_err _ _ _ _ Z2) in J2. injection J2 as <-.
        destruct (gi_box _ _ G _ s2 Y2) as [k Hk]. pose proof (proj2 (view_at C _ t _ l) Z2) as Hv.
        pose proof (lin_ok c k s2 (views C (p_d b)) t (job b j) l (free_for C t (p_d b)) 0 false Hk Hv) as X. rewrite Y3 in X. cbn [lin_good] in X. destruct X as (X1 & _).
        rewrite filter_app, E, X1, map_app, <- app_assoc, <- app_comm_cons. do 2 f_equal. f_equal. rewrite plain_opt. destruct a; cbn; [rewrite Nat.eqb_refl|]; reflexivity.
      * rewrite (by_job_others c _ _ _ _ _ Hy _ Nt1) in J2. destruct (S j1 t1 l1 (conj J1 J2)) as [pre E]. exists pre. rewrite filter_app, E, (filter_none t1); [apply app_nil_r|].
        intros y Hi. rewrite plain_opt in Hi. destruct Hy as [d o l2 s2 ef l' a s2' Y1 Y2 Y3 Y4]. destruct a; [|destruct Hi]. destruct Hi as [<-|[]]. cbn. congruence.
    + exists b. split; [rewrite others_err by congruence; exact Hb|]. apply Still. intros t1 Ht1. assert (t1 <> t) as Nt1 by (intros ->; destruct Hj as [Z _]; exact (Dis u1 b1 t N Hu (nth_error_In _ _ Z) Ht1)).
      split; [exact (by_job_others c _ _ _ _ _ Hy _ Nt1)|]. intros y Hi. rewrite plain_opt in Hi. destruct Hy as [d o l2 s2 ef l' a s2' Y1 Y2 Y3 Y4]. destruct a; [|destruct Hi]. destruct Hi as [<-|[]]. cbn. congruence.
  - destruct (Nat.eq_dec u1 u) as [->|N].
    + assert (b1 = b) as -> by congruence. eexists. split; [eapply self_err; exact Hb|]. intros j t l [J1 J2]. cbn [p_ts upd p_d pcf set_p] in *. change (job (upd b _ _) j) with (job b j) in *.
      destruct (pi_ok _ I u b Hb) as [ND _]. assert (j < length (p_ts b))%nat as Lj by (apply nth_error_Some; congruence). destruct Hj as [Lls Hj].
      destruct (nth_error ls j) as [l0|] eqn:El; [|apply nth_error_None in El; lia]. destruct (nth_error rs j) as [r|] eqn:Er; [|apply nth_error_None in Er; lia].
      destruct (Hj j l0 El) as (t1 & T1 & T2). assert (t1 = t) as -> by congruence.
      rewrite (ConcBulk.place_in (p_ts b) C _ j t (At (p_d b) (job b j) (out_of r)) ND J1) in J2.
      * injection J2 as <-. destruct (S j t l0 (conj T1 T2)) as [pre E]. exists pre. cbn [plain flat_map]. rewrite app_nil_r, E. do 3 f_equal. specialize (Hend j l0 r El Er).
        destruct l0; cbn [ended] in Hend; try contradiction; [destruct Hend as [[_ ->]|(_ & _ & ->)]; reflexivity|]. destruct r0; try contradiction. destruct st; try contradiction. subst r. reflexivity.
      * apply jobs_to_get. rewrite nth_error_map, Er. reflexivity.
      * congruence.
    + exists b. split; [rewrite others_err by congruence; exact Hb|]. apply Still. intros t Ht. split; [|intros y []]. apply ConcBulk.place_out. intros Ht'. exact (Dis u1 b1 t N Hu Ht' Ht).
  - destruct (Nat.eq_dec u1 u) as [->|N]; [destruct (Nr _ _ (or_introl eq_refl))|]. exists b. split; [rewrite others_err by congruence; exact Hb|]. apply Still. intros t Ht.
    split; [apply ConcBulk.place_out; intros Ht'; exact (Dis u1 b1 t N Hu Ht' Ht)|]. intros y Hy. cbn [plain flat_map app] in Hy.
    fold (plain (map (fun y : nat * (calls * bstat) => PPlain (ERet (K:=K) (V:=V) (fst y) (AnsC (RBulk (fst (snd y)) (snd (snd y)))))) (combine (p_ts b1) rs))) in Hy.
    rewrite (plain_map (fun y : nat * (calls * bstat) => ERet (fst y) (AnsC (RBulk (fst (snd y)) (snd (snd y)))))) in Hy. apply in_map_iff in Hy as ([t1 r1] & <- & Hy). apply in_combine_l in Hy. cbn. intros ->. exact (Dis u1 b1 t N Hu Hy Ht).
Qed.
Lemma since_steps n np es0 PC0 u b es PC : pruns n np es0 PC0 -> nth_error (pars PC0) u = Some (Some b) -> p_ts b = [] -> psteps counters_fit PC0 es PC -> (forall r rs, ~ In (PRet u r rs) es) ->
  exists b', nth_error (pars PC) u = Some (Some b') /\ Since PC b' (plain es).
Proof.
  intros R Hb Et H. induction H as [F|es PC1 a es' PC2 H IH St F2]; intros Nr.
  - exists b. split; [exact Hb|]. intros j t l [J1 _]. rewrite Et in J1. destruct j; discriminate.
  - destruct IH as (b1 & H1 & S1); [intros ? ? Hi; eapply Nr, in_or_app; left; exact Hi|]. rewrite plain_app.
    eapply since_step; [exact (preach _ _ _ _ (psteps_run counters_fit _ _ _ _ _ _ R (fun _ H => H) H))|exact St|exact H1|intros ? ? Hi; eapply Nr, in_or_app; right; exact Hi|exact S1].
Qed.

(** *** elements present throughout *)
Theorem pvisited n np es0 PC0 u b p q es PC r rs a es' PC' : pruns n np es0 PC0 -> nth_error (pars PC0) u = Some (Some b) -> p_st b = PWaiting ->
  psteps (fun C => counters_fit C /\ present c C (p_d b) p q) PC0 es PC -> (forall r rs, ~ In (PRet u r rs) es) ->
  pstep PC a es' PC' -> In (PRet u r rs) es' -> (visits c p q (concat rs) <= 1)%nat /\ (r = true -> visits c p q (concat rs) = 1%nat).
Proof.
  intros R Hb Hs H Nr St In'.
  assert (exists b', nth_error (pars PC) u = Some (Some b') /\ p_d b' = p_d b /\ PV c (pcf PC) b' p q) as (b' & Hb' & Ed & V').
  { assert (psteps counters_fit PC0 es PC -> True) by auto. clear St In'. induction H as [HP|es PC1 a1 es1 PC2 H IH St HP2]; [exists b; split; [exact Hb|]; split; [reflexivity|]; unfold PV; rewrite Hs; exact Logic.I|].
    destruct IH as (b1 & H1 & E1 & V1); [intros ? ? Hi; eapply Nr, in_or_app; left; exact Hi|auto|].
    assert (counters_fit (pcf PC1) /\ present c (pcf PC1) (p_d b) p q) as [F1 Pr1] by (destruct H; assumption).
    pose proof (preach _ _ _ _ (psteps_run (fun C => counters_fit C /\ present c C (p_d b) p q) _ _ _ _ _ _ R (fun _ => @proj1 _ _) H)) as [G1 I1 _ _ _].
    destruct (pv_step c HC _ _ _ _ u b1 p q G1 I1 St H1) as (b2 & H2 & E2 & V2); [rewrite E1; exact Pr1|exact V1|intros ? ? Hi; eapply Nr, in_or_app; right; exact Hi|].
    exists b2. split; [exact H2|]. split; [congruence|exact V2]. }
  destruct (ret_inv _ _ _ _ _ _ _ St In') as (b2 & rs0 & _ & Hu2 & Hs2 & Hj & -> & _). assert (b2 = b') by congruence. subst b2. unfold PV in V'. rewrite Hs2 in V'. exact (V' rs0 Hj).
Qed.

(** *** progress *)
Definition never_throws (b : pcall) : Prop := forall j n e, snd (p_f b j n e) <> None.
Lemma not_thrown free (s : Sh) x md f l e l' a : (forall n e, snd (f n e) <> None) -> lstep c free s (Bulk x md f) l 0 false = Step e l' a -> thrown l = false -> thrown l' = false.
Proof.
  intros Nf H T. cbn [lstep] in H. destruct l; cbn [bstep] in H; try discriminate H; try (injection H as <- <- <-; reflexivity).
  - destruct (get_group _ _); [|discriminate]. injection H as <- <- <-. reflexivity.
  - destruct kt; [discriminate|]. injection H as <- <- <-. reflexivity.
  - destruct (a_elems _); [|injection H as <- <- <-; reflexivity]. destruct (Nat.eqb _ _); [injection H as <- <- <-; reflexivity|]. destruct (free _ _); [|discriminate]. injection H as <- <- <-. reflexivity.
  - destruct (get_group _ _); [|discriminate]. remember (mask_loop 16 _) as ms. injection H as <- <- <-. reflexivity.
  - destruct ms as [|n ms]; [injection H as <- <- <-; reflexivity|]. destruct (get_cell _ _) as [[| |e1]|]; try discriminate. destruct (f (length acc) e1) as [v ob] eqn:Ef. injection H as <- <- <-.
    destruct (erases md ob); [reflexivity|]. destruct ob as [b|]; [|exfalso; apply (Nf (length acc) e1); rewrite Ef; reflexivity]. destruct (goes_on md (Some b)); reflexivity.
Qed.
Lemma job_advance PC es u b j t l : Reach PC es -> nth_error (pars PC) u = Some (Some b) -> p_st b = PRun -> never_throws b -> job_at b (pcf PC) j t l -> running j l = true ->
  match waits (job b j) l with Some (g, x) => free_for (pcf PC) t (p_d b) g x = true | None => True end -> exists ev PC', pstep PC (By u) ev PC'.
Proof.
  intros [G I F _ _] Hu Hs Nf Hj Hr Hw. destruct PC as [C B]. cbn [pcf pars] in *. pose proof Hj as [T1 T2]. destruct (gi_at _ _ G _ _ _ _ T2) as [s Hb].
  destruct (pi_ok _ I u b Hu) as [_ S]. unfold POK in S. rewrite Hs in S. destruct S as (s0 & ls & Hb0 & Ne & Ll & Hls & Hok). cbn [pcf] in *.
  pose proof (Hok j l (jobs_get _ _ _ _ _ _ Hls Hj)) as Jl.
  assert (l <> LFull /\ (forall r, l <> LRet r) /\ pick l = 0%nat /\ thrown l = false) as (Nl & Nr & Ep & Tl).
  { destruct l; cbn in Jl; try contradiction; (split; [discriminate|]); (split; [intros; discriminate|]); (split; [reflexivity|]); try reflexivity. destruct r; try contradiction; subst st; reflexivity. }
  pose proof (ginv_defined c C t _ _ l s G F T2 Hb Nl Nr (pick l) false) as X. pose proof (not_blocked c (free_for C t (p_d b)) s (job b j) l false Hw) as Y. rewrite Ep in X, Y.
  destruct (lstep c (free_for C t (p_d b)) s (job b j) l 0 false) as [| |e l' a] eqn:E; [destruct (Y eq_refl)|destruct X|].
  destruct (apply e s) as [s'|] eqn:Ea; [|destruct (X eq_refl)]. eexists _, _. eapply p_work; [exact Hu|exact Hs|exact Hj|exact Hr|exact (by_job_intro c C t _ _ _ s e l' a s' T2 Hb E Ea)|].
  eapply not_thrown; [intros n0 e0; apply Nf|exact E|exact Tl].
Qed.
Lemma opt_thread C e C' t : gstep c C e C' -> nth_error (th C') t <> nth_error (th C) t -> (forall t', t' <> t -> nth_error (th C') t' = nth_error (th C) t') -> forall x, e = Some x -> ev_thread x = t.
Proof.
  intros H2 H3 _ x Ev.
  assert (forall t1 q, nth_error (th C) t1 <> None -> nth_error (set_nth (th C) t1 q) t <> nth_error (th C) t -> t1 = t) as Hc.
  { intros t1 q _ Hd. destruct (Nat.eq_dec t1 t) as [->|N1]; [reflexivity|]. rewrite others_err in Hd by congruence. congruence. }
  destruct H2 as [C t1 d1 o1 s1 E1 Hb|C t1 d1 o1 l1 s1 i thr e l2 a s2 E1 Hb Hst Ha|C t1 d1 o1 s1 n0 t' n' cn E1 Hb Hal Hr Hc1|
    C t1 d1 o1 s1 n0 kd t' n' cn E1 Hb Hal Hr Hc1|C t1 d1 o1 r E1|C t1 o1 E1|C t1 o1 n0 r w bs E1 Hp He Hbk|C t1 r E1]; try discriminate Ev; cbn [set_box set_th th] in H3;
    try (injection Ev as <-; cbn [ev_thread]; eapply Hc; [|exact H3]; congruence).
  destruct a as [a|]; [|discriminate Ev]. cbn in Ev. injection Ev as <-. cbn [ev_thread]. eapply Hc; [|exact H3]. congruence.
Qed.
Definition call_moves (PC : pconf) : Prop :=
  (exists u b ev PC', nth_error (pars PC) u = Some (Some b) /\ pstep PC (By u) ev PC') \/
  (exists t d o l ev PC', ~ owned (pars PC) t /\ nth_error (th (pcf PC)) t = Some (At d o l) /\ pstep PC Other ev PC' /\ nth_error (th (pcf PC')) t <> Some (At d o l)).
Lemma advance_plain PC t : ~ owned (pars PC) t -> advances c (pcf PC) t -> call_moves PC.
Proof.
  intros No (d & o & l & e & C' & H1 & H2 & H3 & H4). destruct PC as [C B]. cbn [pcf pars] in *. right. exists t, d, o, l, (opt_ev e), (PConf C' B). split; [exact No|]. split; [exact H1|]. split; [|exact H3].
  eapply p_plain; [exact H2|]. intros t' Ho. assert (t' <> t) as N by (intros ->; exact (No Ho)). split; [apply H4, N|]. intros x Ev E.
  rewrite <- H1 in H3. pose proof (opt_thread _ _ _ _ H2 H3 H4 x Ev). congruence.
Qed.
Lemma owned_dec (B : list (option pcall)) t : owned B t \/ ~ owned B t.
Proof.
  destruct (existsb (fun o => match o with Some b => existsb (Nat.eqb t) (p_ts b) | None => false end) B) eqn:E.
  - left. apply existsb_exists in E as ([b|] & Hb & E); [|discriminate]. apply existsb_exists in E as (t1 & Ht & E). apply Nat.eqb_eq in E. subst t1. apply In_nth_error in Hb as [u Hu]. exists u, b. auto.
  - right. intros (u & b & Hu & Ht). assert (existsb (fun o => match o with Some b => existsb (Nat.eqb t) (p_ts b) | None => false end) B = true); [|congruence].
    apply existsb_exists. exists (Some b). split; [eapply nth_error_In; exact Hu|]. apply existsb_exists. exists t. split; [exact Ht|apply Nat.eqb_refl].
Qed.
(** the holder of a group is not waiting *)
Lemma holder_moves PC es t d o l g x : Reach PC es -> (forall u b, nth_error (pars PC) u = Some (Some b) -> never_throws b) ->
  nth_error (th (pcf PC)) t = Some (At d o l) -> lock_of o l = Some (g, x) -> call_moves PC.
Proof.
  intros R Nf Ht Lk. pose proof R as [G I F _ _]. assert (l <> LFull) as Nl by (intros ->; discriminate Lk). assert (forall r, l <> LRet r) as Nr by (intros r ->; discriminate Lk).
  destruct (owned_dec (pars PC) t) as [(u & b & Hu & Hin)|No].
  - destruct (owned_job _ _ _ _ I Hu Hin) as (j & l1 & Hj). pose proof Hj as [T1 T2]. rewrite Ht in T2. injection T2 as -> -> <-.
    destruct (pi_ok _ I u b Hu) as [_ S]. pose proof S as S0. unfold POK in S. destruct (p_st b) as [| |r] eqn:Hs.
    + rewrite S in T1. destruct j; discriminate.
    + destruct S as (s0 & ls & Hb0 & Ne & Ll & Hls & Hok). pose proof (Hok j l (jobs_get _ _ _ _ _ _ Hls Hj)) as Jl. left.
      assert (running j l = true) as Hr by (destruct l; cbn in Jl; try contradiction; try discriminate Lk; try reflexivity).
      destruct (job_advance _ _ u b j t l R Hu Hs (Nf u b Hu) Hj Hr) as (ev & PC' & H); [rewrite (holder_not_waiting _ _ _ _ Lk); exact Logic.I|]. eauto 6.
    + destruct S as (rs & Hls & _). pose proof (jobs_get _ _ _ _ _ _ Hls Hj) as El. rewrite nth_error_map in El. destruct (nth_error rs j); [|discriminate]. injection El as <-. discriminate Lk.
  - eapply advance_plain; [exact No|]. eapply local_advance; [exact G|exact F|exact Ht|exact Nl|exact Nr|]. rewrite (holder_not_waiting _ _ _ _ Lk). exact Logic.I.
Qed.
Definition result_of (l : loc) : calls * bstat := match l with BGrp _ acc => (acc, BDone) | LDone (RBulk acc _) => (acc, BHalted) | _ => ([], BDone) end.
Lemma call_advance PC es u b : Reach PC es -> (forall u b, nth_error (pars PC) u = Some (Some b) -> never_throws b) -> nth_error (pars PC) u = Some (Some b) -> p_st b <> PWaiting -> call_moves PC.
Proof.
  intros R Nf Hu Nw. pose proof R as [G I F _ _]. destruct (pi_ok _ I u b Hu) as [_ S]. unfold POK in S. destruct (p_st b) as [| |r] eqn:Hs; [destruct (Nw eq_refl)| |].
  - destruct S as (s0 & ls & Hb0 & Ne & Ll & Hls & Hok).
    destruct (forallb (fun y => negb (running (fst y) (snd y))) (combine (seq 0 (length ls)) ls)) eqn:E.
    + left. exists u, b. destruct PC as [C B]. cbn [pcf pars] in *. eexists _, _. split; [exact Hu|]. eapply (p_end c C B u b ls (map result_of ls)); [exact Hu|exact Hs|exact Hls|apply map_length|].
      intros j l r El Er. rewrite nth_error_map, El in Er. injection Er as <-. assert (j < length ls)%nat as Lj by (apply nth_error_Some; congruence).
      rewrite forallb_forall in E. specialize (E (j, l)). cbn [fst snd] in E. rewrite negb_true_iff in E. assert (running j l = false) as Nr.
      { apply E. apply (nth_error_In _ j). apply ConcBulk2.combine_get; [apply seq_at, Lj|exact El]. }
      pose proof (Hok j l El) as Jl. destruct l; cbn in Jl; try contradiction; try discriminate Nr.
      * cbn [running] in Nr. apply Nat.eqb_neq in Nr. destruct Jl as [->|[-> _]]; [|destruct (Nr eq_refl)]. left. split; reflexivity.
      * destruct r; try contradiction. subst st. reflexivity.
    + apply forallb_false in E as ([j l] & Hin & E). cbn [fst snd] in E. apply negb_false_iff in E. apply In_nth_error in Hin as [i Hi]. apply ConcBulk2.combine_get' in Hi as [E1 E2].
      apply seq_get in E1 as [-> Lj]. cbn [plus] in *. destruct (proj2 Hls i l E2) as (t & Hj).
      destruct (waits (job b i) l) as [[g x]|] eqn:W; [destruct (free_for (pcf PC) t (p_d b) g x) eqn:Fr|].
      * left. destruct (job_advance _ _ u b i t l R Hu Hs (Nf u b Hu) Hj E) as (ev & PC' & H); [rewrite W; exact Fr|]. eauto 6.
      * apply forallb_false in Fr as (p & Hp & Fp). apply others_in in Hp as (t' & N & Hp). unfold allows in Fp. destruct p as [|d' o' l'| |]; try discriminate.
        destruct (lock_of o' l') as [[g' x']|] eqn:Lk; [|discriminate]. eapply holder_moves; eassumption.
      * left. destruct (job_advance _ _ u b i t l R Hu Hs (Nf u b Hu) Hj E) as (ev & PC' & H); [rewrite W; exact Logic.I|]. eauto 6.
  - destruct S as (rs & Hls & _). left. exists u, b. destruct PC as [C B]. eexists _, _. split; [exact Hu|]. eapply p_ret; [exact Hu|exact Hs|exact Hls].
Qed.
(** a call that waits for nothing but its jobs *)
Lemma enter_step C B u b s ts : nth_error B u = Some (Some b) -> p_st b = PWaiting -> box C (p_d b) = Some s -> NoDup ts -> (forall t, In t ts -> nth_error (th C) t = Some Idle) ->
  groups_of C (p_d b) = Some (length ts) -> exists ev PC', pstep (PConf C B) (By u) ev PC'.
Proof. intros Hu Hs Hb ND Hi Hg. eexists _, _. eapply p_enter; eauto. Qed.
Theorem pno_deadlock PC es : Reach PC es -> (forall u b, nth_error (pars PC) u = Some (Some b) -> never_throws b) ->
  (exists u b, nth_error (pars PC) u = Some (Some b) /\ p_st b <> PWaiting) \/ (exists t d o l, nth_error (th (pcf PC)) t = Some (At d o l)) -> call_moves PC.
Proof.
  intros R Nf [(u & b & Hu & Nw)|(t & d & o & l & Ht)]; [eapply call_advance; eassumption|]. pose proof R as [G I F _ _].
  destruct (some_advance c HC (pcf PC) t d o l G F Ht) as (t' & A). destruct (owned_dec (pars PC) t') as [(u & b & Hu & Hin)|No]; [|eapply advance_plain; eassumption].
  eapply call_advance; [exact R|exact Nf|exact Hu|]. intros Hs. destruct (pi_ok _ I u b Hu) as [_ S]. unfold POK in S. rewrite Hs in S. rewrite S in Hin. destruct Hin.
Qed.
End Par4.
