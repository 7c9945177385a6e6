(** Traversals with an execution policy: executing calls, to exhibit a concrete run. *)
From Coq Require Import NArith Bool List Arith Lia.
From Verif Require Import SizeModel GroupModel FoaModel FoaArr FoaSpec FoaWorld FoaExamples FoaRun ConcSpec ConcModel ConcInv ConcSys ConcSys2 ConcVisit ConcProgress ConcExec ConcWrap
  ConcPar ConcParModel ConcPar2 ConcPar3 ConcPar4.
From Verif Require ConcBulkModel ConcBulk ConcBulk2.
Import ListNotations.
Local Open Scope N_scope.
Notation set_nth := FoaModel.set_nth.
Notation place := ConcBulkModel.place.

Section Exec.
Variables (thr : kind -> nat -> bool) (mv : bool).
Notation c := (ecfg thr mv).
Notation conf := (@conf N N). Notation pconf := (@pconf N N). Notation pcall := (@pcall N N). Notation loc := (@loc N N).
Lemma HC : good_cfg c. Proof. apply ecfg_good. Qed.

Definition loc_of (C : conf) (t : nat) : loc := match nth_error (th C) t with Some (At _ _ l) => l | _ => LEnter end.
(** one scheduling decision: a step of another thread; a call; its start, with the threads that stand for its jobs; a step of a job; the end; the return *)
Inductive pmove := XPlain (m : @move) | XCall (u d : nat) (x : bool) (m : bmode) (f : nat -> nat -> ufun N N) | XEnter (u : nat) (ts : list nat) | XJob (u j : nat) | XEnd (u : nat) | XRet (u : nat).
Definition mover (m : @move) : nat := match m with MCall t _ _ | MLocal t _ _ | MFull t _ | MRet t | MWCall t _ | MWhole t _ => t end.
Definition ownedb (B : list (option pcall)) (t : nat) : bool := existsb (fun o => match o with Some b => existsb (Nat.eqb t) (p_ts b) | None => false end) B.
Lemma ownedb_false B t : ownedb B t = false -> ~ owned B t.
Proof.
  intros E (u & b & Hu & Ht). unfold ownedb in E. assert (existsb (fun o => match o with Some b => existsb (Nat.eqb t) (p_ts b) | None => false end) B = true); [|congruence].
  apply existsb_exists. exists (Some b). split; [eapply nth_error_In; exact Hu|]. apply existsb_exists. exists t. split; [exact Ht|apply Nat.eqb_refl].
Qed.
Lemma move_others m C e C' t : do_move thr mv m C = Some (e, C') -> mover m <> t -> nth_error (th C') t = nth_error (th C) t /\ forall x, e = Some x -> ev_thread x <> t.
Proof.
  intros H N. destruct m as [t1 d o|t1 i x|t1 n|t1|t1 o|t1 n]; cbn [do_move mover] in *;
    repeat match type of H with
    | match ?x with _ => _ end = _ => destruct x eqn:?; try discriminate H
    | (if ?x then _ else _) = _ => destruct x eqn:?; try discriminate H
    | (let _ := _ in _) = _ => cbv zeta in H
    end; injection H as <- <-; (split; [cbn [set_th set_box th]; apply others_err; congruence|]); intros y Ey;
    try discriminate Ey; try (injection Ey as <-; exact N).
  destruct a; [|discriminate Ey]. injection Ey as <-. exact N.
Qed.
Definition distinct (l : list nat) : bool := (fix go l := match l with [] => true | x :: r => negb (existsb (Nat.eqb x) r) && go r end) l.
Lemma distinct_ok l : distinct l = true -> NoDup l.
Proof.
  induction l as [|x l IH]; intros H; [constructor|]. cbn in H. apply andb_prop in H as [A B]. constructor; [|apply IH, B]. intros Hi. apply negb_true_iff in A.
  assert (existsb (Nat.eqb x) l = true); [|congruence]. apply existsb_exists. exists x. split; [exact Hi|apply Nat.eqb_refl].
Qed.
Definition do_pmove (m : pmove) (PC : pconf) : option (list (@pevent N N) * pconf) :=
  let C := pcf PC in
  match m with
  | XPlain m => if ownedb (pars PC) (mover m) then None else match do_move thr mv m C with Some (e, C') => Some (opt_ev e, PConf C' (pars PC)) | None => None end
  | XCall u d x md f => match nth_error (pars PC) u, box C d with
      | Some None, Some _ => Some ([PCall u d x md f], set_p PC C u (Some (PCallOf d x md f [] PWaiting))) | _, _ => None end
  | XEnter u ts => match nth_error (pars PC) u with
      | Some (Some b) => match p_st b, groups_of C (p_d b) with
          | PWaiting, Some m => if Nat.eqb (length ts) m && distinct ts && forallb (fun t => match nth_error (th C) t with Some Idle => true | _ => false end) ts then
              Some (map (fun y => PPlain (ECall (snd y) (OnC (p_d b) (job b (fst y))))) (combine (seq 0 m) ts),
                set_p PC (place C ts (jobs_to b (map (fun j => BGrp j []) (seq 0 m)))) u (Some (upd b ts (if Nat.eqb m 0 then POut true else PRun)))) else None
          | _, _ => None end
      | _ => None end
  | XJob u j => match nth_error (pars PC) u with
      | Some (Some b) => match p_st b, nth_error (p_ts b) j with
          | PRun, Some t => if running j (loc_of C t) then
              match box C (p_d b) with
              | Some s => match lstep c (free_for C t (p_d b)) s (job b j) (loc_of C t) 0 false with
                  | Step e l' a => match apply e s with
                      | Some s' => if thrown l' then None else Some (opt_ev (option_map (ELin t) a), set_p PC (set_box (set_th C t (At (p_d b) (job b j) l')) (p_d b) s') u (Some b))
                      | None => None end
                  | _ => None end
              | None => None end else None
          | _, _ => None end
      | _ => None end
  | XEnd u => match nth_error (pars PC) u with
      | Some (Some b) => match p_st b with
          | PRun => let ls := map (loc_of C) (p_ts b) in let rs := map result_of ls in
              if forallb (fun y => match snd y with BGrp g _ => Nat.eqb g (S (fst y)) || (Nat.eqb g (fst y) && existsb halted rs) | LDone (RBulk _ BHalted) => true | _ => false end) (combine (seq 0 (length ls)) ls) then
                Some ([], set_p PC (place C (p_ts b) (jobs_to b (map (fun r => LRet (RBulk (fst r) (snd r))) rs))) u (Some (upd b (p_ts b) (POut (negb (existsb halted rs))))))
              else None
          | _ => None end
      | _ => None end
  | XRet u => match nth_error (pars PC) u with
      | Some (Some b) => match p_st b with
          | POut r => let rs := map (fun l => match l with LRet (RBulk acc st) => (acc, st) | _ => ([], BDone) end) (map (loc_of C) (p_ts b)) in
              Some (PRet u r (map fst rs) :: map (fun y => PPlain (ERet (fst y) (AnsC (RBulk (fst (snd y)) (snd (snd y)))))) (combine (p_ts b) rs),
                set_p PC (place C (p_ts b) (map (fun _ => Idle) rs)) u None)
          | _ => None end
      | _ => None end
  end.
Lemma locs_ok (b : pcall) (C : conf) ls : jobs_at b C ls -> map (loc_of C) (p_ts b) = ls.
Proof.
  intros [L1 H]. apply list_ext. intros j. rewrite nth_error_map. destruct (nth_error ls j) as [l|] eqn:E.
  - destruct (H j l E) as (t & T1 & T2). rewrite T1. cbn. unfold loc_of. rewrite T2. reflexivity.
  - apply nth_error_None in E. assert (nth_error (p_ts b) j = None) as -> by (apply nth_error_None; lia). reflexivity.
Qed.
Lemma do_pmove_ok m PC es ev PC' : Reach c PC es -> do_pmove m PC = Some (ev, PC') -> exists a, pstep c PC a ev PC'.
Proof.
  intros [G I F _ _] H. destruct PC as [C B]. cbn [pcf] in *. destruct m as [m|u d x md f|u ts|u j|u|u]; cbn [do_pmove pcf pars] in H.
  - destruct (ownedb B (mover m)) eqn:O; [discriminate|]. destruct (do_move thr mv m C) as [[e C']|] eqn:E; [|discriminate]. injection H as <- <-. exists Other.
    apply p_plain; [eapply do_move_ok; exact E|]. intros t Ho. apply (move_others _ _ _ _ _ E). intros <-. exact (ownedb_false _ _ O Ho).
  - destruct (nth_error B u) as [[|]|] eqn:Hu; try discriminate. destruct (box C d) eqn:Hb; [|discriminate]. injection H as <- <-. exists (By u). eapply p_call; eassumption.
  - destruct (nth_error B u) as [[b|]|] eqn:Hu; try discriminate. destruct (p_st b) eqn:Hs; try discriminate. destruct (groups_of C (p_d b)) as [m|] eqn:Hm; [|discriminate].
    destruct (Nat.eqb (length ts) m && distinct ts && _) eqn:E; [|discriminate]. injection H as <- <-. apply andb_prop in E as [E E3]. apply andb_prop in E as [E1 E2]. apply Nat.eqb_eq in E1.
    exists (By u). apply p_enter; try assumption; [apply distinct_ok, E2|]. intros t Ht. rewrite forallb_forall in E3. specialize (E3 t Ht). destruct (nth_error (th C) t) as [[]|]; congruence.
  - destruct (nth_error B u) as [[b|]|] eqn:Hu; try discriminate. destruct (p_st b) eqn:Hs; try discriminate. destruct (nth_error (p_ts b) j) as [t|] eqn:Et; [|discriminate].
    destruct (running j (loc_of C t)) eqn:Hr; [|discriminate]. destruct (box C (p_d b)) as [s|] eqn:Hb; [|discriminate].
    destruct (lstep c _ s _ _ 0 false) as [| |e l' a] eqn:E; try discriminate. destruct (apply e s) as [s'|] eqn:Ea; [|discriminate]. destruct (thrown l') eqn:Tl; [discriminate|]. injection H as <- <-. exists (By u).
    destruct (owned_job (PConf C B) u b t I Hu (nth_error_In _ _ Et)) as (j' & l & Hj). pose proof Hj as [T1 T2]. cbn [pcf] in T2. destruct (pi_ok _ I u b Hu) as [ND _].
    assert (j' = j) as -> by (eapply NoDup_nth_error; [exact ND|apply nth_error_Some; congruence|congruence]). assert (loc_of C t = l) as El by (unfold loc_of; rewrite T2; reflexivity). rewrite El in *.
    eapply p_work; [exact Hu|exact Hs|exact Hj|exact Hr|exact (by_job_intro c C t _ _ _ s e l' a s' T2 Hb E Ea)|exact Tl].
  - destruct (nth_error B u) as [[b|]|] eqn:Hu; try discriminate. destruct (p_st b) eqn:Hs; try discriminate. cbv zeta in H.
    destruct (forallb _ (combine _ _)) eqn:E; [|discriminate]. injection H as <- <-. exists (By u). destruct (pi_ok _ I u b Hu) as [_ S]. destruct (pok_jobs _ _ S) as [ls Hls]. cbn [pcf] in Hls.
    rewrite (locs_ok _ _ _ Hls) in *. eapply p_end; [exact Hu|exact Hs|exact Hls|apply map_length|]. intros j l r El Er. rewrite nth_error_map, El in Er. injection Er as <-.
    assert (j < length ls)%nat as Lj by (apply nth_error_Some; congruence). rewrite forallb_forall in E. specialize (E (j, l)). cbn [fst snd] in E.
    assert (In (j, l) (combine (seq 0 (length ls)) ls)) as Hin by (apply (nth_error_In _ j); apply ConcBulk2.combine_get; [apply seq_at, Lj|exact El]). specialize (E Hin).
    destruct l; try discriminate E.
    + cbn [ended result_of]. apply orb_prop in E as [E|E]; [left; apply Nat.eqb_eq in E; auto|]. apply andb_prop in E as [E1 E2]. apply Nat.eqb_eq in E1. right. auto.
    + destruct r; try discriminate E. destruct st; try discriminate E. reflexivity.
  - destruct (nth_error B u) as [[b|]|] eqn:Hu; try discriminate. destruct (p_st b) eqn:Hs; try discriminate. cbv zeta in H. injection H as <- <-. exists (By u).
    destruct (pi_ok _ I u b Hu) as [_ S]. unfold POK in S. rewrite Hs in S. destruct S as (rs & Hls & _). cbn [pcf] in Hls. rewrite (locs_ok _ _ _ Hls).
    replace (map (fun l : loc => match l with LRet (RBulk acc st) => (acc, st) | _ => ([], BDone) end) (map out_of rs)) with rs by (clear; induction rs as [|[acc st] rs IH]; [reflexivity|]; cbn; f_equal; exact IH).
    apply p_ret; assumption.
Qed.
Fixpoint pplay (ok : conf -> bool) (ms : list pmove) (PC : pconf) : option (list (@pevent N N) * pconf) :=
  match ms with
  | [] => Some ([], PC)
  | m :: r => match do_pmove m PC with
      | Some (e, PC1) => if ok (pcf PC1) then match pplay ok r PC1 with Some (es, PC2) => Some (e ++ es, PC2) | None => None end else None
      | None => None end
  end.
Lemma pplay_runs ms : forall n np es0 PC es PC', pruns c n np es0 PC -> pplay fitb ms PC = Some (es, PC') -> pruns c n np (es0 ++ es) PC'.
Proof.
  induction ms as [|m ms IH]; intros n np es0 PC es PC' R H; cbn [pplay] in H; [injection H as <- <-; rewrite app_nil_r; exact R|].
  destruct (do_pmove m PC) as [[e PC1]|] eqn:E; [|discriminate]. destruct (fitb (pcf PC1)) eqn:Ok; [|discriminate]. destruct (pplay fitb ms PC1) as [[es1 PC2]|] eqn:E1; [|discriminate]. injection H as <- <-.
  destruct (do_pmove_ok _ _ _ _ _ (preach c HC _ _ _ _ R) E) as [a St]. rewrite app_assoc. eapply IH; [|exact E1]. eapply pr_snoc; [exact R|exact St|apply fitb_ok, Ok].
Qed.
Lemma pplay_steps ok (P : conf -> Prop) : (forall C, ok C = true -> P C) -> (forall C, P C -> counters_fit C) -> forall ms n np es0 PC0 es1 PC es PC', pruns c n np es0 PC0 -> psteps c P PC0 es1 PC ->
  pplay ok ms PC = Some (es, PC') -> psteps c P PC0 (es1 ++ es) PC'.
Proof.
  intros HP HF. induction ms as [|m ms IH]; intros n np es0 PC0 es1 PC es PC' R S H; cbn [pplay] in H; [injection H as <- <-; rewrite app_nil_r; exact S|].
  destruct (do_pmove m PC) as [[e PC1]|] eqn:E; [|discriminate]. destruct (ok (pcf PC1)) eqn:Ok; [|discriminate]. destruct (pplay ok ms PC1) as [[es2 PC2]|] eqn:E1; [|discriminate]. injection H as <- <-.
  destruct (do_pmove_ok _ _ _ _ _ (preach c HC _ _ _ _ (psteps_run c P _ _ _ _ _ _ R HF S)) E) as [a St]. rewrite app_assoc. eapply IH; [exact R| |exact E1]. eapply ps_snoc; [exact S|exact St|apply HP, Ok].
Qed.
End Exec.
