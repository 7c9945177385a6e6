(** Traversals with an execution policy: invariant, and every step is a sequence of steps of the machine of ConcPar. *)
From Coq Require Import NArith Bool List Arith Lia Permutation.
From Verif Require Import FloatModel SizeModel SizeProofs GroupModel GroupSpec FoaModel FoaGroup FoaBase FoaFind FoaArr FoaInv FoaRehash FoaSpec FoaWorld FoaRun
  ConcSpec ConcModel ConcInv ConcStep ConcStep2 ConcStep3 ConcSys ConcSys2 ConcLin1 ConcLin2 ConcLin3 ConcVisit ConcProps ConcLog ConcProgress ConcPar ConcParModel.
From Verif Require ConcBulkModel ConcBulk ConcBulk2.
Import ListNotations.
Notation set_nth := FoaModel.set_nth.
Notation place := ConcBulkModel.place.

Section Par2.
Context {K V : Type} (c : Cfg K V).
Hypothesis HC : good_cfg c.
Notation Sh := (@Sh K V).
Notation pop := (pop K V). Notation cop := (cop K V). Notation loc := (@loc K V). Notation cres := (cres K V).
Notation conf := (@conf K V). Notation pc := (@pc K V).
Notation GInv := (GInv c).
Notation event := (event K V).
Notation At := ConcModel.At.
Notation calls := (list ((K * V) * bool)).
Notation pcall := (@pcall K V). Notation pconf := (@pconf K V). Notation pevent := (@pevent K V).
Notation xsteps := (xsteps c). Notation xstep := (xstep c). Notation pstep := (pstep c).

(** the arrays of a container do not change while a thread is inside *)
Lemma ap_mask e (s s' : Sh) : apply e s = Some s' -> a_mask (arr (tb s')) = a_mask (arr (tb s)) /\ (a_elems (arr (tb s)) <> None -> a_elems (arr (tb s')) <> None).
Proof.
  destruct e; cbn [apply]; unfold on_groups, put_group, put_cell; intros H;
  repeat match type of H with context [match ?x with _ => _ end] => lazymatch x with context [match _ with _ => _ end] => fail | _ => destruct x eqn:?; try discriminate end end;
  injection H as <-; cbn; split; try reflexivity; auto; discriminate.
Qed.
Lemma inside_not_out (C : conf) t d o l : nth_error (th C) t = Some (At d o l) -> outside l = false -> ~ Out (views C d).
Proof. intros H E Ho. specialize (Ho t o l (proj2 (view_at C d t o l) H)). congruence. Qed.
Definition arrays_kept (C C' : conf) (d : nat) : Prop := forall s, box C d = Some s -> exists s', box C' d = Some s' /\
  a_mask (arr (tb s')) = a_mask (arr (tb s)) /\ (a_elems (arr (tb s)) <> None -> a_elems (arr (tb s')) <> None).
Lemma kept_same (C C' : conf) d : boxes C' = boxes C -> arrays_kept C C' d.
Proof. intros E s H. exists s. unfold box in *. rewrite E. auto. Qed.
Lemma kept_gstep C e C' t d o l : GInv C -> gstep c C e C' -> nth_error (th C) t = Some (At d o l) -> outside l = false -> arrays_kept C C' d.
Proof.
  intros G St Ht0 Hi s0 Hb0. destruct St as [C t1 d1 o1 s Ht Hb|C t1 d1 o1 l1 s i thr e l' a s' Ht Hb Hs Ha|C t1 d1 o1 s n t' n' cn Ht Hb Hal Hr Hc|
    C t1 d1 o1 s n kd t' n' cn Ht Hb Hal Hr Hc|C t1 d1 o1 r Ht|C t1 o1 Ht|C t1 o1 n r w bs Ht Hp He Hbk|C t1 r Ht]; try (exists s0; split; [exact Hb0|]; split; auto; fail).
  - rewrite (box_set (set_th C t1 (At d1 o1 l')) d1 s' s) by exact Hb. destruct (Nat.eqb_spec d d1) as [->|N]; [|exists s0; split; [exact Hb0|]; split; auto].
    assert (s0 = s) as -> by congruence. exists s'. split; [reflexivity|]. apply (ap_mask _ _ _ Ha).
  - rewrite (box_set (set_th C t1 (At d1 o1 LEnter)) d1 _ s) by exact Hb. destruct (Nat.eqb_spec d d1) as [->|N]; [|exists s0; split; [exact Hb0|]; split; auto].
    destruct (inside_not_out C t d1 o l Ht0 Hi). exact (alone_out C t1 d1 o1 LFull Ht eq_refl Hal).
  - rewrite (box_set (set_th C t1 (At d1 o1 (LRet RThrew))) d1 _ s) by exact Hb. destruct (Nat.eqb_spec d d1) as [->|N]; [|exists s0; split; [exact Hb0|]; split; auto].
    destruct (inside_not_out C t d1 o l Ht0 Hi). exact (alone_out C t1 d1 o1 LFull Ht eq_refl Hal).
  - destruct (whole_cases c HC C o1 n r w bs G Hp He Hbk) as [_ Hw]. destruct (Hw d) as [(s1 & E1 & _ & E2)|(E & _)].
    + exists s1. unfold box at 1. cbn [boxes]. split; [exact E2|]. assert (s1 = s0) as -> by congruence. auto.
    + destruct (inside_not_out C t d o l Ht0 Hi E).
Qed.

(** *** several threads change position *)
Lemma place_xsteps ts : forall (C : conf) ps (es : list (list event)), counters_fit C -> NoDup ts -> length ps = length ts -> length es = length ts ->
  (forall j t p e, nth_error ts j = Some t -> nth_error ps j = Some p -> nth_error es j = Some e ->
     forall C', counters_fit C' -> boxes C' = boxes C -> nth_error (th C') t = nth_error (th C) t -> xsteps C' e (set_th C' t p)) ->
  xsteps C (concat es) (place C ts ps).
Proof.
  induction ts as [|t ts IH]; intros C [|p ps] [|e es] F ND L1 L2 H; try discriminate; cbn [ConcBulkModel.place concat]; [apply xs_nil, F|].
  pose proof (H 0 t p e eq_refl eq_refl eq_refl) as St. inversion ND; subst. specialize (St C F eq_refl eq_refl).
  pose proof (xsteps_fit _ _ _ _ St) as F'. eapply xsteps_trans; [exact St|].
  apply IH; auto. intros j t1 p1 e1 T P E C' Fc Eb Et. apply (H (S j) t1 p1 e1 T P E); [exact Fc|exact Eb|].
  rewrite Et. cbn [set_th th]. apply others_err. intros ->. apply H2. eapply nth_error_In; exact T.
Qed.
Lemma fit_at (C : conf) t d x md f l : counters_fit C -> (forall y n, l <> LCnt y n) -> counters_fit (set_th C t (At d (Bulk x md f) l)).
Proof. intros F N. apply ConcBulk.fit_th; [exact F|]. cbn. destruct l; auto. eapply N; reflexivity. Qed.

(** *** positions of the jobs of a call *)
Lemma jobs_get (b : pcall) (C : conf) ls j t l : jobs_at b C ls -> job_at b C j t l -> nth_error ls j = Some l.
Proof.
  intros [L H] [H1 H2]. destruct (nth_error ls j) as [l1|] eqn:E.
  - destruct (H j l1 E) as (t1 & T1 & T2). congruence.
  - apply nth_error_None in E. rewrite L in E. apply nth_error_None in E. congruence.
Qed.
Lemma jobs_uniq (b : pcall) (C : conf) ls ls' : jobs_at b C ls -> jobs_at b C ls' -> ls = ls'.
Proof.
  intros H [L' H']. apply list_ext. intros j. destruct (nth_error ls' j) as [l|] eqn:E.
  - destruct (H' j l E) as [t T]. eapply jobs_get; eassumption.
  - apply nth_error_None. apply nth_error_None in E. destruct H as [L _]. lia.
Qed.
Lemma jobs_same (b : pcall) (C C' : conf) ls : (forall t, In t (p_ts b) -> nth_error (th C') t = nth_error (th C) t) -> jobs_at b C ls -> jobs_at b C' ls.
Proof.
  intros E [L H]. split; [exact L|]. intros j l Hj. destruct (H j l Hj) as (t & H1 & H2). exists t. split; [exact H1|]. rewrite E by (eapply nth_error_In; exact H1). exact H2.
Qed.
Lemma jobs_set (b : pcall) (C C' : conf) ls j t l l' : jobs_at b C ls -> NoDup (p_ts b) -> job_at b C j t l ->
  (forall t', t' <> t -> nth_error (th C') t' = nth_error (th C) t') -> job_at b C' j t l' -> jobs_at b C' (set_nth ls j l').
Proof.
  intros J ND K0 Ho K'. pose proof (jobs_get _ _ _ _ _ _ J K0) as Ej. destruct J as [L H]. assert (j < length ls)%nat as Lj by (apply nth_error_Some; congruence).
  split; [rewrite set_nth_len; exact L|]. intros j1 l1 Hj. rewrite set_nth_err in Hj by exact Lj. destruct (Nat.eqb_spec j1 j) as [->|N].
  - injection Hj as <-. eauto.
  - destruct (H j1 l1 Hj) as (t1 & T1 & T2). exists t1. split; [exact T1|]. rewrite Ho; [exact T2|]. intros ->. apply N. destruct K0 as [K1 _].
    eapply NoDup_nth_error; [exact ND|apply nth_error_Some; congruence|congruence].
Qed.
Lemma jobs_to_len (b : pcall) (ls : list loc) : length (jobs_to b ls) = length ls.
Proof. unfold jobs_to. rewrite map_length, combine_length, seq_length. lia. Qed.
Lemma seq_get a n j x : nth_error (seq a n) j = Some x -> x = (a + j)%nat /\ (j < n)%nat.
Proof.
  intros H. assert (j < n)%nat as L by (rewrite <- (seq_length n a); apply nth_error_Some; congruence).
  rewrite (nth_error_nth' _ 0%nat) in H by (rewrite seq_length; exact L). rewrite seq_nth in H by exact L. split; [congruence|exact L].
Qed.
Lemma seq_at n j : (j < n)%nat -> nth_error (seq 0 n) j = Some j.
Proof. intros L. rewrite (nth_error_nth' _ 0%nat) by (rewrite seq_length; exact L). rewrite seq_nth by exact L. reflexivity. Qed.
Lemma jobs_to_get (b : pcall) (ls : list loc) j l : nth_error ls j = Some l -> nth_error (jobs_to b ls) j = Some (At (p_d b) (job b j) l).
Proof.
  intros H. assert (j < length ls)%nat as L by (apply nth_error_Some; congruence). unfold jobs_to. rewrite nth_error_map.
  rewrite (ConcBulk2.combine_get _ _ j j l (seq_at _ _ L) H). reflexivity.
Qed.
Lemma jobs_place (b : pcall) (C : conf) ls : length ls = length (p_ts b) -> NoDup (p_ts b) -> (forall t, In t (p_ts b) -> nth_error (th C) t <> None) ->
  jobs_at b (place C (p_ts b) (jobs_to b ls)) ls.
Proof.
  intros L ND Hn. split; [exact L|]. intros j l Hj. assert (j < length ls)%nat as Lj by (apply nth_error_Some; congruence).
  destruct (nth_error (p_ts b) j) as [t|] eqn:Et; [|apply nth_error_None in Et; lia]. exists t. split; [exact Et|].
  eapply ConcBulk.place_in; [exact ND|exact Et|apply jobs_to_get; exact Hj|]. apply Hn. eapply nth_error_In; exact Et.
Qed.
Lemma jobs_lt (b : pcall) (C : conf) ls : jobs_at b C ls -> forall t, In t (p_ts b) -> nth_error (th C) t <> None.
Proof.
  intros [L H] t Ht. apply In_nth_error in Ht as [j Hj]. assert (j < length (p_ts b))%nat as Lj by (apply nth_error_Some; congruence).
  destruct (nth_error ls j) as [l|] eqn:E; [|apply nth_error_None in E; lia]. destruct (H j l E) as (t1 & T1 & T2). congruence.
Qed.

(** *** the invariant *)
Definition JobOK (j : nat) (l : loc) : Prop :=
  match l with
  | BGrp g acc => g = S j \/ (g = j /\ acc = [])
  | BMask g acc => g = j /\ acc = []
  | BElem g _ _ | LMl g _ (KB _ _) | LReset g _ (KB _ _) | LDec g (KB _ _) => g = j
  | LUnl _ _ (RBulk _ st) | LDone (RBulk _ st) => st = BHalted
  | _ => False
  end.
Lemma job_inside j l : JobOK j l -> outside l = false.
Proof. destruct l; cbn; try reflexivity; intros []. Qed.
Definition out_of (r : calls * bstat) : loc := LRet (RBulk (fst r) (snd r)).
Definition POK (b : pcall) (C : conf) : Prop :=
  match p_st b with
  | PWaiting => p_ts b = []
  | PRun => exists s ls, box C (p_d b) = Some s /\ a_elems (arr (tb s)) <> None /\ length (p_ts b) = N.to_nat (a_mask (arr (tb s)) + 1) /\ jobs_at b C ls /\
      forall j l, nth_error ls j = Some l -> JobOK j l
  | POut r => exists rs, jobs_at b C (map out_of rs) /\ (forall x, In x rs -> snd x <> BThrew) /\ r = negb (existsb halted rs)
  end.
Record PInv (PC : pconf) : Prop := {
  pi_ok : forall u b, nth_error (pars PC) u = Some (Some b) -> NoDup (p_ts b) /\ POK b (pcf PC);
  pi_disj : forall u b u' b' t, nth_error (pars PC) u = Some (Some b) -> nth_error (pars PC) u' = Some (Some b') -> In t (p_ts b) -> In t (p_ts b') -> u = u' }.
Lemma pok_jobs b C : POK b C -> exists ls, jobs_at b C ls.
Proof.
  unfold POK. destruct (p_st b) as [| |r]; intros H.
  - exists []. split; [rewrite H; reflexivity|]. intros [|j] l E; discriminate.
  - destruct H as (s & ls & _ & _ & _ & H & _). eauto.
  - destruct H as (rs & H & _). eauto.
Qed.
Lemma mask_pos (s : Sh) : (0 < N.to_nat (a_mask (arr (tb s)) + 1))%nat.
Proof. lia. Qed.
(** the threads of the jobs keep their positions *)
Lemma pok_same b C C' : (forall t, In t (p_ts b) -> nth_error (th C') t = nth_error (th C) t) ->
  (forall t o l, nth_error (th C) t = Some (At (p_d b) o l) -> outside l = false -> arrays_kept C C' (p_d b)) -> POK b C -> POK b C'.
Proof.
  intros E Ka. assert (forall ls, jobs_at b C ls -> jobs_at b C' ls) as Kp by (intros ls; apply jobs_same, E).
  unfold POK. destruct (p_st b) as [| |r]; intros H; [exact H| |].
  - destruct H as (s & ls & Hb & Ne & L & Hj & Hok). destruct (nth_error ls 0) as [l|] eqn:E0.
    2:{ apply nth_error_None in E0. destruct Hj as [Lj _]. pose proof (mask_pos s). lia. }
    destruct (proj2 Hj 0%nat l E0) as (t & T1 & T2). destruct (Ka t _ _ T2 (job_inside _ _ (Hok _ _ E0)) s Hb) as (s' & Hb' & Em & En).
    exists s', ls. split; [exact Hb'|]. split; [apply En, Ne|]. split; [rewrite Em; exact L|]. split; [apply Kp, Hj|exact Hok].
  - destruct H as (rs & H & H'). exists rs. split; [apply Kp, H|exact H'].
Qed.
(** one call changes, the threads of the others keep their positions *)
Lemma pinv_set PC C' u b b' : PInv PC -> nth_error (pars PC) u = Some (Some b) -> p_ts b' = p_ts b ->
  (forall t, ~ In t (p_ts b) -> nth_error (th C') t = nth_error (th (pcf PC)) t) ->
  (forall d t o l, nth_error (th (pcf PC)) t = Some (At d o l) -> outside l = false -> arrays_kept (pcf PC) C' d) -> POK b' C' -> PInv (set_p PC C' u (Some b')).
Proof.
  intros [I1 I2] Hu Et Ho Ka S'. destruct (I1 u b Hu) as (ND & S). assert (nth_error (pars PC) u <> None) as Nu by congruence. split; cbn [set_p pcf pars].
  - intros u1 b1 H1. destruct (ConcBulk.set_nth_cases _ _ _ Nu _ _ H1) as [[-> E]|[N E]].
    + injection E as ->. rewrite Et. auto.
    + destruct (I1 u1 b1 E) as (ND1 & S1). split; [exact ND1|]. eapply pok_same; [|intros; eapply Ka; eassumption|exact S1]. intros t Ht. apply Ho. intros Ht'.
      apply N. eapply I2; eassumption.
  - intros u1 b1 u2 b2 t H1 H2 T1 T2.
    destruct (ConcBulk.set_nth_cases _ _ _ Nu _ _ H1) as [[-> E1]|[N1 E1]], (ConcBulk.set_nth_cases _ _ _ Nu _ _ H2) as [[-> E2]|[N2 E2]]; auto.
    + injection E1 as ->. rewrite Et in T1. eapply I2; eassumption.
    + injection E2 as ->. rewrite Et in T2. eapply I2; eassumption.
    + eapply I2; eassumption.
Qed.
(** a step of a job *)
Lemma job_step free (s : Sh) x md f j l e l' a : JobOK j l -> running j l = true -> lstep c free s (Bulk x md f) l 0 false = Step e l' a ->
  thrown l' = false -> a_elems (arr (tb s)) <> None -> (j < N.to_nat (a_mask (arr (tb s)) + 1))%nat -> JobOK j l'.
Proof.
  intros J R H Nt Ne Lj. cbn [lstep] in H. destruct l; cbn [JobOK running] in J, R; try contradiction; try discriminate R; cbn [bstep] in H.
  - destruct kt; [contradiction|]. destruct (get_group _ _); [|discriminate]. injection H as <- <- <-. exact J.
  - destruct kt; [contradiction|]. injection H as <- <- <-. exact J.
  - destruct kt; [contradiction|]. injection H as <- <- <-. exact J.
  - apply Nat.eqb_eq in R. subst g. destruct J as [J|[_ ->]]; [lia|]. destruct (a_elems (arr (tb s))); [|destruct (Ne eq_refl)].
    destruct (Nat.eqb_spec j (N.to_nat (a_mask (arr (tb s)) + 1))) as [E|E]; [lia|]. destruct (free j _); [|discriminate]. injection H as <- <- <-. cbn. auto.
  - destruct J as [-> ->]. destruct (get_group _ _); [|discriminate].
    remember (mask_loop 16 _) as ms. injection H as <- <- <-. reflexivity.
  - subst g. destruct ms as [|n ms]; [injection H as <- <- <-; left; reflexivity|].
    destruct (get_cell _ _) as [[| |e1]|]; try discriminate. destruct (f (length acc) e1) as [v ob]. injection H as <- <- <-.
    destruct (erases md ob); [reflexivity|]. destruct ob as [b|]; [|discriminate Nt]. destruct (goes_on md (Some b)); reflexivity.
  - destruct r; try contradiction. injection H as <- <- <-. exact J.
Qed.
Lemma by_job_gstep C t e C' l' : by_job c C t e C' l' -> gstep c C e C'.
Proof. intros H. destruct H. eapply g_local; eassumption. Qed.
Lemma by_job_others C t e C' l' : by_job c C t e C' l' -> forall t', t' <> t -> nth_error (th C') t' = nth_error (th C) t'.
Proof. intros H t' N. destruct H. cbn [set_box set_th th]. apply others_err, N. Qed.
Lemma plain_opt (e : option event) : plain (opt_ev e) = ev_opt e.
Proof. destruct e; reflexivity. Qed.
Lemma plain_map {X} (f : X -> event) l : plain (map (fun x => PPlain (f x)) l) = map f l.
Proof. unfold plain. induction l as [|x l IH]; [reflexivity|]. cbn. rewrite IH. reflexivity. Qed.

Theorem pstep_ok PC a es PC' : GInv (pcf PC) -> counters_fit (pcf PC) -> counters_fit (pcf PC') -> PInv PC -> pstep PC a es PC' ->
  xsteps (pcf PC) (plain es) (pcf PC') /\ PInv PC'.
Proof.
  intros G F F' I St. destruct St as
   [C B e C' H Ho|C B u d x m f s Hu Hb|C B u b ts m Hu Hs Hm L ND Hi|C B u b j t l e C' l' Hu Hs Hj Hr Hy Nt|C B u b ls rs Hu Hs Hj L Hend|C B u b r rs Hu Hs Hj]; cbn [pcf] in *.
  - (* another thread *)
    split; [rewrite plain_opt; apply xsteps_one; [exact F|exact F'|apply x_gstep, H]|]. destruct I as [I1 I2]. cbn [pcf pars] in *. split; cbn [pcf pars]; [|exact I2].
    intros u b Hu. destruct (I1 u b Hu) as (ND & S). split; [exact ND|]. eapply pok_same; [| |exact S].
    + intros t Ht. apply Ho. exists u, b. auto.
    + intros t o l Ht Hl. eapply kept_gstep; eassumption.
  - (* call *)
    split; [apply xs_nil; exact F|]. assert (nth_error B u <> None) as Nu by congruence. destruct I as [I1 I2]. cbn [pcf pars] in *. split; cbn [set_p pcf pars].
    + intros u1 b1 H1. destruct (ConcBulk.set_nth_cases _ _ _ Nu _ _ H1) as [[-> E]|[N E]]; [|apply (I1 u1 b1 E)]. injection E as ->. split; [constructor|]. reflexivity.
    + intros u1 b1 u2 b2 t H1 H2 T1 T2.
      destruct (ConcBulk.set_nth_cases _ _ _ Nu _ _ H1) as [[-> E1]|[N1 E1]], (ConcBulk.set_nth_cases _ _ _ Nu _ _ H2) as [[-> E2]|[N2 E2]]; auto.
      * injection E1 as ->. destruct T1.
      * injection E2 as ->. destruct T2.
      * eapply I2; eassumption.
  - (* enter *)
    unfold groups_of in Hm. destruct (box C (p_d b)) as [s|] eqn:Hb; [|discriminate].
    set (b' := upd b ts (if Nat.eqb m 0 then POut true else PRun)).
    assert (jobs_to b (map (fun j : nat => BGrp j []) (seq 0 m)) = jobs_to b' (map (fun j : nat => BGrp j []) (seq 0 m))) as Ejt by reflexivity.
    assert ((m = 0%nat) \/ (a_elems (arr (tb s)) <> None /\ m = N.to_nat (a_mask (arr (tb s)) + 1))) as Mc.
    { destruct (a_elems (arr (tb s))); injection Hm as <-; [right; split; [discriminate|reflexivity]|left; reflexivity]. }
    split.
    + cbn [set_p pcf]. rewrite (plain_map (fun y : nat * nat => ECall (snd y) (OnC (p_d b) (job b (fst y))))), <- ConcBulk2.flat_some.
      apply place_xsteps; [exact F|exact ND|rewrite jobs_to_len, map_length, seq_length; auto|rewrite map_length, combine_length, seq_length; lia|].
      intros j t p e Ht Hp He C' Fc Eb Et. rewrite nth_error_map in He. destruct (nth_error (combine (seq 0 m) ts) j) as [[j1 t1]|] eqn:E; [|discriminate]. injection He as <-.
      apply ConcBulk2.combine_get' in E as [E1 E2]. assert (t1 = t) by congruence. subst t1. apply seq_get in E1 as [-> Lj]. cbn [fst snd plus].
      rewrite (jobs_to_get b _ j (BGrp j [])) in Hp by (rewrite nth_error_map, seq_at by exact Lj; reflexivity). injection Hp as <-.
      assert (nth_error (th C') t = Some Idle) as It by (rewrite Et; apply Hi; eapply nth_error_In; exact Ht).
      assert (box C' (p_d b) = Some s) as Hb' by (unfold box in *; rewrite Eb; exact Hb).
      set (C1 := set_th C' t (At (p_d b) (job b j) LEnter)). set (C2 := set_th C1 t (At (p_d b) (job b j) (BGrp 0 []))).
      assert (counters_fit C1) as F1 by (apply fit_at; [exact Fc|discriminate]). assert (counters_fit C2) as F2 by (apply fit_at; [exact F1|discriminate]).
      assert (nth_error (th C1) t = Some (At (p_d b) (job b j) LEnter)) as T1 by (eapply self_err; exact It).
      assert (nth_error (th C2) t = Some (At (p_d b) (job b j) (BGrp 0 []))) as T2 by (eapply self_err; exact T1).
      assert (set_th C' t (At (p_d b) (job b j) (BGrp j [])) = set_th C2 t (At (p_d b) (job b j) (BGrp j []))) as -> by (unfold C2, C1; rewrite !ConcBulk.set_th_twice; reflexivity).
      change [ECall t (OnC (p_d b) (job b j))] with (([] ++ ev_opt (Some (ECall t (OnC (p_d b) (job b j))))) ++ ev_opt (@None event) ++ ev_opt (@None event)).
      rewrite app_assoc. eapply xs_snoc; [eapply xs_snoc; [eapply xs_snoc; [apply xs_nil; exact Fc| |exact F1]| |exact F2]| |apply fit_at; [exact F2|discriminate]].
      * apply x_gstep. eapply g_call; eassumption.
      * apply x_gstep. apply (ConcBulk.quiet_step c C1 t (p_d b) (job b j) LEnter s 0 false (BGrp 0 []) None T1); [exact Hb'|reflexivity].
      * eapply x_skip; [exact T2|exact Hb'|]. right. exists j. split; [reflexivity|]. destruct Mc as [->|[_ ->]]; lia.
    + assert (nth_error B u <> None) as Nu by congruence. destruct I as [I1 I2]. cbn [pcf pars] in *.
      assert (forall u' b1 t, nth_error B u' = Some (Some b1) -> In t (p_ts b1) -> ~ In t ts) as Dis.
      { intros u' b1 t H1 H2 H3. destruct (I1 u' b1 H1) as (ND' & S'). destruct (pok_jobs b1 C S') as [ls Hls]. apply In_nth_error in H2 as [j Hj].
        assert (j < length (p_ts b1))%nat as Lj by (apply nth_error_Some; congruence). destruct (nth_error ls j) as [l|] eqn:El; [|apply nth_error_None in El; destruct Hls as [Ll _]; lia].
        destruct (proj2 Hls j l El) as (t1 & T1 & T2). assert (t1 = t) by congruence. subst t1. rewrite (Hi t H3) in T2. discriminate. }
      split; cbn [set_p pcf pars].
      * intros u1 b1 H1. destruct (ConcBulk.set_nth_cases _ _ _ Nu _ _ H1) as [[-> E]|[N E]].
        -- injection E as ->. split; [exact ND|].
           assert (jobs_at b' (place C ts (jobs_to b (map (fun j : nat => BGrp j []) (seq 0 m)))) (map (fun j : nat => BGrp j []) (seq 0 m))) as J.
           { rewrite Ejt. apply (jobs_place b'); [cbn; rewrite map_length, seq_length; auto|exact ND|]. intros t Ht. rewrite (Hi t Ht). discriminate. }
           unfold POK. cbn [upd p_st]. destruct (Nat.eqb_spec m 0) as [E|E].
           ++ rewrite E in J |- *. exists []. split; [exact J|]. split; [intros ? []|reflexivity].
           ++ destruct Mc as [Z|[Ne Em]]; [contradiction|]. exists s, (map (fun j : nat => BGrp j []) (seq 0 m)). cbn [upd p_d p_ts].
              split; [unfold box; rewrite ConcBulk.place_boxes; exact Hb|]. split; [exact Ne|]. split; [exact (eq_trans L Em)|]. split; [exact J|].
              intros j l Hl. rewrite nth_error_map in Hl. destruct (nth_error (seq 0 m) j) as [j1|] eqn:E1; [|discriminate]. injection Hl as <-. apply seq_get in E1 as [-> _]. right. auto.
        -- destruct (I1 u1 b1 E) as (ND1 & S1). split; [exact ND1|]. eapply pok_same; [| |exact S1]; [intros t Ht; apply ConcBulk.place_out; eapply Dis; eassumption|].
           intros. apply kept_same, ConcBulk.place_boxes.
      * intros u1 b1 u2 b2 t H1 H2 T1 T2.
        assert (forall t, In t (p_ts b) -> False) as Nb by (destruct (I1 u b Hu) as [_ P]; unfold POK in P; rewrite Hs in P; rewrite P; intros ? []).
        destruct (ConcBulk.set_nth_cases _ _ _ Nu _ _ H1) as [[-> E1]|[N1 E1]], (ConcBulk.set_nth_cases _ _ _ Nu _ _ H2) as [[-> E2]|[N2 E2]]; auto.
        -- injection E1 as ->. destruct (Dis _ _ _ E2 T2 T1).
        -- injection E2 as ->. destruct (Dis _ _ _ E1 T1 T2).
        -- eapply I2; eassumption.
  - (* a step of a job *)
    destruct (pi_ok _ I u b Hu) as (ND & S). cbn [pars pcf] in *. pose proof (by_job_gstep _ _ _ _ _ Hy) as Gs. split; [rewrite plain_opt; apply xsteps_one; [exact F|exact F'|apply x_gstep, Gs]|].
    assert (~ (forall t', In t' (p_ts b) -> t' <> t)) as Nin by (intros Z; destruct Hj as [Z1 _]; eapply Z; [eapply nth_error_In; exact Z1|reflexivity]).
    eapply (pinv_set (PConf C B)); [exact I|exact Hu|reflexivity| | |].
    + intros t' Nt'. eapply by_job_others; [exact Hy|]. intros ->. apply Nt'. destruct Hj as [Z _]. eapply nth_error_In; exact Z.
    + intros d t' o l0 Ht' Hl. eapply kept_gstep; eassumption.
    + unfold POK in S |- *. rewrite Hs in S |- *. destruct S as (s & ls & Hb & Ne & Ll & Hls & Hok). pose proof (jobs_get _ _ _ _ _ _ Hls Hj) as Ej.
      assert (j < length ls)%nat as Lj by (apply nth_error_Some; congruence). pose proof (Hok _ _ Ej) as Jl.
      destruct Hj as [T1 T2]. destruct (kept_gstep C e C' t (p_d b) _ l G Gs T2 (job_inside _ _ Jl) s Hb) as (s' & Hb' & Em & En).
      assert (job_at b C' j t l' /\ JobOK j l') as [Hj' Jl'].
      { destruct Hy as [d o l1 s1 e1 l' a s1' H1 H2 H3 H4]. rewrite T2 in H1. injection H1 as <- <- <-. assert (s1 = s) as -> by congruence. split.
        - split; [exact T1|]. cbn [set_box set_th th]. eapply self_err; exact T2.
        - eapply job_step; [exact Jl|exact Hr|exact H3|exact Nt|exact Ne|]. destruct Hls as [Z _]. lia. }
      exists s', (set_nth ls j l'). split; [exact Hb'|]. split; [apply En, Ne|]. split; [rewrite Em; exact Ll|]. split.
      * eapply jobs_set; [exact Hls|exact ND|split; [exact T1|exact T2]|eapply by_job_others; exact Hy|exact Hj'].
      * intros j1 l1 H1. rewrite set_nth_err in H1 by exact Lj. destruct (Nat.eqb_spec j1 j) as [->|]; [injection H1 as <-; exact Jl'|apply Hok, H1].
  - (* end *)
    destruct (pi_ok _ I u b Hu) as (ND & S). cbn [pars pcf] in *. pose proof S as S0. unfold POK in S0. rewrite Hs in S0. destruct S0 as (s & ls0 & Hb & Ne & Ll & Hls & Hok).
    pose proof (jobs_uniq _ _ _ _ Hj Hls) as <-. pose proof (proj1 Hj) as Lls. split.
    + cbn [set_p pcf plain flat_map]. rewrite <- (ConcBulk2.flat_none ls).
      apply place_xsteps; [exact F|exact ND|rewrite jobs_to_len, map_length; congruence|rewrite map_length; exact Lls|].
      intros j t p e Ht Hp He C' Fc Eb Et. rewrite nth_error_map in He. destruct (nth_error ls j) as [l|] eqn:El; [|discriminate]. injection He as <-.
      assert (j < length rs)%nat as Lj by (rewrite L; apply nth_error_Some; congruence). destruct (nth_error rs j) as [r|] eqn:Er; [|apply nth_error_None in Er; lia].
      rewrite (jobs_to_get b _ j (out_of r)) in Hp by (rewrite nth_error_map, Er; reflexivity). injection Hp as <-.
      destruct (proj2 Hj j l El) as (t1 & T1 & T2). assert (t1 = t) by congruence. subst t1. assert (nth_error (th C') t = Some (At (p_d b) (job b j) l)) as T3 by congruence.
      assert (box C' (p_d b) = Some s) as Hb' by (unfold box in *; rewrite Eb; exact Hb).
      assert (forall C1, counters_fit C1 -> box C1 (p_d b) = Some s -> nth_error (th C1) t = Some (At (p_d b) (job b j) (LDone (RBulk (fst r) (snd r)))) ->
        xsteps C1 [] (set_th C1 t (At (p_d b) (job b j) (out_of r)))) as Last.
      { intros C1 Fc1 Hb1 T4. change (@nil event) with (ev_opt (option_map (ELin (K:=K) (V:=V) t) None)).
        apply xsteps_one; [exact Fc1|apply fit_at; [exact Fc1|discriminate]|]. apply x_gstep. eapply (ConcBulk.quiet_step c C1 t (p_d b) (job b j) _ s 0 false); [exact T4|exact Hb1|reflexivity]. }
      specialize (Hend j l r El Er). destruct l; cbn [ended] in Hend; try contradiction.
      * assert (r = (acc, BDone)) as -> by (destruct Hend as [[_ X]|(_ & _ & X)]; exact X). cbn [fst snd] in Last.
        set (C1 := set_th C' t (At (p_d b) (job b j) (LDone (RBulk acc BDone)))).
        assert (counters_fit C1) as F1 by (apply fit_at; [exact Fc|discriminate]).
        assert (set_th C' t (At (p_d b) (job b j) (out_of (acc, BDone))) = set_th C1 t (At (p_d b) (job b j) (out_of (acc, BDone)))) as -> by (unfold C1; rewrite ConcBulk.set_th_twice; reflexivity).
        change (@nil event) with (ev_opt (@None event) ++ []). eapply xsteps_trans; [apply xsteps_one; [exact Fc|exact F1|]|].
        -- eapply x_skip; [exact T3|exact Hb'|]. left. reflexivity.
        -- apply Last; [exact F1|exact Hb'|]. eapply self_err; exact T3.
      * destruct r0 as [| | | | | |acc st|]; try contradiction. destruct st; try contradiction. subst r. apply Last; [exact Fc|exact Hb'|exact T3].
    + eapply (pinv_set (PConf C B)); [exact I|exact Hu|reflexivity|intros t Ht; apply ConcBulk.place_out, Ht|intros; apply kept_same, ConcBulk.place_boxes|].
      unfold POK. cbn [upd p_st]. exists rs. split; [|split; [|reflexivity]].
      * apply (jobs_place b); [rewrite map_length; congruence|exact ND|eapply jobs_lt; exact Hj].
      * intros x Hx E. apply In_nth_error in Hx as [j Ex]. assert (j < length ls)%nat as Lj by (rewrite <- L; apply nth_error_Some; congruence).
        destruct (nth_error ls j) as [l|] eqn:El; [|apply nth_error_None in El; lia]. specialize (Hend j l x El Ex). destruct l; cbn [ended] in Hend; try contradiction.
        -- destruct Hend as [[_ ->]|(_ & _ & ->)]; discriminate E.
        -- destruct r as [| | | | | |acc st|]; try contradiction. destruct st; try contradiction. subst x. discriminate E.
  - (* return *)
    destruct (pi_ok _ I u b Hu) as (ND & S). cbn [pars pcf] in *. pose proof (proj1 Hj) as Lls. rewrite map_length in Lls. split.
    + cbn [set_p pcf]. change (plain (PRet u r (map fst rs) :: map (fun y => PPlain (ERet (fst y) (AnsC (RBulk (fst (snd y)) (snd (snd y)))))) (combine (p_ts b) rs)))
        with (plain (map (fun y : nat * (calls * bstat) => PPlain (ERet (fst y) (AnsC (RBulk (fst (snd y)) (snd (snd y)))))) (combine (p_ts b) rs))).
      rewrite (plain_map (fun y : nat * (calls * bstat) => ERet (fst y) (AnsC (RBulk (fst (snd y)) (snd (snd y)))))), <- ConcBulk2.flat_some.
      apply place_xsteps; [exact F|exact ND|rewrite map_length; exact Lls|rewrite map_length, combine_length; lia|].
      intros j t p e Ht Hp He C' Fc Eb Et. rewrite nth_error_map in He, Hp. destruct (nth_error (combine (p_ts b) rs) j) as [[t1 x]|] eqn:E; [|discriminate]. injection He as <-.
      apply ConcBulk2.combine_get' in E as [E1 E2]. assert (t1 = t) by congruence. subst t1. rewrite E2 in Hp. injection Hp as <-. cbn [fst snd].
      destruct (proj2 Hj j (out_of x) ltac:(rewrite nth_error_map, E2; reflexivity)) as (t1 & T1 & T2). assert (t1 = t) by congruence. subst t1.
      apply (xsteps_one c C' (Some (ERet t (AnsC (RBulk (fst x) (snd x)))))); [exact Fc|apply ConcBulk.fit_th; [exact Fc|exact Logic.I]|].
      apply x_gstep. eapply g_ret. rewrite Et. exact T2.
    + assert (nth_error B u <> None) as Nu by congruence. destruct I as [I1 I2]. cbn [pcf pars] in *. split; cbn [set_p pcf pars].
      * intros u1 b1 H1. destruct (ConcBulk.set_nth_cases _ _ _ Nu _ _ H1) as [[-> E]|[N E]]; [discriminate|]. destruct (I1 u1 b1 E) as (ND1 & S1). split; [exact ND1|].
        eapply pok_same; [| |exact S1]; [|intros; apply kept_same, ConcBulk.place_boxes]. intros t Ht. apply ConcBulk.place_out. intros Ht'. apply N. eapply I2; eassumption.
      * intros u1 b1 u2 b2 t H1 H2 T1 T2.
        destruct (ConcBulk.set_nth_cases _ _ _ Nu _ _ H1) as [[-> E1]|[N1 E1]]; [discriminate|]. destruct (ConcBulk.set_nth_cases _ _ _ Nu _ _ H2) as [[-> E2]|[N2 E2]]; [discriminate|]. eapply I2; eassumption.
Qed.
End Par2.
