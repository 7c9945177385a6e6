(** Lemmas for C61: the invariant of programs with handles. *)
From Coq Require Import NArith Bool List Arith Lia Permutation.
From Verif Require Import SizeModel GroupModel FoaGroup FoaModel FoaBase FoaInv FoaArr FoaOps FoaSpec FoaWorld NodeSpec
  ConcSpec ConcModel ConcInv ConcStep ConcStep2 ConcStep3 ConcSys ConcSys2 ConcLin1 ConcLin2 ConcLin3 ConcLog ConcNodeModel ConcNodeSpec ConcNode ConcNode2.
Import ListNotations.
Local Open Scope N_scope.
Notation set_nth := FoaModel.set_nth.
Section NInv.
Context {K M : Type} (c : Cfg K (node M)).
Hypothesis HC : good_cfg c.
Notation elem := (K * node M)%type.
Notation conf := (@conf K (node M)). Notation pc := (@pc K (node M)).
Notation At := ConcModel.At.
Notation GInv := (GInv c).
Notation nconf := (@nconf K M). Notation label := (@label K M).

Definition hold (N : nconf) (t : nat) : option (option elem) := match arg N t with Some h => nth_error (hs N) h | None => None end.
Record NInv (N : nconf) : Prop := {
  ni_g : GInv (nc N);
  ni_nd : NoDup (map (fun e => n_addr (snd e)) (nodes N));
  ni_inj : forall t t' h, arg N t = Some h -> arg N t' = Some h -> t = t';
  ni_arg : forall t h, arg N t = Some h -> (exists y, nth_error (hs N) h = Some y) /\ exists p, nth_error (th (nc N)) t = Some p;
  ni_t : forall t p, nth_error (th (nc N)) t = Some p -> tinv p (hold N t) }.

Definition oelem (x : option elem) : list elem := match x with Some e => [e] | None => [] end.
Lemma handles_set (l : list (option elem)) h x : nth_error l h = Some x -> exists rest, Permutation (in_handles l) (oelem x ++ rest) /\ forall y, Permutation (in_handles (set_nth l h y)) (oelem y ++ rest).
Proof.
  intros H. exists (in_handles (firstn h l) ++ in_handles (skipn (S h) l)).
  assert (forall y, Permutation (in_handles (firstn h l ++ y :: skipn (S h) l)) (oelem y ++ in_handles (firstn h l) ++ in_handles (skipn (S h) l))) as P.
  { intros y. unfold in_handles. rewrite flat_map_app. cbn [flat_map]. change (match y with Some e => [e] | None => [] end) with (oelem y). rewrite !app_assoc. apply Permutation_app_tail, Permutation_app_comm. }
  assert (l = firstn h l ++ x :: skipn (S h) l) as E.
  { clear - H. revert h H. induction l as [|a w IH]; intros [|i] H; cbn in *; try discriminate; [injection H as ->; reflexivity|]. f_equal. apply IH. exact H. }
  split; [rewrite E at 1; apply P|]. intros y. rewrite (set_set_nth l h y) by (apply nth_error_Some; congruence). apply P.
Qed.
Lemma set_same {X} (l : list X) h x : nth_error l h = Some x -> set_nth l h x = l.
Proof. intros H. apply list_ext. intros j. rewrite set_nth_err by (eapply nth_error_Some_lt; exact H). destruct (Nat.eqb_spec j h); [subst; congruence|reflexivity]. Qed.
Definition step_handles (g : nat -> option nat) (l : list (option elem)) (t : nat) (p p' : pc) : list (option elem) :=
  match g t with Some h => match nth_error l h with Some x => set_nth l h (transfer p p' x) | None => l end | None => l end.
Lemma step_handles_same g l t p : step_handles g l t p p = l.
Proof.
  unfold step_handles. destruct (g t) as [h|]; [|reflexivity]. destruct (nth_error l h) as [x|] eqn:E; [|reflexivity]. pose proof (moved_same p (Some x)) as H. cbn in H. injection H as ->. apply set_same. exact E.
Qed.
Definition conserves (N : nconf) (e : label) (N' : nconf) : Prop :=
  exists lost, Permutation (made e ++ map ident (nodes N)) (lost ++ map ident (nodes N')) /\ (lost <> [] -> may_end N e).
Lemma addr_ident (l : list elem) : map (fun e => n_addr (snd e)) l = map snd (map ident l).
Proof. rewrite map_map. reflexivity. Qed.
Lemma conserves_nodup N e N' : conserves N e N' -> match e with LNew _ a => ~ In a (map (fun e => n_addr (snd e)) (nodes N)) | _ => True end ->
  NoDup (map (fun e => n_addr (snd e)) (nodes N)) -> NoDup (map (fun e => n_addr (snd e)) (nodes N')).
Proof.
  intros (lost & P & _) Hn D. rewrite !addr_ident in *. apply (Permutation_map snd) in P. rewrite !map_app in P.
  assert (NoDup (map snd (made e) ++ map snd (map ident (nodes N)))) as D1 by (destruct e; cbn; auto; constructor; assumption).
  apply (Permutation_NoDup P) in D1. clear - D1. induction (map snd lost) as [|x l IH]; [exact D1|]. inversion D1; subst. auto.
Qed.
Lemma conserves_refl N e N' : made e = [] -> Permutation (map ident (nodes N)) (map ident (nodes N')) -> conserves N e N'.
Proof. intros E P. exists []. rewrite E. split; [exact P|congruence]. Qed.
Lemma call_inv (C : conf) t o C' : gstep c C (Some (ECall t o)) C' -> nth_error (th C) t = Some Idle /\
  exists p, C' = set_th C t p /\ match o with OnC d o => p = At d o LEnter | Whole o => p = AtW o end.
Proof. intros H. inversion H; subst; try (destruct a; discriminate); (split; [assumption|]); eexists; split; reflexivity. Qed.
Lemma ret_inv (C : conf) t a C' : gstep c C (Some (ERet t a)) C' -> exists p, nth_error (th C) t = Some p /\ C' = set_th C t Idle /\
  match a with AnsC r => exists d o, p = At d o (LRet r) | AnsW r => p = RetW r end.
Proof. intros H. inversion H; subst; try (match goal with a : option _ |- _ => destruct a; discriminate end); eexists; (split; [eassumption|]); split; try reflexivity. eauto. Qed.
Lemma th_set (C : conf) t p q t' : nth_error (th C) t = Some q -> nth_error (th (set_th C t p)) t' = if Nat.eqb t' t then Some p else nth_error (th C) t'.
Proof. intros H. cbn [set_th th]. apply set_nth_err. eapply nth_error_Some_lt. exact H. Qed.

(** changing a handle nobody uses *)
Lemma ninv_handles C l g l' : NInv (NC C l g) -> (forall h, (exists t, g t = Some h) -> nth_error l' h = nth_error l h) ->
  NoDup (map (fun e => n_addr (snd e)) (nodes (NC C l' g))) -> NInv (NC C l' g).
Proof.
  intros [G D I Ar T] Hh D'. cbn [nc hs arg] in *. split; cbn [nc hs arg]; auto.
  - intros t h H. destruct (Ar t h H) as [(y & Hy) P]. split; [|exact P]. exists y. rewrite Hh by eauto. exact Hy.
  - intros t p H. specialize (T t p H). unfold hold in *. cbn [hs arg] in *. destruct (g t) as [h|] eqn:E; [|exact T]. rewrite Hh by eauto. exact T.
Qed.
(** a call *)
Lemma ninv_call C l g t o C' x : NInv (NC C l g) -> counters_fit C -> gstep c C (Some (ECall t o)) C' ->
  match x with Some h => unused (NC C l g) h /\ exists y, nth_error l h = Some y /\ forall p, nth_error (th C') t = Some p -> tinv p (Some y) | None => plain o end ->
  NInv (NC C' l (upd g t x)).
Proof.
  intros [G D I Ar T] Fit St Hx. cbn [nc hs arg] in *. destruct (call_inv C t o C' St) as (Ht & p & -> & Hp).
  assert (forall t', t' <> t -> upd g t x t' = g t') as U by (intros t' N; unfold upd; destruct (Nat.eqb_spec t' t); [congruence|reflexivity]).
  assert (upd g t x t = x) as U0 by (unfold upd; rewrite Nat.eqb_refl; reflexivity).
  split; cbn [nc hs arg].
  - eapply ginv_step; eassumption.
  - exact D.
  - intros t1 t2 h H1 H2. destruct (Nat.eq_dec t1 t) as [->|N1], (Nat.eq_dec t2 t) as [->|N2]; try reflexivity.
    + rewrite U0 in H1. rewrite U in H2 by exact N2. subst x. destruct Hx as [Un _]. destruct (Un t2 H2).
    + rewrite U0 in H2. rewrite U in H1 by exact N1. subst x. destruct Hx as [Un _]. destruct (Un t1 H1).
    + rewrite U in H1, H2 by assumption. eapply I; eassumption.
  - intros t1 h H1. destruct (Nat.eq_dec t1 t) as [->|N1].
    + rewrite U0 in H1. subst x. destruct Hx as (_ & y & Hy & _). split; [eauto|]. exists p. rewrite (th_set C t p Idle) by exact Ht. rewrite Nat.eqb_refl. reflexivity.
    + rewrite U in H1 by exact N1. destruct (Ar t1 h H1) as [A1 (q & A2)]. split; [exact A1|]. exists q. rewrite (th_set C t p Idle) by exact Ht. destruct (Nat.eqb_spec t1 t); [congruence|exact A2].
  - intros t1 q H1. unfold hold. cbn [hs arg]. destruct (Nat.eq_dec t1 t) as [->|N1].
    + rewrite U0. rewrite (th_set C t p Idle) in H1 by exact Ht. rewrite Nat.eqb_refl in H1. injection H1 as <-. destruct x as [h|].
      * destruct Hx as (_ & y & Hy & Hp'). rewrite Hy. apply Hp'. rewrite (th_set C t p Idle) by exact Ht. rewrite Nat.eqb_refl. reflexivity.
      * destruct o as [d [[| |]| |]|o]; subst p; exact Hx.
    + rewrite U by exact N1. rewrite (th_set C t p Idle) in H1 by exact Ht. destruct (Nat.eqb_spec t1 t); [congruence|]. exact (T t1 q H1).
Qed.
Lemma ends_may (N : nconf) e t p : nth_error (th (nc N)) t = Some p -> (hold N t = None -> arg N t = None) -> ends_at t p e (hold N t) -> may_end N (LConc e).
Proof.
  intros Hp Ha [(e0 & -> & H)|[(e0 & ->)|[(d & o & -> & ->)|(o & r & -> & -> & H)]]]; cbn [may_end]; auto; [exists d, o; exact Hp|exists o; auto].
Qed.
Lemma nstep_ok N e N' : NInv N -> counters_fit (nc N) -> nstep c N e N' -> NInv N' /\ ((forall h, e <> LSet h) -> conserves N e N').
Proof.
  intros Iv Fit St. destruct St as [C l g|C l g h k a o m H0 Hu Ha|C l g h x H0 Hu|C l g h h2 x H1 H2 Hn Hu Hu2|C l g h k nd k' m' H0 Hu|C l g C' t d x h k nd f1 f2 H0 Hu K1 K2 Hg|C l g C' t d h k f H0 Hu Kf Hg|C l g C' t o Pl Hg|C l g C' e t p p' Nc Nr Hg Hp Hp' Ho|C l g C' t a Hg]; cbn [nc] in Fit.
  - (* new handle *)
    assert (in_handles (l ++ [None]) = in_handles l) as E by (unfold in_handles; rewrite flat_map_app; apply app_nil_r).
    split; [|intros _; apply conserves_refl; [reflexivity|]; unfold nodes; cbn [nc hs]; rewrite E; reflexivity].
    apply (ninv_handles C l g); [exact Iv| |].
    + intros h (t & Ht). destruct (ni_arg _ Iv t h Ht) as [(y & Hy) _]. apply nth_error_app1. eapply nth_error_Some_lt. exact Hy.
    + unfold nodes; cbn [nc hs]; rewrite E; exact (ni_nd _ Iv).
  - (* new node *)
    destruct (handles_set l h None H0) as (rest & P1 & P2). specialize (P2 (Some (k, Node a o m))). cbn [oelem app] in P1, P2.
    assert (conserves (NC C l g) (LNew k a) (NC C (set_nth l h (Some (k, Node a o m))) g)) as Cs.
    { exists []. split; [|congruence]. cbn [made app]. unfold nodes. cbn [nc hs]. rewrite !map_app, (Permutation_map ident P1), (Permutation_map ident P2). cbn [map ident fst snd n_addr].
      change ((k, a) :: map ident (in_containers C) ++ map ident rest) with ([(k, a)] ++ map ident (in_containers C) ++ map ident rest).
      change (ident (k, Node a o m) :: map ident rest) with ([(k, a)] ++ map ident rest). perm. }
    split; [|intros _; exact Cs]. apply (ninv_handles C l g); [exact Iv| |].
    + intros h' (t & Ht). rewrite set_nth_err by (eapply nth_error_Some_lt; exact H0). destruct (Nat.eqb_spec h' h) as [->|]; [destruct (Hu t Ht)|reflexivity].
    + exact (conserves_nodup _ _ _ Cs Ha (ni_nd _ Iv)).
  - (* drop *)
    destruct (handles_set l h x H0) as (rest & P1 & P2). specialize (P2 None). cbn [oelem app] in P2.
    assert (conserves (NC C l g) (LDrop h) (NC C (set_nth l h None) g)) as Cs.
    { exists (map ident (oelem x)). split; [|intros _; exact I]. cbn [made app]. unfold nodes. cbn [nc hs]. rewrite !map_app, (Permutation_map ident P1), (Permutation_map ident P2), map_app. perm. }
    split; [|intros _; exact Cs]. apply (ninv_handles C l g); [exact Iv| |].
    + intros h' (t & Ht). rewrite set_nth_err by (eapply nth_error_Some_lt; exact H0). destruct (Nat.eqb_spec h' h) as [->|]; [destruct (Hu t Ht)|reflexivity].
    + exact (conserves_nodup _ _ _ Cs I (ni_nd _ Iv)).
  - (* move *)
    pose proof (nth_error_Some_lt _ _ _ H1) as L1. pose proof (nth_error_Some_lt _ _ _ H2) as L2.
    destruct (handles_set l h x H1) as (rest & P1 & P2). specialize (P2 None).
    assert (nth_error (set_nth l h None) h2 = Some None) as H2' by (rewrite set_nth_err by exact L1; destruct (Nat.eqb_spec h2 h); [congruence|exact H2]).
    destruct (handles_set _ h2 None H2') as (rest2 & P3 & P4). specialize (P4 x). cbn [oelem app] in *.
    assert (conserves (NC C l g) (LMove h h2) (NC C (set_nth (set_nth l h None) h2 x) g)) as Cs.
    { apply conserves_refl; [reflexivity|]. apply Permutation_map. unfold nodes. cbn [nc hs]. apply Permutation_app_head. rewrite P1, P4. apply Permutation_app_head. rewrite <- P3. symmetry. exact P2. }
    split; [|intros _; exact Cs]. apply (ninv_handles C l g); [exact Iv| |].
    + intros h' (t & Ht). rewrite !set_nth_err by (rewrite ?set_nth_len; assumption). destruct (Nat.eqb_spec h' h2) as [->|]; [destruct (Hu2 t Ht)|]. destruct (Nat.eqb_spec h' h) as [->|]; [destruct (Hu t Ht)|reflexivity].
    + exact (conserves_nodup _ _ _ Cs I (ni_nd _ Iv)).
  - (* set *)
    split; [|intros Hs; destruct (Hs h eq_refl)]. destruct (handles_set l h _ H0) as (rest & P1 & P2). specialize (P2 (Some (k', Node (n_addr nd) (n_owner nd) m'))).
    apply (ninv_handles C l g); [exact Iv| |].
    + intros h' (t & Ht). rewrite set_nth_err by (eapply nth_error_Some_lt; exact H0). destruct (Nat.eqb_spec h' h) as [->|]; [destruct (Hu t Ht)|reflexivity].
    + eapply Permutation_NoDup; [|exact (ni_nd _ Iv)]. unfold nodes. cbn [nc hs]. rewrite !map_app. apply Permutation_app_head. rewrite (Permutation_map _ P1), (Permutation_map _ P2). reflexivity.
  - (* insert *)
    destruct (call_inv _ _ _ _ Hg) as (Ht & q & Ec & Hq). cbn in Hq. subst q. split.
    + eapply (ninv_call C l g t _ C' (Some h)); [exact Iv|exact Fit|exact Hg|]. split; [exact Hu|]. exists (Some (k, nd)). split; [exact H0|]. subst C'. intros q Hq. rewrite (th_set C t _ Idle) in Hq by exact Ht. rewrite Nat.eqb_refl in Hq. injection Hq as <-.
      cbn. auto.
    + intros _. apply conserves_refl; [reflexivity|]. subst C'. reflexivity.
  - (* extract *)
    destruct (call_inv _ _ _ _ Hg) as (Ht & q & Ec & Hq). cbn in Hq. subst q. split.
    + eapply (ninv_call C l g t _ C' (Some h)); [exact Iv|exact Fit|exact Hg|]. split; [exact Hu|]. exists None. split; [exact H0|]. subst C'. intros q Hq. rewrite (th_set C t _ Idle) in Hq by exact Ht. rewrite Nat.eqb_refl in Hq. injection Hq as <-.
      cbn. auto.
    + intros _. apply conserves_refl; [reflexivity|]. subst C'. reflexivity.
  - (* other calls *)
    destruct (call_inv _ _ _ _ Hg) as (Ht & q & Ec & Hq). split.
    + apply (ninv_call C l g t o C' None); [exact Iv|exact Fit|exact Hg|exact Pl].
    + intros _. apply conserves_refl; [reflexivity|]. subst C'. reflexivity.
  - (* a step *)
    fold (step_handles g l t p p'). destruct (gflow c HC C e C' (ni_g _ Iv) Hg Nc Nr) as (t0 & p0 & p0' & Hp0 & Hp0' & Ho0 & F).
    assert (step_handles g l t p p' = step_handles g l t0 p0 p0') as ->.
    { destruct (Nat.eq_dec t t0) as [->|N]; [congruence|]. rewrite (Ho t0) in Hp0' by congruence. rewrite (Ho0 t) in Hp' by congruence. assert (p0' = p0) as -> by congruence. assert (p' = p) as -> by congruence.
      rewrite !step_handles_same. reflexivity. }
    clear Ho Hp Hp' p p' t. rename t0 into t, p0 into p, p0' into p', Hp0 into Hp, Hp0' into Hp', Ho0 into Ho.
    pose proof (ni_t _ Iv t p Hp) as Tx. destruct (F _ Tx) as (T1 & lost & P & Pe).
    assert (match g t with Some h => exists y, nth_error l h = Some y | None => True end) as Hy by (destruct (g t) as [h|] eqn:E; [exact (proj1 (ni_arg _ Iv t h E))|exact I]).
    assert (conserves (NC C l g) (LConc e) (NC C' (step_handles g l t p p') g)) as Cs.
    { exists lost. split; [|intros Hl; apply (ends_may (NC C l g) e t p Hp); [intros Hn; unfold hold in Hn; cbn [hs arg] in *; destruct (g t) as [h|]; [destruct Hy as (y & Hy); congruence|reflexivity]|exact (Pe Hl)]]. cbn [made app]. unfold nodes, hold, step_handles in *. cbn [nc hs arg] in *. destruct (g t) as [h|].
      - destruct Hy as (y & Hy). rewrite Hy in *. destruct (handles_set l h y Hy) as (rest & P1 & P2). specialize (P2 (transfer p p' y)). cbn [own moved option_map] in P.
        change (match y with Some e => [e] | None => [] end) with (oelem y) in P. change (match transfer p p' y with Some e => [e] | None => [] end) with (oelem (transfer p p' y)) in P.
        rewrite !map_app in *. rewrite (Permutation_map ident P1), (Permutation_map ident P2), !map_app.
        transitivity ((map ident (in_containers C) ++ map ident (oelem y)) ++ map ident rest); [perm|]. rewrite P. perm.
      - cbn [own moved option_map] in P. rewrite !app_nil_r in P. rewrite !map_app, P. perm. }
    split; [|intros _; exact Cs].
    assert (forall t', t' <> t -> hold (NC C' (step_handles g l t p p') g) t' = hold (NC C l g) t') as Hh.
    { intros t' N. unfold hold, step_handles. cbn [hs arg]. destruct (g t') as [h'|] eqn:E'; [|reflexivity]. destruct (g t) as [h|] eqn:E; [|reflexivity]. destruct Hy as (y & Hy). rewrite Hy.
      rewrite set_nth_err by (eapply nth_error_Some_lt; exact Hy). destruct (Nat.eqb_spec h' h) as [->|]; [|reflexivity]. destruct N. exact (ni_inj _ Iv t' t h E' E). }
    split; cbn [nc hs arg].
    + eapply ginv_step; [exact HC|exact (ni_g _ Iv)|exact Fit|exact Hg].
    + exact (conserves_nodup _ _ _ Cs I (ni_nd _ Iv)).
    + exact (ni_inj _ Iv).
    + intros t' h H. destruct (ni_arg _ Iv t' h H) as [(y & A1) (q & A2)]. cbn [hs nc] in A1, A2. split.
      * unfold step_handles. destruct (g t) as [h0|]; [|eauto]. destruct Hy as (y0 & Hy). rewrite Hy. rewrite set_nth_err by (eapply nth_error_Some_lt; exact Hy). destruct (Nat.eqb h h0); eauto.
      * destruct (Nat.eq_dec t' t) as [->|N]; [eauto|]. rewrite Ho by exact N. eauto.
    + intros t' q H. destruct (Nat.eq_dec t' t) as [->|N].
      * assert (q = p') as -> by congruence. assert (hold (NC C' (step_handles g l t p p') g) t = moved p p' (hold (NC C l g) t)) as ->; [|exact T1].
        unfold hold, step_handles. cbn [hs arg]. destruct (g t) as [h|]; [|reflexivity]. destruct Hy as (y & Hy). rewrite Hy. rewrite set_nth_err by (eapply nth_error_Some_lt; exact Hy). rewrite Nat.eqb_refl. reflexivity.
      * rewrite Hh by exact N. rewrite Ho in H by exact N. exact (ni_t _ Iv t' q H).
  - (* return *)
    destruct (ret_inv _ _ _ _ Hg) as (q & Ht & Ec & Hq). assert (in_containers C' = in_containers C) as Ei by (subst C'; reflexivity).
    split; [|intros _; apply conserves_refl; [reflexivity|]; unfold nodes; cbn [nc hs]; rewrite Ei; reflexivity].
    assert (forall t', t' <> t -> upd g t None t' = g t') as U by (intros t' N; unfold upd; destruct (Nat.eqb_spec t' t); [congruence|reflexivity]).
    assert (upd g t None t = None) as U0 by (unfold upd; rewrite Nat.eqb_refl; reflexivity).
    split; cbn [nc hs arg].
    + eapply ginv_step; [exact HC|exact (ni_g _ Iv)|exact Fit|exact Hg].
    + unfold nodes; cbn [nc hs]; rewrite Ei; exact (ni_nd _ Iv).
    + intros t1 t2 h H1 H2. destruct (Nat.eq_dec t1 t) as [->|N1]; [congruence|]. destruct (Nat.eq_dec t2 t) as [->|N2]; [congruence|]. rewrite U in H1, H2 by assumption. exact (ni_inj _ Iv _ _ _ H1 H2).
    + intros t1 h H1. destruct (Nat.eq_dec t1 t) as [->|N1]; [congruence|]. rewrite U in H1 by exact N1. destruct (ni_arg _ Iv t1 h H1) as [A1 (q1 & A2)]. split; [exact A1|]. exists q1. subst C'. rewrite (th_set C t Idle q) by exact Ht. destruct (Nat.eqb_spec t1 t); [congruence|exact A2].
    + intros t1 q1 H1. unfold hold. cbn [hs arg]. subst C'. rewrite (th_set C t Idle q) in H1 by exact Ht. destruct (Nat.eqb_spec t1 t) as [->|N1].
      * injection H1 as <-. rewrite U0. exact I.
      * rewrite U by exact N1. exact (ni_t _ Iv t1 q1 H1).
Qed.
Lemma nruns_ok n N : nruns c n N -> NInv N /\ counters_fit (nc N).
Proof.
  induction 1 as [|N e N' R [IH Fit] St Fit'].
  - split.
    + split; cbn [nc hs arg].
      * apply ginv_init.
      * constructor.
      * discriminate.
      * discriminate.
      * intros t p H. apply nth_error_In in H. apply repeat_spec in H. subst p. exact I.
    + intros t d o x n0 s m H. cbn [nc th] in H. apply nth_error_In in H. apply repeat_spec in H. discriminate.
  - split; [exact (proj1 (nstep_ok _ _ _ IH Fit St))|exact Fit'].
Qed.
End NInv.
