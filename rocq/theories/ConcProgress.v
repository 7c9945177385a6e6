(** Concurrent containers: calls never wait for each other in a cycle. *)
From Coq Require Import NArith Bool List Arith Lia.
From Verif Require Import FloatModel SizeModel SizeProofs GroupModel GroupSpec FoaModel FoaGroup FoaBase FoaFind FoaArr FoaInv FoaRehash FoaSpec FoaWorld FoaRun
  ConcSpec ConcModel ConcInv ConcStep ConcStep2 ConcStep3 ConcSys ConcSys2 ConcLin1 ConcLin2 ConcLin3 ConcProps.
Import ListNotations.
Local Open Scope N_scope.
Notation set_nth := FoaModel.set_nth.

Section Progress.
Context {K V : Type} (c : Cfg K V).
Hypothesis HC : good_cfg c.
Notation Sh := (@Sh K V).
Notation pop := (pop K V). Notation cop := (cop K V). Notation loc := (@loc K V). Notation cres := (cres K V).
Notation conf := (@conf K V). Notation pc := (@pc K V).
Notation GInv := (GInv c).
Notation event := (event K V).

(** the lock a position waits for *)
Definition waits (o : cop) (l : loc) : option (nat * bool) :=
  match l with
  | LLock x _ => Some (x_g x, mode o)
  | LIns x => Some (x_g x, true)
  | BGrp g _ => Some (g, mode o)
  | _ => None
  end.
(** the slot to read next *)
Definition pick (l : loc) : nat := match l with LScan _ (i :: _) _ => i | _ => O end.
Lemma waits_lock o l g x : waits o l = Some (g, x) -> lock_of o l = None.
Proof. destruct l; try discriminate; reflexivity. Qed.
Lemma holder_not_waiting o l g x : lock_of o l = Some (g, x) -> waits o l = None.
Proof. destruct l; try discriminate; reflexivity. Qed.
Ltac sp := repeat first [ discriminate | progress cbn [waits pick go]
  | match goal with |- context [match ?x with _ => _ end] => destruct x end | match goal with |- context [if ?x then _ else _] => destruct x end ].
Lemma not_blocked free (s : Sh) o l thr : match waits o l with Some (g, x) => free g x = true | None => True end ->
  lstep c free s o l (pick l) thr <> Blocked.
Proof.
  intros H. destruct o as [p|bx md f|]; cbn [lstep].
  - destruct l; cbn [pstep go waits mode] in *; try discriminate; try (rewrite H; discriminate).
    + sp.
    + sp.
    + destruct (thr && gives_up p); [discriminate|]. destruct u as [|i u]; [destruct m; discriminate|]. cbn [pick memb existsb]. rewrite Nat.eqb_refl. cbn [orb]. sp.
    + destruct m; sp.
    + sp.
    + unfold visit_slot. sp.
    + sp.
    + destruct kt; sp.
    + unfold not_found. sp.
    + sp.
    + sp.
    + sp.
    + destruct p; sp.
  - destruct l; cbn [bstep go waits mode] in *; try discriminate; try (rewrite H; discriminate).
    + sp.
    + destruct kt; sp.
    + rewrite H. sp.
    + sp.
    + destruct ms as [|n ms]; sp.
  - destruct l; cbn [sstep go]; discriminate.
Qed.
Lemma moves_on free (s : Sh) o l i thr e l' a : lstep c free s o l i thr = Step e l' a -> l' <> l.
Proof.
  intros H E. subst l'. destruct o as [p|bx md f|]; cbn [lstep] in H.
  - destruct l; cbn [pstep go] in H; try discriminate H.
    all: try (unfold not_found, visit_slot in H).
    all: repeat (match type of H with context [match ?x with _ => _ end] => destruct x eqn:? end; try discriminate H).
    all: try (injection H; intros; subst; try discriminate).
    + exfalso. destruct m as [|y m]; [discriminate|]. apply (f_equal (@length nat)) in H1. cbn in H1. lia.
    + exfalso. assert (remove Nat.eq_dec i (n :: l) = n :: l) as E by (cbn [remove]; exact H1).
      apply (remove_In Nat.eq_dec (n :: l) i). rewrite E. apply existsb_exists in Heqb0 as (y & Hy & Ey). apply Nat.eqb_eq in Ey. subst y. exact Hy.
    + apply (f_equal (@length nat)) in H1. cbn in H1. lia.
  - destruct l; cbn [bstep go] in H; try discriminate H.
    all: repeat (match type of H with context [match ?x with _ => _ end] => destruct x eqn:? end; try discriminate H).
    all: try (injection H; intros; subst; try discriminate).
    all: match goal with E : _ ++ [_] = _ |- _ => apply (f_equal (@length _)) in E; rewrite app_length in E; cbn in E; lia | _ => idtac end.
  - destruct l; cbn [sstep go] in H; try discriminate H.
Qed.

(** thread t makes a step of its call *)
Definition advances (C : conf) (t : nat) : Prop := exists d o l e C', nth_error (th C) t = Some (At d o l) /\ gstep c C e C' /\
  nth_error (th C') t <> Some (At d o l) /\ forall t', t' <> t -> nth_error (th C') t' = nth_error (th C) t'.
Lemma local_advance C t d o l : GInv C -> counters_fit C -> nth_error (th C) t = Some (At d o l) -> l <> LFull -> (forall r, l <> LRet r) ->
  match waits o l with Some (g, x) => free_for C t d g x = true | None => True end -> advances C t.
Proof.
  intros G NW Ht Nf Nr Hw. destruct (gi_at _ _ G _ _ _ _ Ht) as [s Hb]. pose proof (ginv_defined c C t d o l s G NW Ht Hb Nf Nr (pick l) false) as X.
  pose proof (not_blocked (free_for C t d) s o l false Hw) as Y. destruct (lstep c (free_for C t d) s o l (pick l) false) as [| |e l' a] eqn:E; [destruct (Y eq_refl)|destruct X|].
  destruct (apply e s) as [s'|] eqn:Ea; [|destruct (X eq_refl)].
  exists d, o, l, (option_map (ELin t) a), (set_box (set_th C t (At d o l')) d s'). split; [exact Ht|]. split; [eapply g_local; eassumption|].
  cbn [set_box set_th th]. split.
  - rewrite (self_err _ _ _ _ Ht). intros [= E1]. exact (moves_on _ _ _ _ _ _ _ _ _ E E1).
  - intros t' N. apply others_err, N.
Qed.
Lemma forallb_false {X} (f : X -> bool) l : forallb f l = false -> exists x, In x l /\ f x = false.
Proof.
  induction l as [|y l IH]; [discriminate|]. cbn. destruct (f y) eqn:E; [|intros _; exists y; auto]. cbn. intros H. destruct (IH H) as (x & H1 & H2). exists x. auto.
Qed.
Lemma others_in {X} (l : list X) t x : In x (others l t) -> exists t', t' <> t /\ nth_error l t' = Some x.
Proof.
  intros H. unfold others in H. apply in_app_or in H as [H|H]; apply In_nth_error in H as [n H].
  - assert (n < t)%nat as L by (apply nth_error_Some_lt in H; rewrite firstn_length in H; lia). exists n. split; [lia|]. rewrite nth_firstn in H by exact L. exact H.
  - rewrite nth_skipn in H. exists (S t + n)%nat. split; [lia|exact H].
Qed.
(** a thread waiting for a group: its holder is not waiting *)
Lemma inside_advance C t d o l : GInv C -> counters_fit C -> nth_error (th C) t = Some (At d o l) -> outside l = false -> exists t', advances C t'.
Proof.
  intros G NW Ht Ho. assert (l <> LFull /\ forall r, l <> LRet r) as [Nf Nr] by (split; [|intros r]; intros ->; discriminate Ho).
  destruct (waits o l) as [[g x]|] eqn:W.
  2:{ exists t. eapply local_advance; try eassumption. rewrite W. exact I. }
  destruct (free_for C t d g x) eqn:F.
  { exists t. eapply local_advance; try eassumption. rewrite W. exact F. }
  apply forallb_false in F as (p & Hp & F). apply others_in in Hp as (t' & N & Hp). unfold allows in F. destruct p as [|d' o' l'| |]; try discriminate.
  destruct (lock_of o' l') as [[g' x']|] eqn:L; [|discriminate]. exists t'. eapply local_advance; try eassumption.
  - intros ->. discriminate L.
  - intros r ->. discriminate L.
  - rewrite (holder_not_waiting _ _ _ _ L). exact I.
Qed.
Lemma some_advance C t d o l : GInv C -> counters_fit C -> nth_error (th C) t = Some (At d o l) -> exists t', advances C t'.
Proof.
  intros G NW Ht. destruct (outside l) eqn:Ho; [|eapply inside_advance; eassumption].
  destruct (gi_at _ _ G _ _ _ _ Ht) as [s Hb]. destruct l; try discriminate Ho.
  - exists t. eapply local_advance; try eassumption; try discriminate. exact I.
  - destruct (alone C t d) eqn:Al.
    + pose proof (ginv_defined_full c HC C t d o s O G Ht Hb Al) as X. exists t. destruct (rehash_if_full c (tb s) O) as [[] t' n'|k t' n'|] eqn:R; [| |destruct (X eq_refl)].
      * eexists d, o, LFull, _, _. split; [exact Ht|]. split; [eapply g_full with (cn := map (fun _ => 0) (a_groups (arr t'))); try eassumption; apply map_length|].
        cbn [set_box set_th th]. rewrite (self_err _ _ _ _ Ht). split; [discriminate|]. intros t1 N. apply others_err, N.
      * eexists d, o, LFull, _, _. split; [exact Ht|]. split; [eapply g_full_exn with (cn := map (fun _ => 0) (a_groups (arr t'))); try eassumption; apply map_length|].
        cbn [set_box set_th th]. rewrite (self_err _ _ _ _ Ht). split; [discriminate|]. intros t1 N. apply others_err, N.
    + apply forallb_false in Al as (p & Hp & F). apply others_in in Hp as (t' & N & Hp). destruct p as [|d' o' l'| |]; try discriminate.
      cbn [inside] in F. apply negb_false_iff, andb_prop in F as [F1 F2]. apply negb_true_iff in F2. eapply inside_advance; eassumption.
  - exists t. eexists d, o, _, _, _. split; [exact Ht|]. split; [eapply g_ret; eassumption|]. cbn [set_th th]. rewrite (self_err _ _ _ _ Ht). split; [discriminate|].
    intros t1 N. apply others_err, N.
Qed.
(** when no thread is inside a container, an operation on whole containers whose preconditions hold can be performed *)
Lemma whole_advance C t o : GInv C -> nth_error (th C) t = Some (AtW o) -> wpre c o (idle_world C o) -> exists r C', gstep c C (Some (ELin t (AWhole r))) C'.
Proof.
  intros G Ht P. pose proof (ginv_defined_whole c HC C o O G P) as X.
  assert (forall w, exists bs, put_back C (idle_world C o) w bs) as Hb.
  { intros w. exists (map (fun d => match slot (idle_world C o) d, box C d with None, Some s => Some s
      | _, _ => match slot w d with Some t => Some (MkSh t (map (fun _ => 0) (a_groups (arr t)))) | None => None end end) (seq 0 (length w))).
    unfold put_back. rewrite map_length, seq_length. split; [reflexivity|]. intros d L. rewrite nth_error_map.
    assert (nth_error (seq 0 (length w)) d = Some d) as -> by (rewrite (nth_error_nth' _ 0%nat) by (rewrite seq_length; exact L); rewrite seq_nth by exact L; reflexivity).
    cbn [option_map]. destruct (slot (idle_world C o) d); [|destruct (box C d)]; try reflexivity;
      (destruct (slot w d) as [tw|]; [|reflexivity]; eexists; split; [reflexivity|apply map_length]). }
  destruct (wexec c o (idle_world C o) O) as [v w n|kd w n|] eqn:E; [| |destruct (X eq_refl)]; destruct (Hb w) as [bs Hbs].
  - exists (Done v). eexists. eapply g_whole with (n := O); [exact Ht|exact P|rewrite E; split; reflexivity|exact Hbs].
  - exists (Threw kd). eexists. eapply g_whole with (n := O); [exact Ht|exact P|rewrite E; split; reflexivity|exact Hbs].
Qed.
End Progress.
