(** The calls of the execution of WeakExamples.v are not explained by any order of the calls that respects the order in each thread. *)
From Coq Require Import NArith Bool List Arith Lia Permutation.
From Verif Require Import SizeModel GroupModel FoaModel FoaArr FoaSpec FoaWorld FoaExamples ConcSpec ConcModel ConcExec ConcWrap ConcWrap2 WeakModel WeakHb WeakSee WeakExec WeakLin WeakExamples.
Import ListNotations.
Local Open Scope N_scope.

Notation astepw := (astep eqw false).
(** the visible events of thread t *)
Definition ev_of (t : nat) (e : ev) : bool := match e with ECall t' _ | ELin t' _ | ERet t' _ => Nat.eqb t' t end.
Definition mine (t : nat) (es : list ev) : list ev := filter (fun e => visible e && ev_of t e) es.
Definition okq (ca : call N N) : Prop := (exists h p al n, ca = Whole (New h p al n)) \/ exists k, ca = OnC 0 (ins1 k) \/ ca = OnC 0 (vis1 k).
Definition has (q : N) (w : world N N) : Prop := exists v e, nth_error w 0 = Some (Some v) /\ In e (v_elems v) /\ fst e = q.
Lemma called_has q p k x f e b (l l' : list (N * N)) : called eqw p k x f e b l l' -> (exists y, In y l /\ fst y = q) -> exists y, In y l' /\ fst y = q.
Proof.
  intros (v & rest & He & _ & P1 & P2) (y & Hy & E). apply (Permutation_in _ P1) in Hy. destruct Hy as [<-|Hy].
  - exists (fst e, if x then v else snd e). split; [apply (Permutation_in _ (Permutation_sym P2)); left; reflexivity|exact E].
  - exists y. split; [|exact E]. apply (Permutation_in _ (Permutation_sym P2)). right. exact Hy.
Qed.
Lemma keeps_has q st t ca done a w w' : okq ca -> takes_effect eqw false st t ca done a w w' -> has q w -> has q w'.
Proof.
  intros O T (v & e & Hv & He & Eq). assert (exists y, In y (v_elems v) /\ fst y = q) as Hq by eauto.
  destruct O as [(h & p & al & n & ->)|(k & [->| ->])]; cbn [takes_effect ins1 vis1] in T.
  - destruct a as [| | |r]; try contradiction. destruct T as [_ T]. cbn [spec] in T. destruct r as [[]|kd]; try contradiction.
    + subst w'. exists v, e. split; [|auto]. rewrite nth_error_app1; [exact Hv|]. apply nth_error_Some. congruence.
    + destruct T as [_ ->]. exists v, e. auto.
  - destruct a as [r| | |]; try contradiction. destruct T as (_ & v0 & l' & Hv0 & Hp & ->). rewrite Hv in Hv0. injection Hv0 as <-.
    assert (exists y, In y l' /\ fst y = q) as (y & Hy & Ey); [|exists (View (v_hash v) (v_pred v) (v_alloc v) l'), y; split; [eapply set0; exact Hv|auto]].
    destruct r; cbn [pspec] in Hp; try contradiction.
    + destruct Hp as [b Hp]. eapply called_has; eassumption.
    + destruct Hp as (v' & b & _ & _ & P). exists e. split; [apply (Permutation_in _ (Permutation_sym P)); right; exact He|exact Eq].
    + destruct Hp as [P|[(e1 & Hp)|[(v' & _ & Hp & _)|(lost & Hp & _)]]]; try discriminate Hp.
      * exists e. split; [apply (Permutation_in _ (Permutation_sym P)); exact He|exact Eq].
      * eapply called_has; eassumption.
  - destruct a as [r| | |]; try contradiction. destruct T as (_ & v0 & l' & Hv0 & Hp & ->). rewrite Hv in Hv0. injection Hv0 as <-.
    assert (exists y, In y l' /\ fst y = q) as (y & Hy & Ey); [|exists (View (v_hash v) (v_pred v) (v_alloc v) l'), y; split; [eapply set0; exact Hv|auto]].
    destruct r; cbn [pspec] in Hp; try contradiction.
    + destruct Hp as [_ P]. exists e. split; [apply (Permutation_in _ (Permutation_sym P)); exact He|exact Eq].
    + destruct Hp as [b Hp]. eapply called_has; eassumption.
    + destruct Hp as [P|(e1 & Hp)]; [|eapply called_has; eassumption]. exists e. split; [apply (Permutation_in _ (Permutation_sym P)); exact He|exact Eq].
Qed.
Lemma order_has q w w' : same_world w w' -> has q w -> has q w'.
Proof.
  intros S (v & e & Hv & He & E). destruct S as [|x y w w' Hxy S]; [discriminate|]. cbn in Hv. injection Hv as ->. destruct y as [v'|]; [|contradiction].
  destruct Hxy as (_ & _ & _ & P). exists v', e. split; [reflexivity|]. split; [eapply Permutation_in; eassumption|exact E].
Qed.
Lemma ins_has st t k done w w' : takes_effect eqw false st t (OnC 0 (ins1 k)) done (APoint RIns) w w' -> has k w'.
Proof.
  cbn [takes_effect ins1 pspec]. intros (_ & v & l' & Hv & (v' & b & Ha & _ & P) & ->).
  exists (View (v_hash v) (v_pred v) (v_alloc v) l'), (k, v'). split; [eapply set0; exact Hv|]. split; [|reflexivity]. apply (Permutation_in _ (Permutation_sym P)). now left.
Qed.
Lemma miss_has st t k done w w' : takes_effect eqw false st t (OnC 0 (vis1 k)) done (APoint RNone) w w' -> ~ has k w.
Proof.
  cbn [takes_effect vis1 pspec]. intros (_ & v & l' & Hv & (Ha & _) & _) (v1 & e & H1 & He & E). rewrite Hv in H1. injection H1 as <-.
  specialize (Ha e He). cbn in Ha. rewrite E, N.eqb_refl in Ha. discriminate.
Qed.

(** where a thread is, that inserts a and then looks up b: 0: a not inserted yet, 1: inserted, 2: b not found *)
Section Thread.
Variables (t : nat) (a b : N).
Definition r1 := [ERet t (AnsC RNone)] : list ev.
Definition r2 := ECall t (OnC 0 (vis1 b)) :: r1.
Definition r3 := ERet t (AnsC RIns) :: r2.
Definition r4 := ECall t (OnC 0 (ins1 a)) :: r3.
Definition phase (x : status N N) (r : list ev) (n : nat) : Prop :=
  ((exists pre, r = pre ++ r4) /\ n = 0%nat) \/
  (x = Pend (OnC 0 (ins1 a)) [] /\ r = r3 /\ n = 0%nat) \/
  (x = Pend (OnC 0 (ins1 a)) [APoint RIns] /\ r = r3 /\ n = 1%nat) \/
  (x = Free /\ r = r2 /\ n = 1%nat) \/
  (x = Pend (OnC 0 (vis1 b)) [] /\ r = r1 /\ n = 1%nat) \/
  (x = Pend (OnC 0 (vis1 b)) [APoint RNone] /\ r = r1 /\ n = 2%nat) \/
  (r = [] /\ n = 2%nat).
(** the thread cannot return the value it should *)
Definition dead (x : status N N) (r : list ev) : Prop := exists p done ac an rest, x = Pend (OnC 0 (Point p)) (ac :: done) /\ r = ERet t an :: rest /\ ~ answers (OnC 0 (Point p)) (ac :: done) an.
Lemma mine_cons e es : mine t (e :: es) = if visible e && ev_of t e then e :: mine t es else mine t es. Proof. reflexivity. Qed.
Lemma dead_end s es s2 : aruns eqw false s es s2 -> dead (as_st s t) (mine t es) -> False.
Proof.
  intros R. induction R as [s|[x w] e [x1 w1] es s2 S R IH|[x w] [x1 w1] es s2 S R IH]; cbn [as_st]; intros (p & done & ac & an & rest & Ex & Er & Na).
  - discriminate Er.
  - rewrite mine_cons in Er. inversion S as [x0 w0 t0 ca Hf|x0 w0 t0 ca dn a0 w0' Hp Ht|x0 w0 t0 ca dn a0 Hp Ha|]; subst; cbn [visible ev_of andb] in Er.
    + destruct (Nat.eqb_spec t0 t) as [->|N]; [congruence|]. apply IH. cbn [as_st]. rewrite upd_other by congruence. exists p, done, ac, an, rest. auto.
    + apply IH. cbn [as_st]. destruct (Nat.eq_dec t0 t) as [->|N].
      * rewrite Ex in Hp. injection Hp as <- <-. cbn [takes_effect] in Ht. destruct a0; try contradiction. destruct Ht as [Ht _]. discriminate Ht.
      * rewrite upd_other by congruence. exists p, done, ac, an, rest. auto.
    + destruct (Nat.eqb_spec t0 t) as [->|N].
      * rewrite Ex in Hp. injection Hp as <- <-. injection Er as -> _. contradiction.
      * apply IH. cbn [as_st]. rewrite upd_other by congruence. exists p, done, ac, an, rest. auto.
  - inversion S; subst. apply IH. cbn [as_st]. exists p, done, ac, an, rest. auto.
Qed.
Lemma pre_cons e pre rest : e :: rest = pre ++ r4 -> (exists pre', rest = pre' ++ r4) \/ (e = ECall t (OnC 0 (ins1 a)) /\ rest = r3).
Proof. destruct pre as [|y pre]; [intros [= -> ->]; auto|]. intros [= -> ->]. eauto. Qed.
(** one step of the machine *)
Lemma phase_step x w e x1 w1 es n : astepw (AS x w) (Some e) (AS x1 w1) -> phase (x t) (mine t (e :: es)) n ->
  dead (x1 t) (mine t es) \/ phase (x1 t) (mine t es) n \/
  (n = 0%nat /\ phase (x1 t) (mine t es) 1 /\ has a w1) \/ (n = 1%nat /\ phase (x1 t) (mine t es) 2 /\ ~ has b w).
Proof.
  intros S P. rewrite mine_cons in P. inversion S as [x0 w0 t0 ca Hf|x0 w0 t0 ca dn a0 w0' Hp Ht|x0 w0 t0 ca dn a0 Hp Ha|]; subst; cbn [visible ev_of andb] in P.
  - destruct (Nat.eqb_spec t0 t) as [->|N]; [|right; left; rewrite upd_other by congruence; exact P]. rewrite upd_same. right. left. rewrite Hf in P. unfold phase in P |- *.
    destruct P as [[(pre & Er) ->]|[(Ex & Er & ->)|[(Ex & Er & ->)|[(Ex & Er & ->)|[(Ex & Er & ->)|[(Ex & Er & ->)|(Er & ->)]]]]]]; try discriminate.
    + destruct (pre_cons _ _ _ Er) as [(pre' & ->)|(Ec & ->)]; [left; eauto|]. injection Ec as ->. right. left. auto.
    + unfold r2 in Er. injection Er as -> ->. do 4 right. left. auto.
  - destruct (Nat.eq_dec t0 t) as [->|N]; [|right; left; rewrite upd_other by congruence; exact P]. rewrite upd_same. rewrite Hp in P. unfold phase in P.
    destruct P as [[(pre & Er) ->]|[(Ex & Er & ->)|[(Ex & Er & ->)|[(Ex & Er & ->)|[(Ex & Er & ->)|[(Ex & Er & ->)|(Er & ->)]]]]]]; try discriminate.
    + right. left. left. eauto.
    + injection Ex as -> ->. destruct a0 as [r| | |]; cbn [takes_effect ins1] in Ht; try contradiction. destruct r; try (cbn [pspec] in Ht; destruct Ht as (_ & ? & ? & _ & [] & _); fail).
      * left. eexists _, [], _, _, _. split; [reflexivity|]. split; [exact Er|]. cbn [answers]. discriminate.
      * right. right. left. split; [reflexivity|]. split; [do 2 right; left; auto|]. apply (ins_has x t a [] w). exact Ht.
      * left. eexists _, [], _, _, _. split; [reflexivity|]. split; [exact Er|]. cbn [answers]. discriminate.
    + injection Ex as -> ->. destruct a0; cbn [takes_effect ins1] in Ht; try contradiction. destruct Ht as [Ht _]. discriminate Ht.
    + injection Ex as -> ->. destruct a0 as [r| | |]; cbn [takes_effect vis1] in Ht; try contradiction. destruct r; try (cbn [pspec] in Ht; destruct Ht as (_ & ? & ? & _ & [] & _); fail).
      * right. right. right. split; [reflexivity|]. split; [do 5 right; left; auto|]. apply (miss_has x t b [] w w1). exact Ht.
      * left. eexists _, [], _, _, _. split; [reflexivity|]. split; [exact Er|]. cbn [answers]. discriminate.
      * left. eexists _, [], _, _, _. split; [reflexivity|]. split; [exact Er|]. cbn [answers]. discriminate.
    + injection Ex as -> ->. destruct a0; cbn [takes_effect vis1] in Ht; try contradiction. destruct Ht as [Ht _]. discriminate Ht.
    + right. left. do 6 right. auto.
  - destruct (Nat.eqb_spec t0 t) as [->|N]; [|right; left; rewrite upd_other by congruence; exact P]. rewrite upd_same. right. left. rewrite Hp in P. unfold phase in P |- *.
    destruct P as [[(pre & Er) ->]|[(Ex & Er & ->)|[(Ex & Er & ->)|[(Ex & Er & ->)|[(Ex & Er & ->)|[(Ex & Er & ->)|(Er & ->)]]]]]]; try discriminate.
    + destruct (pre_cons _ _ _ Er) as [(pre' & ->)|(Ec & ->)]; [left; eauto|discriminate Ec].
    + unfold r3 in Er. injection Er as -> ->. injection Ex as -> ->. cbn [answers ins1] in Ha. discriminate Ha.
    + unfold r3 in Er. injection Er as -> ->. do 3 right. left. auto.
    + unfold r1 in Er. injection Er as -> ->. injection Ex as -> ->. cbn [answers vis1] in Ha. discriminate Ha.
    + unfold r1 in Er. injection Er as -> ->. do 6 right. auto.
Qed.
End Thread.

Lemma phase_nil t a b x n : phase t a b x [] n -> n = 2%nat.
Proof. intros [[(pre & Er) ->]|[(Ex & Er & ->)|[(Ex & Er & ->)|[(Ex & Er & ->)|[(Ex & Er & ->)|[(Ex & Er & ->)|(Er & ->)]]]]]]; try discriminate Er; [destruct pre; discriminate Er|reflexivity]. Qed.
Definition okall (es : list ev) : Prop := forall t ca, In (ECall t ca) es -> okq ca.
Definition oks (x : nat -> status N N) : Prop := forall t ca done, x t = Pend ca done -> okq ca.
Lemma oks_step x w e x1 w1 es : astepw (AS x w) (Some e) (AS x1 w1) -> oks x -> okall (e :: es) -> oks x1 /\ okall es.
Proof.
  intros S O E. split; [|intros t ca H; apply (E t ca); right; exact H]. intros t ca done H.
  inversion S as [st0 w0 t0 ca0 Hf|st0 w0 t0 ca0 done0 a w0' Hp Ht|st0 w0 t0 ca0 done0 a Hp Ha|]; subst; (destruct (Nat.eq_dec t t0) as [->|N]; [rewrite upd_same in H|rewrite upd_other in H by exact N; eapply O; exact H]).
  - injection H as <- <-. apply (E t0 ca0). now left.
  - injection H as <- <-. eapply O; exact Hp.
  - discriminate.
Qed.
Lemma has_step q x w e x1 w1 : astepw (AS x w) (Some e) (AS x1 w1) -> oks x -> has q w -> has q w1.
Proof.
  intros S O H. inversion S as [st0 w0 t0 ca0 Hf|st0 w0 t0 ca0 done0 a w0' Hp Ht|st0 w0 t0 ca0 done0 a Hp Ha|]; subst; auto.
  eapply keeps_has; [eapply O; exact Hp|exact Ht|exact H].
Qed.
Lemma acts_once x w e x1 w1 es a b a' b' t t' n n' : t <> t' -> astepw (AS x w) (Some e) (AS x1 w1) ->
  phase t a b (x t) (mine t (e :: es)) n -> phase t' a' b' (x t') (mine t' (e :: es)) n' ->
  (x1 t = x t /\ mine t (e :: es) = mine t es) \/ (x1 t' = x t' /\ mine t' (e :: es) = mine t' es).
Proof.
  intros N S _ _. rewrite !mine_cons. inversion S as [x0 w0 t0 ca Hf|x0 w0 t0 ca dn a0 w0' Hp Ht|x0 w0 t0 ca dn a0 Hp Ha|]; subst; cbn [visible ev_of andb];
    (destruct (Nat.eq_dec t0 t) as [->|N0]; [right|left]); rewrite upd_other by congruence; (split; [reflexivity|]); try reflexivity; rewrite (proj2 (Nat.eqb_neq _ _)) by congruence; reflexivity.
Qed.
Lemma sb_phases s es s2 t t' a b : t <> t' -> aruns eqw false s es s2 -> oks (as_st s) -> okall es -> forall n n',
  phase t a b (as_st s t) (mine t es) n -> phase t' b a (as_st s t') (mine t' es) n' ->
  (1 <= n -> has a (as_w s))%nat -> (1 <= n' -> has b (as_w s))%nat -> ~ (n = 2 /\ n' = 2)%nat -> False.
Proof.
  intros N R. induction R as [s|[x w] e [x1 w1] es s2 S R IH|[x w] [x1 w1] es s2 S R IH]; intros O E n n' P P' H H' Nb; cbn [as_st as_w] in *.
  - apply Nb. rewrite (phase_nil _ _ _ _ _ P), (phase_nil _ _ _ _ _ P'). auto.
  - destruct (oks_step _ _ _ _ _ _ S O E) as [O1 E1]. specialize (IH O1 E1).
    pose proof (has_step a _ _ _ _ _ S O) as Ka. pose proof (has_step b _ _ _ _ _ S O) as Kb.
    destruct (phase_step t a b _ _ _ _ _ _ _ S P) as [D|Q]; [exact (dead_end t _ _ _ R D)|].
    destruct (phase_step t' b a _ _ _ _ _ _ _ S P') as [D|Q']; [exact (dead_end t' _ _ _ R D)|].
    destruct (acts_once _ _ _ _ _ _ _ _ _ _ _ _ _ _ N S P P') as [[X1 X2]|[X1 X2]].
    + rewrite X1, <- X2 in IH. destruct Q' as [Q'|[(-> & Q' & Hb)|(-> & Q' & Hn)]].
      * exact (IH n n' P Q' (fun h => Ka (H h)) (fun h => Kb (H' h)) Nb).
      * apply (IH n 1%nat P Q'); auto. lia.
      * assert (n = 0%nat) as -> by (destruct n; [reflexivity|destruct Hn; apply H; lia]). apply (IH 0%nat 2%nat P Q'); auto; lia.
    + rewrite X1, <- X2 in IH. destruct Q as [Q|[(-> & Q & Hb)|(-> & Q & Hn)]].
      * exact (IH n n' Q P' (fun h => Ka (H h)) (fun h => Kb (H' h)) Nb).
      * apply (IH 1%nat n' Q P'); auto. lia.
      * assert (n' = 0%nat) as -> by (destruct n'; [reflexivity|destruct Hn; apply H'; lia]). apply (IH 2%nat 0%nat Q P'); auto; lia.
  - inversion S; subst. apply (IH O E n n' P P'); auto; intros L; eapply order_has; eauto.
Qed.

Definition calls0 : list ev := [ECall 0 (Whole (New 0 0 0 20)); ERet 0 (AnsW (Done VUnit)); ECall 0 (OnC 0 (ins1 5)); ERet 0 (AnsC RIns); ECall 0 (OnC 0 (vis1 6)); ERet 0 (AnsC RNone)].
Definition calls1 : list ev := [ECall 1 (OnC 0 (ins1 6)); ERet 1 (AnsC RIns); ECall 1 (OnC 0 (vis1 5)); ERet 1 (AnsC RNone)].
Lemma sb3_calls st : history (w_log (snd (sb3 st))) = firstn 3 calls0 ++ firstn 1 calls1 ++ [ERet 0 (AnsC RIns); ERet 1 (AnsC RIns); ECall 0 (OnC 0 (vis1 6)); ECall 1 (OnC 0 (vis1 5)); ERet 0 (AnsC RNone); ERet 1 (AnsC RNone)].
Proof. destruct st; vm_compute; reflexivity. Qed.
Lemma sb3_mine st t : mine t (history (w_log (snd (sb3 st)))) = match t with O => calls0 | S O => calls1 | _ => [] end.
Proof. rewrite sb3_calls. destruct t as [|[|t]]; reflexivity. Qed.
Lemma mine_visible t (es : list ev) : mine t (filter visible es) = mine t es.
Proof.
  unfold mine. induction es as [|e es IH]; [reflexivity|]. cbn [filter]. destruct (visible e) eqn:E; cbn [filter andb]; rewrite ?E; cbn [andb]; [|exact IH]. rewrite IH. reflexivity.
Qed.
(** no order of the calls *)
Lemma sb_not_explained (h : list ev) : (forall t, mine t h = match t with O => calls0 | S O => calls1 | _ => [] end) -> ~ atomic_history eqw false h.
Proof.
  intros M (es & s & R & ->). assert (forall t, mine t es = match t with O => calls0 | S O => calls1 | _ => [] end) as Me by (intros t; rewrite <- mine_visible; apply M).
  refine (sb_phases _ _ _ 0%nat 1%nat 5 6 _ R _ _ 0%nat 0%nat _ _ _ _ _); cbn [as_st as_w]; try lia.
  - intros t ca done H. discriminate H.
  - intros t ca H. assert (In (ECall t ca) (mine t es)) as H1 by (unfold mine; apply filter_In; cbn [visible ev_of andb]; rewrite Nat.eqb_refl; auto).
    rewrite Me in H1. destruct t as [|[|t]]; [| |destruct H1]; cbn [calls0 calls1 In] in H1; repeat destruct H1 as [H1|H1]; try discriminate; try contradiction; injection H1 as <-; unfold okq; eauto 8.
  - left. split; [|reflexivity]. rewrite Me. exists (firstn 2 calls0). reflexivity.
  - left. split; [|reflexivity]. rewrite Me. exists []. reflexivity.
Qed.
