(** C34: container-level locks of the concurrent containers, over the atomic-access model of rw_spinlock: any number of threads and containers, any
    sequence of operations of each thread, every interleaving. *)
From Coq Require Import NArith ZArith Bool List Arith Lia ZifyBool ZifyNat ZifyN FinFun.
From Verif Require Import RwSpinlockModel RwSpinlockProofs Properties_RwSpinlock LocksModel LocksProofs.
Import ListNotations.
Local Open Scope N_scope.

(** thread t is about to perform (or is performing) the work a *)
Definition working (s : sys) (t : nat) (a : work) : Prop := exists r, todo s t = Do a :: r.
(** thread t has started an operation and not finished it *)
Definition busy (s : sys) (t : nat) : Prop := todo s t <> [].

Lemma holds_pc n s t l m : SInv n s -> In (l, m) (held s t) -> at_ (locks s l) t (owns m).
Proof.
  intros [IL IO IP IT _] I. destruct (Nat.lt_ge_cases t n) as [L|L].
  - destruct (reach_at _ _ _ (IL l) L) as [p A]. rewrite <- (proj1 (IP _ _ _ A) m I). exact A.
  - destruct (IT _ L) as [E _]. rewrite E in I. destruct I.
Qed.
Lemma ex_excludes n s t u l m : SInv n s -> t <> u -> In (l, Ex) (held s t) -> In (l, m) (held s u) -> False.
Proof.
  intros I Ne A B. apply (holds_pc n s) in A; [|exact I]. apply (holds_pc n s) in B; [|exact I].
  destruct (C32_mutual_exclusion n _ (si_lock _ _ I l)) as [X1 X2]. destruct m; [exact (X2 _ _ A B)|exact (Ne (X1 _ _ A B))].
Qed.
Lemma covers_of n s t a : SInv n s -> working s t a -> covers (held s t) a.
Proof. intros I [r E]. pose proof (si_ok _ _ I t) as O. rewrite E in O. apply O. Qed.
Lemma covers_some h a : covers h a -> exists k m, k < N.of_nat mutexes /\ In (M (on a) k, m) h.
Proof.
  destruct a as [c|c|c g m]; cbn [covers on].
  - intros H. exists 0, Ex. split; [reflexivity|]. apply H. reflexivity.
  - auto.
  - intros [_ H]. exact H.
Qed.

(** while a thread works on a container as a whole (rehash, clear, swap, assignment, merge, ...), no other thread works on it in any way *)
Theorem C34_whole_container_operations_run_alone : forall n id s t u c a, sysreach n id s ->
  working s t (Whole c) -> working s u a -> on a = c -> t = u.
Proof.
  intros n id s t u c a R Wt Wu <-. apply sys_inv in R. destruct (Nat.eq_dec t u) as [E|Ne]; [exact E|exfalso].
  pose proof (covers_of _ _ _ _ R Wt) as C. destruct (covers_some _ _ (covers_of _ _ _ _ R Wu)) as (k & m & Hk & I).
  eapply ex_excludes; [exact R|exact Ne|apply C; exact Hk|exact I].
Qed.
Print Assumptions C34_whole_container_operations_run_alone.
(** while a thread has exclusive access to the elements of a group, no other thread has access to them *)
Theorem C34_exclusive_group_access : forall n id s t u c g m, sysreach n id s ->
  working s t (Access c g Ex) -> working s u (Access c g m) -> t = u.
Proof.
  intros n id s t u c g m R Wt Wu. apply sys_inv in R. destruct (Nat.eq_dec t u) as [E|Ne]; [exact E|exfalso].
  destruct (covers_of _ _ _ _ R Wt) as [C _]. destruct (covers_of _ _ _ _ R Wu) as [D _]. eapply ex_excludes; eauto.
Qed.
Print Assumptions C34_exclusive_group_access.

(** Deadlock freedom. [advances k s t]: running alone, thread t inevitably completes its next action within k of its own steps (steps that are not
    spurious failures of a weak compare-exchange). *)
Definition strong_step n id (s : sys) (t : nat) (s' : sys) : Prop :=
  sysstep n id s t s' /\ forall l m r, todo s t = Acq l m :: r -> ~ spurious (locks s l) (locks s' l) t.
Inductive advances (n : nat) (id : nat -> N) (len : nat) (t : nat) : nat -> sys -> Prop :=
| adv_now k s : (length (todo s t) < len)%nat -> advances n id len t k s
| adv_later k s : (exists s', strong_step n id s t s') -> (forall s', strong_step n id s t s' -> advances n id len t k s') -> advances n id len t (S k) s.

Lemma lift_inevitably n id k : forall s t l m r, todo s t = Acq l m :: r -> (exists p, at_ (locks s l) t p /\ calling m p) ->
  inevitably (fun cf => at_ cf t (owns m)) t k (locks s l) -> advances n id (length (todo s t)) t k s.
Proof.
  intros s t l m r E C V. remember (locks s l) as cf eqn:Ecf. remember (length (todo s t)) as len eqn:El. revert s E C Ecf El.
  induction V as [k cf G|k cf Ex _ IH]; intros s E (p & A & C) Ecf El; subst cf.
  - exfalso. pose proof (at_fun _ _ _ _ A G) as ->. destruct m; exact C.
  - destruct Ex as (cf' & St & NS). destruct (step_self _ _ _ St) as (q & q' & B & B' & T). pose proof (at_fun _ _ _ _ A B) as <-.
    assert (~ at_ (locks s l) t Idle) as NI by (intros X; pose proof (at_fun _ _ _ _ A X) as ->; destruct m; exact C).
    assert (forall m' r', todo s t = Acq l m' :: r' -> m' = m /\ r' = r) as U by (intros m' r' E'; rewrite E in E'; injection E' as <- <-; auto).
    apply adv_later.
    + assert (forall l' m' r', todo s t = Acq l' m' :: r' -> ~ spurious (locks s l') (setl (locks s) l cf' l') t) as NSP.
      { intros l' m' r' E'. rewrite E in E'. injection E' as <- <- <-. rewrite setl_same. exact NS. }
      destruct (calling_step _ _ _ _ _ C T) as [C'|C'].
      * eexists. split; [eapply s_spin; eauto|exact NSP]. intros X. pose proof (at_fun _ _ _ _ B' X) as ->. destruct m; exact C'.
      * eexists. split; [eapply s_acq; eauto|exact NSP]. rewrite <- C'. exact B'.
    + intros s' [SS NSP]. pose proof SS as SS'. destruct SS' as [o Ht' E'|a r' E'|l' m' r' cf E' A' St' A''|l' m' r' cf E' A' St' A''|l' m' r' cf E' A' St' A''|l' m' h r' cf E' Eh St']; try congruence.
      * rewrite E in E'. injection E' as <- <- <-. specialize (NSP l m r E). cbn [locks] in NSP. rewrite setl_same in NSP.
        apply (IH cf); cbn [todo locks]; auto.
        -- split; assumption.
        -- destruct (step_self _ _ _ St') as (q1 & q1' & B1 & B1' & T1). pose proof (at_fun _ _ _ _ A B1) as <-. exists q1'. split; [exact B1'|].
           destruct (calling_step _ _ _ _ _ C T1) as [C'|C']; [exact C'|]. exfalso. apply A''. rewrite <- C'. exact B1'.
        -- now rewrite setl_same.
      * rewrite E in E'. injection E' as <- <- <-. apply adv_now. cbn [todo]. rewrite sett_same, El, E. cbn. lia.
Qed.

Lemma max_exists (P : nat -> lockid -> Prop) : forall n, (forall t l l', P t l -> P t l' -> l = l') -> (exists t l, (t < n)%nat /\ P t l) ->
  (forall t, (t < n)%nat -> {l | P t l} + {forall l, ~ P t l}) ->
  exists t l, (t < n)%nat /\ P t l /\ forall u l', (u < n)%nat -> P u l' -> ~ lt l l'.
Proof.
  intros n U E D. revert E. induction n as [|n IH]; intros (t & l & Ht & Hl); [lia|].
  assert (forall t, (t < n)%nat -> {l | P t l} + {forall l, ~ P t l}) as D' by (intros; apply D; lia).
  specialize (IH D').
  destruct (D n) as [[ln Hn]|Nn]; [lia| |].
  - destruct (Nat.eq_dec n 0) as [->|N0].
    + exists 0%nat, ln. split; [lia|]. split; [exact Hn|]. intros u l' Hu Hl'. assert (u = 0)%nat as -> by lia. rewrite (U _ _ _ Hn Hl'). apply lt_irrefl.
    + assert ({ x : nat * lockid | (fst x < n)%nat /\ P (fst x) (snd x)} + {forall t l, (t < n)%nat -> ~ P t l}) as [[[t0 l0] [H0 P0]]|None].
      { clear IH Hn Hl t l Ht N0. induction n as [|n IHn]; [right; intros; lia|]. destruct IHn as [[x [X1 X2]]|No].
        - intros; apply D; lia.
        - intros; apply D'; lia.
        - left. exists x. split; [lia|exact X2].
        - destruct (D' n) as [[l Hl]|Nl]; [lia|left; exists (n, l); split; [cbn; lia|exact Hl]|right]. intros t l Ht. destruct (Nat.eq_dec t n) as [->|Ne]; [apply Nl|apply No; lia]. }
      * destruct IH as (t1 & l1 & H1 & P1 & Mx); [exists t0, l0; auto|].
        destruct (lt_total l1 ln) as [L|[->|L]].
        -- exists n, ln. split; [lia|]. split; [exact Hn|]. intros u l' Hu Hl' G. destruct (Nat.eq_dec u n) as [->|Ne].
           ++ rewrite (U _ _ _ Hn Hl') in G. now apply lt_irrefl in G.
           ++ apply (Mx u l'); [lia|exact Hl'|]. eapply lt_trans; eauto.
        -- exists t1, ln. split; [lia|]. split; [exact P1|]. intros u l' Hu Hl' G. destruct (Nat.eq_dec u n) as [->|Ne].
           ++ rewrite (U _ _ _ Hn Hl') in G. now apply lt_irrefl in G.
           ++ apply (Mx u l'); [lia|exact Hl'|exact G].
        -- exists t1, l1. split; [lia|]. split; [exact P1|]. intros u l' Hu Hl' G. destruct (Nat.eq_dec u n) as [->|Ne].
           ++ rewrite (U _ _ _ Hl' Hn) in G. eapply lt_irrefl, lt_trans; eauto.
           ++ apply (Mx u l'); [lia|exact Hl'|exact G].
      * exists n, ln. split; [lia|]. split; [exact Hn|]. intros u l' Hu Hl' G. destruct (Nat.eq_dec u n) as [->|Ne].
        -- rewrite (U _ _ _ Hn Hl') in G. now apply lt_irrefl in G.
        -- apply (None u l'); [lia|exact Hl'].
  - destruct IH as (t1 & l1 & H1 & P1 & Mx).
    + exists t, l. split; [|exact Hl]. destruct (Nat.eq_dec t n) as [->|Ne]; [now destruct (Nn l)|lia].
    + exists t1, l1. split; [lia|]. split; [exact P1|]. intros u l' Hu Hl'. destruct (Nat.eq_dec u n) as [->|Ne]; [now destruct (Nn l')|apply (Mx u l'); [lia|exact Hl']].
Qed.

Lemma adv_mono n id len v : forall k s, advances n id len v k s -> advances n id len v (S k) s.
Proof. intros k s A. induction A; [now apply adv_now|]. apply adv_later; auto. Qed.
(** whatever the threads have acquired so far, if some operation is unfinished then some thread completes its next action when it runs *)
Theorem C34_no_deadlock : forall n id s t, sysreach n id s -> busy s t -> exists u, busy s u /\ advances n id (length (todo s u)) u 4 s.
Proof.
  intros n id s t R B. pose proof (sys_inv _ _ _ R) as I. pose proof I as [IL IO IP IT IS].
  assert (forall u, busy s u -> (u < n)%nat) as LT.
  { intros u Bu. destruct (Nat.lt_ge_cases u n) as [L|L]; [exact L|]. destruct (IT u L) as [_ X]. now destruct Bu. }
  (* somebody with no lock to wait for *)
  assert ((exists u, (u < n)%nat /\ exists a r, todo s u = a :: r /\ match a with Acq _ _ => False | _ => True end) \/
          (forall u, (u < n)%nat -> match todo s u with Acq _ _ :: _ => True | [] => True | _ => False end)) as [(u & Hu & a & r & E & A)|ALL].
  { clear LT. assert (forall k, (k <= n)%nat -> (exists u, (u < k)%nat /\ exists a r, todo s u = a :: r /\ match a with Acq _ _ => False | _ => True end) \/
      (forall u, (u < k)%nat -> match todo s u with Acq _ _ :: _ => True | [] => True | _ => False end)) as K; [|apply (K n); lia].
    induction k as [|k IHk]; intros Hk; [right; intros; lia|]. destruct IHk as [(u & Hu & X)|X]; [lia|left; exists u; split; [lia|exact X]|].
    destruct (todo s k) as [|[l m| |a] r] eqn:E.
    - right. intros u Hu. destruct (Nat.eq_dec u k) as [->|Ne]; [now rewrite E|apply X; lia].
    - right. intros u Hu. destruct (Nat.eq_dec u k) as [->|Ne]; [now rewrite E|apply X; lia].
    - left. exists k. split; [lia|]. exists Rel, r. split; [exact E|exact Logic.I].
    - left. exists k. split; [lia|]. exists (Do a), r. split; [exact E|exact Logic.I]. }
  - exists u. split; [intros X; congruence|]. destruct a as [l m| |a]; [contradiction A| |].
    + destruct (held s u) as [|[l m] h] eqn:Eh; [exfalso; pose proof (IO u) as O; rewrite E, Eh in O; exact O|].
      assert (at_ (locks s l) u (owns m)) as P by (eapply holds_pc; [exact I|rewrite Eh; now left]).
      apply adv_later.
      * destruct (locks s l) as [ts w] eqn:El. unfold at_ in P. cbn [fst] in P. destruct m.
        -- eexists. split; [eapply (s_rel _ _ _ _ l); eauto; rewrite El; eapply (step_at _ _ _ _ _ _ P), us|intros; congruence].
        -- eexists. split; [eapply (s_rel _ _ _ _ l); eauto; rewrite El; eapply (step_at _ _ _ _ _ _ P), ux|intros; congruence].
      * intros s' [St _]. destruct St; try congruence. rewrite E in H. injection H as <-. apply adv_now. cbn [todo]. rewrite sett_same, E. cbn. lia.
    + apply adv_later.
      * eexists. split; [eapply s_do; eauto|intros; congruence].
      * intros s' [St _]. destruct St; try congruence. rewrite E in H. injection H as <- <-. apply adv_now. cbn [todo]. rewrite sett_same, E. cbn. lia.
  - (* everybody waits: take the highest lock waited for *)
    set (P := fun u l => exists m r, todo s u = Acq l m :: r).
    destruct (max_exists P n) as (u & l & Hu & (m & r & E) & Mx).
    + intros u l l' (m & r & E) (m' & r' & E'). congruence.
    + exists t. specialize (ALL t (LT t B)). destruct (todo s t) as [|[l m| |a] r] eqn:E; try contradiction ALL; [now destruct B|].
      exists l. split; [apply LT; exact B|]. exists m, r. exact E.
    + intros u Hu. specialize (ALL u Hu). destruct (todo s u) as [|[l m| |a] r] eqn:E; try (right; intros l' (m' & r' & E'); congruence).
      left. exists l, m, r. exact E.
    + assert (forall v m', ~ In (l, m') (held s v)) as FREE.
      { intros v m' Iv. pose proof (IO v) as O. destruct (Nat.lt_ge_cases v n) as [Hv|Hv]; [|destruct (IT v Hv) as [X _]; rewrite X in Iv; exact Iv].
        pose proof (ALL v Hv) as A. destruct (todo s v) as [|[l' m''| |a] r'] eqn:Ev; try contradiction A.
        - cbn in O. rewrite O in Iv. exact Iv.
        - cbn in O. destruct O as [O _]. apply O in Iv. apply (Mx v l' Hv); [exists m'', r'; exact Ev|exact Iv]. }
      assert (no_owner (locks s l)) as NO.
      { intros v. split; intros O; destruct (IP v l _ O) as [_ X]; (destruct X as [(m' & r' & _ & C)|X]; [apply FREE|destruct m'; exact C|discriminate]). }
      (* a thread already inside lock() *)
      assert (forall v, in_lock (locks s l) v -> busy s v /\ advances n id (length (todo s v)) v 3 s) as WR.
      { intros v IN. destruct IN as (q & A & Q). destruct (IP v l q A) as [_ X]. destruct X as [(m' & r' & Ev & C)|X]; [apply FREE| |subst q; contradiction Q].
        assert (m' = Ex) as -> by (destruct m'; [destruct q; try contradiction C; contradiction Q|reflexivity]).
        split; [intros Y; congruence|]. eapply lift_inevitably; [exact Ev|exists q; split; [exact A|exact C]|].
        apply (C33_lock_alone_succeeds n); [apply IL|exact NO|exists q; split; assumption]. }
      assert (forall v, busy s v /\ advances n id (length (todo s v)) v 3 s -> exists v, busy s v /\ advances n id (length (todo s v)) v 4 s) as UP.
      { intros v [Bv Av]. exists v. split; [exact Bv|]. 
        apply adv_mono. exact Av. }
      destruct (reach_at _ _ _ (IL l) Hu) as [q A].
      assert (SInv n s -> (q = Idle \/ calling m q)) as CQ.
      { intros _. destruct (IP u l q A) as [_ X]. destruct X as [(m' & r' & E' & C)|X]; [apply FREE|rewrite E in E'; injection E' as <- <-; auto|auto]. }
      destruct (CQ I) as [-> | C].
      * (* about to call lock or lock_shared *)
        destruct (N.testbit (snd (locks s l)) 30) eqn:Pend.
        { destruct (C33_pending_mark_has_a_writer n _ (IL l) Pend) as [_ [v V]]. apply (UP v), WR. exact V. }
        exists u. split; [intros X; congruence|]. apply adv_later.
        -- destruct (locks s l) as [ts w] eqn:El. assert (step (locks s l) u (upd ts u (entry m), w)) as S1.
           { rewrite El. apply (step_at _ _ _ _ _ _ A). destruct m; constructor. }
           eexists. split; [eapply s_call; [exact E|rewrite El; exact A|exact S1|unfold at_; cbn [fst]; eapply upd_same; exact A]|].
           intros l' m' r' E' [_ X]. rewrite E in E'. injection E' as <- <- <-. unfold at_pc in X. unfold at_ in A. rewrite El in X. cbn [fst snd] in *. rewrite A in X.
           destruct X as [X|[X|X]]; discriminate.
        -- intros s' [SS _]. destruct SS as [o Ht' E'|a r' E'|l' m' r' cf E' A' St' A''|l' m' r' cf E' A' St' A''|l' m' r' cf E' A' St' A''|l' m' h r' cf E' Eh St']; try congruence;
           rewrite E in E'; injection E' as <- <- <-; try (now destruct A').
           change (todo s u) with (todo {| locks := setl (locks s) l cf; held := held s; todo := todo s |} u).
           eapply lift_inevitably; cbn [todo locks]; [exact E|rewrite setl_same; exists (entry m); split; [exact A''|destruct m; exact Logic.I]|].
           rewrite setl_same. pose proof (r_step _ _ _ _ (IL l) St') as R'.
           destruct (step_self _ _ _ St') as (q1 & q1' & B1 & B1' & T1). pose proof (at_fun _ _ _ _ A B1) as <-. pose proof (at_fun _ _ _ _ A'' B1') as <-.
           assert (no_owner cf) as NO'.
           { intros v. destruct (Nat.eq_dec v u) as [->|Ne].
             - split; intros X; pose proof (at_fun _ _ _ _ A'' X) as Y; destruct m; discriminate.
             - unfold owns_exclusive, owns_shared, at_pc. rewrite (step_other _ _ _ _ St' Ne). apply NO. }
           assert (snd cf = snd (locks s l)) as SW by (destruct m; inversion T1; congruence).
           destruct m.
           ++ apply (C33_lock_shared_alone_succeeds n); [exact R'|intros j; apply NO'|unfold writer_pending; rewrite SW; congruence| |exists LockShared; split; [exact A''|exact Logic.I]].
              apply owner_counts in NO' as [_ S0]. rewrite shared_count, S0. reflexivity.
           ++ apply (C33_lock_alone_succeeds n); [exact R'|exact NO'|exists Lock; split; [exact A''|exact Logic.I]].
      * destruct m.
        -- destruct (N.testbit (snd (locks s l)) 30) eqn:Pend.
           { destruct (C33_pending_mark_has_a_writer n _ (IL l) Pend) as [_ [v V]]. apply (UP v), WR. exact V. }
           apply (UP u). split; [intros X; congruence|]. eapply lift_inevitably; [exact E|exists q; split; [exact A|exact C]|].
           apply (C33_lock_shared_alone_succeeds n); [apply IL|intros j; apply NO|unfold writer_pending; congruence| |exists q; split; [exact A|exact C]].
           apply owner_counts in NO as [_ S0]. rewrite shared_count, S0. reflexivity.
        -- apply (UP u), WR. exists q. split; [exact A|exact C].
Qed.
Print Assumptions C34_no_deadlock.

(** * Non-vacuity: thread 0 swaps containers 7 and 3 while thread 1 visits a group of container 9 and thread 2 waits for container 3 *)
Lemma acq_solo n id s t l m r : sysreach n id s -> (t < n)%nat -> todo s t = Acq l m :: r -> at_ (locks s l) t Idle -> snd (locks s l) = 0 ->
  exists s', sysreach n id s' /\ todo s' t = r /\ (forall u, u <> t -> todo s' u = todo s u) /\ (forall l', l' <> l -> locks s' l' = locks s l').
Proof.
  intros R Ht E A W. destruct (locks s l) as [ts w] eqn:El. cbn [snd] in W. subst w. unfold at_ in A. cbn [fst] in A.
  set (s1 := {| locks := setl (locks s) l (upd ts t (entry m), 0); held := held s; todo := todo s |}).
  assert (sysreach n id s1) as R1.
  { eapply sr_step; [exact R|]. eapply s_call; [exact E|rewrite El; exact A|rewrite El; apply (step_at _ _ _ _ _ _ A); destruct m; constructor|unfold at_; cbn [fst]; eapply upd_same; exact A]. }
  set (cas := match m with Sh => LockSharedCas 0 | Ex => LockCas 0 end).
  assert (nth_error (upd ts t (entry m)) t = Some (entry m)) as A1 by (eapply upd_same; exact A).
  set (ts2 := upd (upd ts t (entry m)) t cas).
  assert (nth_error ts2 t = Some cas) as A2 by (eapply upd_same; exact A1).
  set (s2 := {| locks := setl (locks s1) l (ts2, 0); held := held s1; todo := todo s1 |}).
  assert (sysreach n id s2) as R2.
  { eapply sr_step; [exact R1|]. assert (locks s1 l = (upd ts t (entry m), 0)) as L1 by (cbn; apply setl_same).
    eapply s_spin; [exact E|rewrite L1|rewrite L1; apply (step_at _ _ _ _ _ _ A1)|].
    - unfold at_. cbn [fst]. rewrite A1. destruct m; discriminate.
    - destruct m; [now apply ls_load|now apply l_free].
    - unfold at_. cbn [fst]. fold ts2. rewrite A2. destruct m; discriminate. }
  set (w3 := match m with Sh => 1 | Ex => locked_exclusive_mask end).
  eexists. split; [eapply sr_step; [exact R2|]|].
  - assert (locks s2 l = (ts2, 0)) as L2 by (cbn; apply setl_same).
    eapply (s_acq _ _ _ _ l m r (upd ts2 t (owns m), w3)); [exact E|rewrite L2|rewrite L2; apply (step_at _ _ _ _ _ _ A2)|].
    + unfold at_. cbn [fst]. rewrite A2. destruct m; discriminate.
    + destruct m; [exact (ls_ok 0)|exact (l_ok 0)].
    + unfold at_. cbn [fst]. eapply upd_same; exact A2.
  - cbn [todo locks]. split; [apply sett_same|]. split; [intros u Hu; rewrite sett_other by exact Hu; reflexivity|].
    intros l' Hl. rewrite setl_other by exact Hl. unfold s2, s1. cbn [locks]. rewrite !setl_other by exact Hl. reflexivity.
Qed.
Lemma acqs_solo n id t L : forall s r, sysreach n id s -> (t < n)%nat -> NoDup (map fst L) -> todo s t = map (fun x => Acq (fst x) (snd x)) L ++ r ->
  (forall x, In x L -> at_ (locks s (fst x)) t Idle /\ snd (locks s (fst x)) = 0) ->
  exists s', sysreach n id s' /\ todo s' t = r /\ (forall u, u <> t -> todo s' u = todo s u) /\ (forall l', ~ In l' (map fst L) -> locks s' l' = locks s l').
Proof.
  induction L as [|[l m] L IH]; intros s r R Ht ND E F; [exists s; auto|]. inversion ND as [|? ? NI ND']; subst.
  destruct (F (l, m) (or_introl eq_refl)) as [F1 F2]. destruct (acq_solo n id s t l m _ R Ht E F1 F2) as (s1 & R1 & E1 & O1 & L1).
  destruct (IH s1 r R1 Ht ND' E1) as (s2 & R2 & E2 & O2 & L2).
  - intros x Hx. rewrite L1; [apply F; now right|]. intros X. apply NI. rewrite <- X. now apply in_map.
  - exists s2. split; [exact R2|]. split; [exact E2|]. split; [intros u Hu; rewrite O2, O1 by exact Hu; reflexivity|].
    intros l' Hl. rewrite L2, L1; [reflexivity| |]; intros X; apply Hl; [left; symmetry; exact X|right; exact X].
Qed.
Definition mmx (c : N) : list (lockid * mode) := map (fun k => (M c (N.of_nat k), Ex)) (seq 0 mutexes).
Lemma mm_lock_eq c : mm_lock c = map (fun x => Acq (fst x) (snd x)) (mmx c).
Proof. unfold mm_lock, mmx. rewrite map_map. reflexivity. Qed.
Lemma nodup_mm c : NoDup (map fst (mmx c)).
Proof. unfold mmx. rewrite map_map. cbn [fst]. apply Injective_map_NoDup; [|apply seq_NoDup]. intros a b H. injection H as H. lia. Qed.
Lemma in_mm c l : In l (map fst (mmx c)) -> exists k, l = M c k.
Proof. unfold mmx. rewrite map_map. intros H. apply in_map_iff in H as (k & <- & _). eexists; reflexivity. Qed.

Example C34_example : exists s, sysreach 3 (fun t => N.of_nat t) s /\ working s 0 (Whole 7) /\ working s 1 (Access 9 4 Ex) /\
  busy s 2 /\ exists r, todo s 2 = Acq (M 3 0) Ex :: r.
Proof.
  set (id := fun t => N.of_nat t).
  (* thread 0 *)
  assert (sysreach 3 id {| locks := locks (sys0 3); held := held (sys0 3); todo := sett (todo (sys0 3)) 0 (plan id 0 (BiOp 7 3)) |}) as R0
    by (eapply sr_step; [apply sr_init|apply s_start; [lia|reflexivity]]).
  destruct (acqs_solo 3 id 0 (mmx 3 ++ mmx 7) _ ([Do (Whole 7); Do (Whole 3)] ++ mm_unlock ++ mm_unlock) R0) as (s1 & R1 & E1 & O1 & L1).
  { lia. }
  { rewrite map_app. assert (forall a b : list lockid, NoDup a -> NoDup b -> (forall x, In x a -> ~ In x b) -> NoDup (a ++ b)) as NA.
    { clear. intros a b Ha Hb D. induction Ha as [|x a Hx Ha IH]; [exact Hb|]. cbn. constructor.
      - rewrite in_app_iff. intros [X|X]; [now apply Hx|]. apply (D x); [now left|exact X].
      - apply IH. intros y Hy. apply D. now right. }
    apply NA; [apply nodup_mm|apply nodup_mm|]. intros x Hx Hy. apply in_mm in Hx as [k ->]. apply in_mm in Hy as [k' X]. discriminate X. }
  { cbn [todo]. rewrite sett_same. cbn [plan]. rewrite (proj2 (N.ltb_ge 7 3)) by lia. rewrite (proj2 (N.eqb_neq 7 3)) by lia.
    rewrite !mm_lock_eq, map_app, <- !app_assoc. reflexivity. }
  { intros x _. split; reflexivity. }
  (* thread 1 *)
  assert (sysreach 3 id {| locks := locks s1; held := held s1; todo := sett (todo s1) 1 (plan id 1 (ElementOp 9 [(4, Ex)])) |}) as R1'
    by (eapply sr_step; [exact R1|apply s_start; [lia|rewrite O1 by lia; reflexivity]]).
  assert (forall c k, c <> 3 -> c <> 7 -> locks s1 (M c k) = (repeat Idle 3, 0)) as LM.
  { intros c k H3 H7. rewrite L1; [reflexivity|]. rewrite map_app, in_app_iff. intros [X|X]; apply in_mm in X as [k' X]; congruence. }
  assert (forall c g, locks s1 (G c g) = (repeat Idle 3, 0)) as LG.
  { intros c k. rewrite L1; [reflexivity|]. rewrite map_app, in_app_iff. intros [X|X]; apply in_mm in X as [k' X]; congruence. }
  destruct (acqs_solo 3 id 1 [(M 9 1, Sh)] _ (Do (Peek 9) :: Acq (G 9 4) Ex :: Do (Access 9 4 Ex) :: [Rel; Do (Peek 9); Rel]) R1') as (s2 & R2 & E2 & O2 & L2).
  { lia. }
  { repeat constructor; auto. }
  { cbn [todo]. rewrite sett_same. reflexivity. }
  { intros x [<-|[]]. cbn [fst locks]. rewrite LM by discriminate. split; reflexivity. }
  assert (sysreach 3 id {| locks := locks s2; held := held s2; todo := sett (todo s2) 1 (Acq (G 9 4) Ex :: Do (Access 9 4 Ex) :: [Rel; Do (Peek 9); Rel]) |}) as R2'
    by (eapply sr_step; [exact R2|eapply s_do; exact E2]).
  destruct (acqs_solo 3 id 1 [(G 9 4, Ex)] _ (Do (Access 9 4 Ex) :: [Rel; Do (Peek 9); Rel]) R2') as (s3 & R3 & E3 & O3 & L3).
  { lia. }
  { repeat constructor; auto. }
  { cbn [todo]. rewrite sett_same. reflexivity. }
  { intros x [<-|[]]. cbn [fst locks]. rewrite L2 by (intros [X|[]]; discriminate X). cbn [locks]. rewrite LG. split; reflexivity. }
  (* thread 2 *)
  assert (todo s3 2 = []) as T2 by (rewrite O3 by lia; cbn [todo]; rewrite sett_other by lia; rewrite O2 by lia; cbn [todo]; rewrite sett_other by lia; rewrite O1 by lia; reflexivity).
  assert (todo s3 0 = [Do (Whole 7); Do (Whole 3)] ++ mm_unlock ++ mm_unlock) as T0
    by (rewrite O3 by lia; cbn [todo]; rewrite sett_other by lia; rewrite O2 by lia; cbn [todo]; rewrite sett_other by lia; exact E1).
  exists {| locks := locks s3; held := held s3; todo := sett (todo s3) 2 (plan id 2 (WholeOp 3)) |}.
  split; [eapply sr_step; [exact R3|apply s_start; [lia|exact T2]]|]. unfold working, busy. cbn [todo].
  split; [rewrite sett_other by lia; eexists; exact T0|]. split; [rewrite sett_other by lia; eexists; exact E3|].
  rewrite sett_same. split; [discriminate|eexists; reflexivity].
Qed.
