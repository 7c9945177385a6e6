From Coq Require Import NArith ZArith Bool List Arith Lia ZifyBool ZifyNat ZifyN.
From Verif Require Import RwSpinlockModel RwSpinlockProofs Properties_RwSpinlock LocksModel.
Import ListNotations.
Local Open Scope N_scope.

Lemma lockid_eqb_spec a b : reflect (a = b) (lockid_eqb a b).
Proof.
  destruct a as [c k|c k], b as [c' k'|c' k']; cbn; try (constructor; congruence);
    destruct (N.eqb_spec c c'), (N.eqb_spec k k'); cbn; constructor; congruence.
Qed.

(** the lock order: mutexes by (address of the multimutex, index), then groups *)
Definition lt (a b : lockid) : Prop :=
  match a, b with
  | M c k, M c' k' => c < c' \/ (c = c' /\ k < k')
  | M _ _, G _ _ => True
  | G _ _, M _ _ => False
  | G c k, G c' k' => c < c' \/ (c = c' /\ k < k')
  end.
Lemma lt_irrefl a : ~ lt a a. Proof. destruct a; cbn; lia. Qed.
Lemma lt_trans a b c : lt a b -> lt b c -> lt a c. Proof. destruct a, b, c; cbn; lia. Qed.
Lemma lt_total a b : lt a b \/ a = b \/ lt b a.
Proof.
  destruct a as [c k|c k], b as [c' k'|c' k']; cbn.
  - destruct (N.lt_trichotomy c c') as [H|[->|H]]; [lia| |lia]. destruct (N.lt_trichotomy k k') as [H|[->|H]]; [lia|right; left; reflexivity|lia].
  - auto.
  - auto.
  - destruct (N.lt_trichotomy c c') as [H|[->|H]]; [lia| |lia]. destruct (N.lt_trichotomy k k') as [H|[->|H]]; [lia|right; left; reflexivity|lia].
Qed.

Definition covers (h : list (lockid * mode)) (a : work) : Prop :=
  match a with
  | Whole c => forall k, k < N.of_nat mutexes -> In (M c k, Ex) h
  | Peek c => exists k m, k < N.of_nat mutexes /\ In (M c k, m) h
  | Access c g m => In (G c g, m) h /\ exists k m', k < N.of_nat mutexes /\ In (M c k, m') h
  end.
Fixpoint ok (h : list (lockid * mode)) (l : list action) : Prop :=
  match l with
  | [] => h = []
  | Acq x m :: r => (forall y, In y h -> lt (fst y) x) /\ ok ((x, m) :: h) r
  | Rel :: r => match h with [] => False | _ :: h' => ok h' r end
  | Do a :: r => covers h a /\ ok h r
  end.

Definition ent (c : N) (k : nat) : lockid * mode := (M c (N.of_nat k), Ex).
Lemma ok_acq_seq c m : forall a h r, (forall y, In y h -> forall k, (a <= k)%nat -> lt (fst y) (M c (N.of_nat k))) ->
  ok (rev (map (ent c) (seq a m)) ++ h) r -> ok h (map (fun k => Acq (M c (N.of_nat k)) Ex) (seq a m) ++ r).
Proof.
  induction m as [|m IH]; intros a h r B H; [exact H|]. cbn [seq map app ok]. split.
  - intros y Hy. apply B; [exact Hy|lia].
  - apply IH.
    + intros y [<-|Hy] k Hk; [cbn; lia|apply B; [exact Hy|lia]].
    + cbn [seq map rev] in H. rewrite <- app_assoc in H. exact H.
Qed.
Lemma ok_rel k : forall h h' r, length h = k -> ok h' r -> ok (h ++ h') (repeat Rel k ++ r).
Proof. induction k as [|k IH]; intros h h' r L H; destruct h as [|x h]; try discriminate L; [exact H|]. cbn. apply IH; [now injection L|exact H]. Qed.
Lemma len_ent c a m : length (rev (map (ent c) (seq a m))) = m.
Proof. now rewrite rev_length, map_length, seq_length. Qed.
Lemma in_ent c k : k < N.of_nat mutexes -> In (M c k, Ex) (rev (map (ent c) (seq 0 mutexes))).
Proof.
  intros H. apply -> in_rev. apply in_map_iff. exists (N.to_nat k). unfold ent. rewrite N2Nat.id. split; [reflexivity|]. apply in_seq. lia.
Qed.

Lemma ok_groups c k m gs r : forall h, h = [(M c k, m)] -> k < N.of_nat mutexes -> ok h r -> ok h (flat_map (group_section c) gs ++ r).
Proof.
  induction gs as [|[g gm] gs IH]; intros h -> Hk H; [exact H|]. cbn [flat_map app]. rewrite <- app_assoc. cbn [group_section fst snd app ok covers].
  split; [intros y [<-|[]]; exact I|]. split; [split; [now left|exists k, m; split; [exact Hk|right; now left]]|].
  split; [exists k, m; split; [exact Hk|now left]|]. apply IH; auto.
Qed.
Lemma ok_whole c r h : (forall y, In y h -> forall k, lt (fst y) (M c (N.of_nat k))) ->
  ok (rev (map (ent c) (seq 0 mutexes)) ++ h) r -> ok h (mm_lock c ++ r).
Proof. intros B H. apply ok_acq_seq; [intros y Hy k _; apply B; exact Hy|exact H]. Qed.

Lemma plan_ok id t o : ok [] (plan id t o).
Proof.
  destruct o as [c gs|c|x y]; cbn [plan].
  - cbn [app ok]. assert (id t mod N.of_nat mutexes < N.of_nat mutexes) as B by (apply N.mod_lt; discriminate).
    split; [intros y []|]. split; [exists (id t mod N.of_nat mutexes), Sh; split; [exact B|now left]|].
    eapply ok_groups; [reflexivity|exact B|reflexivity].
  - apply ok_whole; [intros y []|]. cbn [app ok covers]. split; [intros k Hk; rewrite app_nil_r; apply in_ent; exact Hk|].
    rewrite <- (app_nil_r mm_unlock). apply ok_rel; [apply len_ent|reflexivity].
  - destruct (N.eqb_spec x y) as [->|Ne].
    + rewrite N.ltb_irrefl. apply ok_whole; [intros z []|]. cbn [app ok covers]. split; [intros k Hk; rewrite app_nil_r; apply in_ent; exact Hk|].
      rewrite <- (app_nil_r mm_unlock). apply ok_rel; [apply len_ent|reflexivity].
    + assert (forall a b, a < b -> (forall k, k < N.of_nat mutexes -> In (M x k, Ex) (rev (map (ent b) (seq 0 mutexes)) ++ rev (map (ent a) (seq 0 mutexes)) ++ []) /\
                                                                      In (M y k, Ex) (rev (map (ent b) (seq 0 mutexes)) ++ rev (map (ent a) (seq 0 mutexes)) ++ [])) ->
        ok [] (mm_lock a ++ mm_lock b ++ [Do (Whole x); Do (Whole y)] ++ mm_unlock ++ mm_unlock)) as Gen.
      { intros a b Hab C. apply ok_whole; [intros z []|]. apply ok_whole.
        - intros z Hz k. rewrite app_nil_r in Hz. apply in_rev in Hz. apply in_map_iff in Hz as (j & <- & _). cbn. left. exact Hab.
        - cbn [app ok covers]. split; [exact (fun k Hk => proj1 (C k Hk))|]. split; [exact (fun k Hk => proj2 (C k Hk))|].
          apply ok_rel; [apply len_ent|]. rewrite <- (app_nil_r mm_unlock). apply ok_rel; [apply len_ent|reflexivity]. }
      destruct (N.ltb_spec x y) as [L|L].
      * apply Gen; [exact L|]. intros k Hk. rewrite app_nil_r. split; apply in_app_iff; [right|left]; apply in_ent; exact Hk.
      * apply Gen; [lia|]. intros k Hk. rewrite app_nil_r. split; apply in_app_iff; [left|right]; apply in_ent; exact Hk.
Qed.

(** where a thread is in a lock, given its guards and its next action *)
Definition calling (m : mode) (p : pc) : Prop :=
  match m with Sh => match p with LockShared | LockSharedCas _ => True | _ => False end | Ex => match p with Lock | LockCas _ | LockPend _ => True | _ => False end end.
Definition pc_ok (s : sys) (t : nat) (l : lockid) (p : pc) : Prop :=
  (forall m, In (l, m) (held s t) -> p = owns m) /\
  ((forall m, ~ In (l, m) (held s t)) -> (exists m r, todo s t = Acq l m :: r /\ calling m p) \/ p = Idle).
Fixpoint sorted (h : list (lockid * mode)) : Prop := match h with [] => True | x :: r => (forall y, In y r -> lt (fst y) (fst x)) /\ sorted r end.
Record SInv (n : nat) (s : sys) : Prop := {
  si_lock : forall l, reachable n (locks s l);
  si_ok : forall t, ok (held s t) (todo s t);
  si_pc : forall t l p, at_ (locks s l) t p -> pc_ok s t l p;
  si_out : forall t, (n <= t)%nat -> held s t = [] /\ todo s t = [];
  si_sorted : forall t, sorted (held s t)
}.

Lemma at_fun cf t p q : at_ cf t p -> at_ cf t q -> p = q.
Proof. unfold at_. congruence. Qed.
Lemma step_other cf t cf' u : step cf t cf' -> u <> t -> nth_error (fst cf') u = nth_error (fst cf) u.
Proof. intros [ts w i p p' w' H T] Ne. cbn [fst]. rewrite (nth_upd _ _ _ _ _ H). destruct (Nat.eqb_spec u i); [contradiction|reflexivity]. Qed.
Lemma step_self cf t cf' : step cf t cf' -> exists p p' , at_ cf t p /\ at_ cf' t p' /\ tstep p (snd cf) p' (snd cf').
Proof. intros [ts w i p p' w' H T]. exists p, p'. split; [exact H|]. split; [|exact T]. unfold at_. cbn [fst]. rewrite (nth_upd _ _ _ _ _ H), Nat.eqb_refl. reflexivity. Qed.
Lemma reach_len n cf : reachable n cf -> length (fst cf) = n.
Proof.
  induction 1 as [|cf i cf' R IH St]; [apply repeat_length|]. destruct St as [ts w i p p' w' H T]. cbn [fst] in *.
  destruct (nth_error_split _ _ H) as (l1 & l2 & -> & <-). unfold upd. rewrite firstn_app, Nat.sub_diag, firstn_all. cbn [firstn]. rewrite app_nil_r.
  rewrite skipn_app, skipn_all2 by lia. replace (S (length l1) - length l1)%nat with 1%nat by lia. cbn [skipn]. cbn [app]. rewrite app_length in *. cbn [length] in *. lia.
Qed.
Lemma reach_at n cf t : reachable n cf -> (t < n)%nat -> exists p, at_ cf t p.
Proof. intros R H. unfold at_. destruct (nth_error (fst cf) t) eqn:E; [eauto|]. apply nth_error_None in E. rewrite (reach_len _ _ R) in E. lia. Qed.
Lemma lt_ok s t l m r : ok (held s t) (todo s t) -> todo s t = Acq l m :: r -> forall m', ~ In (l, m') (held s t).
Proof. intros O E m' I. rewrite E in O. cbn in O. destruct O as [O _]. apply O in I. now apply lt_irrefl in I. Qed.
Lemma sett_same A (f : nat -> A) t x : sett f t x t = x. Proof. unfold sett. now rewrite Nat.eqb_refl. Qed.
Lemma sett_other A (f : nat -> A) t x u : u <> t -> sett f t x u = f u. Proof. intros H. unfold sett. destruct (Nat.eqb_spec u t); [contradiction|reflexivity]. Qed.
Lemma setl_same f l x : setl f l x l = x. Proof. unfold setl. destruct (lockid_eqb_spec l l); [reflexivity|contradiction]. Qed.
Lemma setl_other f l x l' : l' <> l -> setl f l x l' = f l'. Proof. intros H. unfold setl. destruct (lockid_eqb_spec l' l); [contradiction|reflexivity]. Qed.

(** generic preservation: thread t makes step of one lock *)
Lemma lock_step_inv n s t l cf h' r' :
  SInv n s -> step (locks s l) t cf -> ok h' r' -> sorted h' ->
  (forall p, at_ cf t p -> (forall m, In (l, m) h' -> p = owns m) /\ ((forall m, ~ In (l, m) h') -> (exists m r, r' = Acq l m :: r /\ calling m p) \/ p = Idle)) ->
  (forall l' m, l' <> l -> (In (l', m) h' <-> In (l', m) (held s t))) ->
  (forall l' m r, l' <> l -> todo s t = Acq l' m :: r -> r' = Acq l' m :: r) ->
  SInv n {| locks := setl (locks s) l cf; held := sett (held s) t h'; todo := sett (todo s) t r' |}.
Proof.
  intros [IL IO IP IT IS] St O So P Hh Ht. constructor; cbn [locks held todo].
  - intros l'. destruct (lockid_eqb_spec l' l) as [->|Ne]; [rewrite setl_same; eapply r_step; eauto|rewrite setl_other by exact Ne; apply IL].
  - intros u. destruct (Nat.eq_dec u t) as [->|Ne]; [rewrite !sett_same; exact O|rewrite !sett_other by exact Ne; apply IO].
  - intros u l' p A. unfold pc_ok. cbn [held todo]. destruct (lockid_eqb_spec l' l) as [->|Nl].
    + rewrite setl_same in A. destruct (Nat.eq_dec u t) as [->|Ne]; [rewrite !sett_same; apply P; exact A|]. rewrite !sett_other by exact Ne.
      apply IP. unfold at_ in *. rewrite <- (step_other _ _ _ _ St Ne). exact A.
    + rewrite setl_other in A by exact Nl. destruct (Nat.eq_dec u t) as [->|Ne]; [|rewrite !sett_other by exact Ne; apply IP; exact A]. rewrite !sett_same.
      destruct (IP _ _ _ A) as [P1 P2]. split.
      * intros m I. apply P1. apply Hh; assumption.
      * intros NI. destruct P2 as [(m & r & E & C)|E]; [intros m I; apply (NI m), Hh; assumption| |right; exact E].
        left. exists m, r. split; [apply Ht; assumption|exact C].
  - intros u Hu. assert (u <> t) as Ne.
    { intros ->. destruct (step_self _ _ _ St) as (p & _ & A & _). unfold at_ in A. 
      assert (nth_error (fst (locks s l)) t = None) as X by (apply nth_error_None; rewrite (reach_len n _ (IL l)); exact Hu). congruence. }
    rewrite !sett_other by exact Ne. apply IT; exact Hu.
  - intros u. destruct (Nat.eq_dec u t) as [->|Ne]; [rewrite !sett_same; exact So|rewrite !sett_other by exact Ne; apply IS].
Qed.
Lemma sys_ext_inv n s s' : SInv n s -> (forall l, locks s' l = locks s l) -> (forall t, held s' t = held s t) -> (forall t, todo s' t = todo s t) -> SInv n s'.
Proof.
  intros [IL IO IP IT IS] E1 E2 E3. constructor.
  - intros l. rewrite E1. apply IL.
  - intros t. rewrite E2, E3. apply IO.
  - intros t l p A. rewrite E1 in A. unfold pc_ok. rewrite E2, E3. apply IP. exact A.
  - intros t Ht. rewrite E2, E3. apply IT. exact Ht.
  - intros t. rewrite E2. apply IS.
Qed.
Lemma calling_step m p w p' w' : calling m p -> tstep p w p' w' -> calling m p' \/ p' = owns m.
Proof. destruct m; destruct p; intros C; try contradiction C; inversion 1; subst; cbn; auto. Qed.

Lemma sys_inv n id s : sysreach n id s -> SInv n s.
Proof.
  induction 1 as [|s t s' R IH St].
  - constructor; cbn.
    + intros l. constructor.
    + intros t. reflexivity.
    + intros t l p A. apply nth_error_In, repeat_spec in A. split; [intros m []|right; exact A].
    + auto.
    + intros t. exact I.
  - pose proof IH as [IL IO IP IT IS]. destruct St as [o Ht E|a r E|l m r cf E A St A'|l m r cf E A St A'|l m r cf E A St A'|l m h r cf E Eh St].
    + constructor; cbn [locks held todo].
      * exact IL.
      * intros u. destruct (Nat.eq_dec u t) as [->|Ne]; [|rewrite sett_other by exact Ne; apply IO]. rewrite sett_same.
        pose proof (IO t) as O. rewrite E in O. cbn in O. rewrite O. apply plan_ok.
      * intros u l p A. unfold pc_ok. cbn [held todo]. destruct (Nat.eq_dec u t) as [->|Ne]; [|rewrite sett_other by exact Ne; apply IP; exact A]. rewrite sett_same.
        destruct (IP _ _ _ A) as [P1 P2]. split; [exact P1|]. intros NI. destruct (P2 NI) as [(m & r & E' & _)|E']; [congruence|right; exact E'].
      * intros u Hu. assert (u <> t) by lia. rewrite sett_other by assumption. apply IT; exact Hu.
      * exact IS.
    + constructor; cbn [locks held todo].
      * exact IL.
      * intros u. destruct (Nat.eq_dec u t) as [->|Ne]; [|rewrite sett_other by exact Ne; apply IO]. rewrite sett_same.
        pose proof (IO t) as O. rewrite E in O. cbn in O. apply O.
      * intros u l p A. unfold pc_ok. cbn [held todo]. destruct (Nat.eq_dec u t) as [->|Ne]; [|rewrite sett_other by exact Ne; apply IP; exact A]. rewrite sett_same.
        destruct (IP _ _ _ A) as [P1 P2]. split; [exact P1|]. intros NI. destruct (P2 NI) as [(m & r' & E' & _)|E']; [congruence|right; exact E'].
      * intros u Hu. destruct (IT _ Hu) as [H1 H2]. split; [exact H1|]. rewrite sett_other; [exact H2|]. intros ->. congruence.
      * exact IS.
    + eapply sys_ext_inv; [eapply (lock_step_inv n s t l cf (held s t) (todo s t)); eauto| | |]; cbn [locks held todo]; auto.
      * intros p Ap. pose proof (lt_ok s t l m r (IO t) E) as NI. split; [intros m' I; now destruct (NI m')|].
        intros _. left. exists m, r. split; [exact E|]. pose proof (at_fun _ _ _ _ Ap A') as ->. destruct m; exact I.
      * reflexivity.
      * intros u. unfold sett. destruct (Nat.eqb_spec u t); congruence.
      * intros u. unfold sett. destruct (Nat.eqb_spec u t); congruence.
    + eapply sys_ext_inv; [eapply (lock_step_inv n s t l cf (held s t) (todo s t)); eauto| | |]; cbn [locks held todo]; auto.
      * intros p Ap. pose proof (lt_ok s t l m r (IO t) E) as NI. split; [intros m' I; now destruct (NI m')|].
        intros _. left. exists m, r. split; [exact E|]. destruct (step_self _ _ _ St) as (q & q' & B & B' & T). pose proof (at_fun _ _ _ _ Ap B') as ->.
        destruct (IP _ _ _ B) as [_ P2]. destruct (P2 NI) as [(m' & r' & E' & C)|E']; [|exfalso; apply A; rewrite <- E'; exact B].
        rewrite E in E'. injection E' as <- <-. destruct (calling_step _ _ _ _ _ C T) as [C'|C']; [exact C'|]. exfalso. apply A'. rewrite <- C'. exact B'.
      * reflexivity.
      * intros u. unfold sett. destruct (Nat.eqb_spec u t); congruence.
      * intros u. unfold sett. destruct (Nat.eqb_spec u t); congruence.
    + eapply lock_step_inv; eauto.
      * pose proof (IO t) as O. rewrite E in O. cbn in O. apply O.
      * split; [|apply IS]. pose proof (IO t) as O. rewrite E in O. cbn in O. apply O.
      * intros p Ap. pose proof (at_fun _ _ _ _ Ap A') as ->. split.
        -- intros m' [Em|I]; [injection Em as <-; reflexivity|]. now destruct (lt_ok s t l m r (IO t) E m').
        -- intros NI. exfalso. apply (NI m). now left.
      * intros l' m' Nl. split; [intros [Em|I]; [congruence|exact I]|intros I; now right].
      * intros l' m' r' Nl E'. congruence.
    + assert (forall m', ~ In (l, m') h) as NI.
      { intros m' I. pose proof (IS t) as So. rewrite Eh in So. destruct So as [So _]. apply So in I. now apply lt_irrefl in I. }
      eapply lock_step_inv; eauto.
      * pose proof (IO t) as O. rewrite E, Eh in O. cbn in O. exact O.
      * pose proof (IS t) as So. rewrite Eh in So. apply So.
      * intros p Ap. split; [intros m' I; now destruct (NI m')|]. intros _. right.
        destruct (step_self _ _ _ St) as (q & q' & B & B' & T). destruct (IP _ _ _ B) as [P1 _]. rewrite (P1 m) in T by (rewrite Eh; now left).
        pose proof (at_fun _ _ _ _ Ap B') as ->. destruct m; inversion T; reflexivity.
      * intros l' m' Nl. rewrite Eh. split; [intros I; now right|intros [Em|I]; [congruence|exact I]].
      * intros l' m' r' Nl E'. congruence.
Qed.
