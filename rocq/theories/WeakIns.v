(** Insertions in executions of WeakModel.v: an insertion that returned "inserted" has made its key present. *)
From Coq Require Import NArith Bool List Arith Lia ZifyBool ZifyNat ZifyN Permutation.
From Verif Require Import FloatModel SizeModel SizeProofs GroupModel GroupProofs GroupSpec FoaModel FoaGroup FoaBase FoaFind FoaArr FoaInv FoaRehash FoaSpec FoaWorld FoaRun ConcSpec ConcModel ConcInv ConcStep ConcStep2 ConcStep3 ConcSys ConcSys2 ConcLin1 ConcLin3 ConcProps
  WeakModel WeakHb WeakStep WeakEff WeakInv WeakInv2 WeakInv3 WeakDep WeakSee WeakSys WeakSys2 WeakLook WeakLook2 WeakFind.
Import ListNotations.
Local Open Scope N_scope.
Notation set_nth := FoaModel.set_nth.

Section WIns.
Context {K V : Type} (c : Cfg K V) (st : bool).
Hypothesis HC : good_cfg c.
Notation Sh := (@Sh K V).
Notation pop := (pop K V). Notation cop := (cop K V). Notation loc := (@loc K V). Notation cres := (cres K V). Notation eff := (@eff K V).
Notation wact := (@wact K V). Notation wev := (@wev K V). Notation W := (@W K V). Notation conf := (@conf K V). Notation pc := (@pc K V).
Notation hb := (@hb K V st). Notation wstep := (@wstep K V c st). Notation wruns := (@wruns K V c st).
Implicit Type log : list wev. Implicit Type w : W.
Variables (P : conf -> Prop) (n : nat).
Hypothesis HP : forall C, P C -> counters_fit C.

Definition insd (l : loc) : bool := match l with LUnl _ _ RIns | LDone RIns | LRet RIns => true | _ => false end.
Lemma insd_visit (p : pop) g m e ef l a : visit_slot p g m e = Step ef l a -> insd l = false.
Proof.
  unfold visit_slot. destruct p as [x k f|k f|x k v f1 f2]; [destruct (f e) as [v b]|destruct (f e) as [v [[]|]]|destruct (f2 e) as [v' b]]; intros [= <- <- <-]; try reflexivity; destruct b; reflexivity.
Qed.
Lemma step_insd e1 (l1 : loc) a1 e l a : @Step K V e1 l1 a1 = Step e l a -> insd l1 = insd l. Proof. intros H. injection H as _ -> _. reflexivity. Qed.
Lemma insd_step free (s : Sh) o l i thr e l' a : lstep c free s o l i thr = Step e l' a -> insd l' = true ->
  insd l = true \/ exists p x m j v, o = Point p /\ l = LCons x m /\ e = ECell j (Live (pkey p, v)).
Proof.
  intros H D. destruct o as [p|x md f|]; cbn [lstep] in H.
  - destruct l; cbn [pstep] in H; unfold go in H; try discriminate;
      try (injection H as <- <- <-; try discriminate D; left; exact D);
      try (destruct thr; [injection H as <- <- <-; discriminate D|]; destruct p; injection H as <- <- <-; discriminate D);
      try (destruct (nth_error _ _); [|discriminate]; injection H as <- <- <-; try discriminate D; destruct (negb _); discriminate D).
    + destruct (thr && gives_up p); [injection H as <- <- <-; discriminate D|]. destruct u; [destruct m; injection H as <- <- <-; discriminate D|].
      destruct (memb i (n0 :: u)); [|discriminate]. destruct (get_group _ _); [|discriminate]. injection H as <- <- <-. discriminate D.
    + destruct (free _ _); [|discriminate]. injection H as <- <- <-. discriminate D.
    + destruct m; [injection H as <- <- <-; discriminate D|]. destruct (get_group _ _); [|discriminate]. destruct (b_is_occupied _ _); injection H as <- <- <-; discriminate D.
    + destruct (get_cell _ _) as [[| |]|]; try discriminate. destruct thr; [injection H as <- <- <-; discriminate D|]. destruct (keqf _ _ _ _); injection H as <- <- <-; discriminate D.
    + destruct (get_cell _ _) as [[| |]|]; try discriminate. rewrite (insd_visit _ _ _ _ _ _ _ H) in D. discriminate D.
    + destruct (get_group _ _); [|discriminate]. injection H as <- <- <-. discriminate D.
    + destruct kt; [|discriminate]. injection H as <- <- <-. discriminate D.
    + destruct (get_group _ _); [|discriminate]. unfold not_found, go in H. destruct (b_is_not_overflowed _ _); [destruct p; injection H as <- <- <-; discriminate D|].
      destruct (pb_next _ _) as [pb []]; [injection H as <- <- <-; discriminate D|]. destruct p; injection H as <- <- <-; discriminate D.
    + destruct (_ <=? _); injection H as <- <- <-; discriminate D.
    + destruct (free _ _); [|discriminate]. injection H as <- <- <-. discriminate D.
    + destruct (get_group _ _); [|discriminate]. destruct (negb _); injection H as <- <- <-; discriminate D.
    + right. destruct p as [| |x1 k1 v1 f1 f2]; try discriminate. destruct (get_cell _ _) as [[| |]|]; try discriminate. destruct thr; [injection H as <- <- <-; discriminate D|].
      destruct (f1 (k1, v1)) as [v' b]. injection H as <- <- <-. eexists _, _, _, _, _. split; [reflexivity|]. split; reflexivity.
    + destruct q; injection H as <- <- <-; discriminate D.
  - destruct l; cbn [bstep] in H; unfold go in H; try discriminate; try (injection H as <- <- <-; try discriminate D; left; exact D).
    + destruct (get_group _ _); [|discriminate]. injection H as <- <- <-. discriminate D.
    + destruct kt; [discriminate|]. injection H as <- <- <-. discriminate D.
    + destruct (a_elems _); [|injection H as <- <- <-; discriminate D]. destruct (Nat.eqb _ _); [injection H as <- <- <-; discriminate D|]. destruct (free _ _); [|discriminate]. injection H as <- <- <-. discriminate D.
    + destruct (get_group _ _); [|discriminate]. pose proof (step_insd _ _ _ _ _ _ H) as Z. rewrite D in Z. discriminate Z.
    + destruct ms; [injection H as <- <- <-; discriminate D|]. destruct (get_cell _ _) as [[| |]|]; try discriminate. destruct (f _ _) as [v ob]. injection H as <- <- <-.
      destruct (erases md ob); [discriminate D|]. destruct ob; [|discriminate D]. destruct (goes_on _ _); discriminate D.
  - destruct l; cbn [sstep] in H; unfold go in H; try discriminate; injection H as <- <- <-; try discriminate D. left. exact D.
Qed.
Definition Made log (t d : nat) (o : cop) (en : nat) : Prop := exists r0 p x m i v l1 rd, o = Point p /\ (en < r0)%nat /\ nth_error log r0 = Some (t, WLocal d o (LCons x m) (ECell i (Live (pkey p, v))) l1 rd).
Definition InsI w : Prop := forall t d o l, nth_error (th (w_now w)) t = Some (At d o l) -> insd l = true -> exists en, last_call (w_log w) t en d o /\ Made (w_log w) t d o en.
Lemma made_keep log ev t d o en : Made log t d o en -> Made (log ++ [ev]) t d o en.
Proof. intros (r0 & p & x & m & i & v & l1 & rd & H1 & H2 & H3). exists r0, p, x, m, i, v, l1, rd. auto using nth_keep. Qed.
Lemma insi_keep w t x C a : CallI w -> InsI w -> nth_error (th (w_now w)) t = Some x -> (forall d o, a <> WCall d o) ->
  (forall u d o l, u <> t -> nth_error (th C) u = Some (At d o l) -> nth_error (th (w_now w)) u = Some (At d o l)) ->
  (forall d o l, nth_error (th C) t = Some (At d o l) -> insd l = true -> exists l0, x = At d o l0 /\ (insd l0 = true \/ exists p y m i v rd, o = Point p /\ a = WLocal d o (LCons y m) (ECell i (Live (pkey p, v))) l rd)) ->
  InsI (ext w C t a).
Proof.
  intros CI I Ht Na Ho Hs u d o l H D. cbn [ext w_now w_log] in H |- *. destruct (Nat.eq_dec u t) as [->|N].
  - destruct (Hs d o l H D) as (l0 & -> & [D0|(p & y & m & i & v & rd & -> & ->)]).
    + destruct (I t d o l0 Ht D0) as (en & Z1 & Z2). exists en. split; [apply last_call_keep; auto|apply made_keep, Z2].
    + destruct (CI t d _ l0 Ht) as (en & Z1 & _). exists en. split; [apply last_call_keep; auto|]. exists (length (w_log w)), p, y, m, i, v, l, rd.
      split; [reflexivity|]. split; [destruct Z1 as [Z _]; eapply nth_lt; exact Z|apply nth_end].
  - destruct (I u d o l (Ho _ _ _ _ N H) D) as (en & Z1 & Z2). exists en. split; [apply last_call_keep; [exact Z1|congruence]|apply made_keep, Z2].
Qed.
Lemma run_ins w : wruns P n w -> InsI w.
Proof.
  intros R. induction R as [H|w w' R IH S H].
  - intros t d o l E. cbn [w_now th] in E. apply nth_error_In in E. apply repeat_spec in E. discriminate.
  - pose proof (run_calls c st P n w R) as CI. destruct S as [t d o s Ht Hb Hmk|t d o l s so rd i thr e l' a s' Ht Hb Se Es Em Ec Hrd Hs Ha|t d o s k t' n' cn Ht Hb Hal Hr Hc|t d o s k kd t' n' cn Ht Hb Hal Hr Hc|
      t d o r Ht|t o Ht|t o k r w' bs Ht Hp He Hbk Hun Hmk Hde|t r Ht|t m Ht Nm|t m Ht].
    + intros u d' o' l' E D. cbn [ext w_now w_log set_th th] in E |- *. destruct (set_cases _ _ _ _ _ _ Ht E) as [[-> Z]|[N Z]].
      * injection Z as -> -> ->. discriminate D.
      * destruct (IH u d' o' l' Z D) as (en & Z1 & Z2). exists en. split; [apply last_call_keep; [exact Z1|congruence]|apply made_keep, Z2].
    + eapply insi_keep; [exact CI|exact IH|exact Ht|discriminate| |].
      * intros u d' o' l2 N E. cbn [set_box set_th th] in E. rewrite others_err in E by exact N. exact E.
      * intros d' o' l2 E D. cbn [set_box set_th th] in E. erewrite self_err in E by exact Ht. injection E as <- <- <-. exists l. split; [reflexivity|].
        destruct (insd_step _ _ _ _ _ _ _ _ _ Hs D) as [Z|(p & x & m & j & v & -> & -> & ->)]; [now left|]. right. exists p, x, m, j, v, rd. auto.
    + eapply insi_keep; [exact CI|exact IH|exact Ht|discriminate| |].
      * intros u d' o' l2 N E. cbn [set_box set_th th] in E. rewrite others_err in E by exact N. exact E.
      * intros d' o' l2 E D. cbn [set_box set_th th] in E. erewrite self_err in E by exact Ht. injection E as <- <- <-. discriminate D.
    + eapply insi_keep; [exact CI|exact IH|exact Ht|discriminate| |].
      * intros u d' o' l2 N E. cbn [set_box set_th th] in E. rewrite others_err in E by exact N. exact E.
      * intros d' o' l2 E D. cbn [set_box set_th th] in E. erewrite self_err in E by exact Ht. injection E as <- <- <-. discriminate D.
    + eapply insi_keep; [exact CI|exact IH|exact Ht|discriminate| |].
      * intros u d' o' l2 N E. cbn [set_th th] in E. rewrite others_err in E by exact N. exact E.
      * intros d' o' l2 E. cbn [set_th th] in E. erewrite self_err in E by exact Ht. discriminate.
    + eapply insi_keep; [exact CI|exact IH|exact Ht|discriminate| |].
      * intros u d' o' l2 N E. cbn [set_th th] in E. rewrite others_err in E by exact N. exact E.
      * intros d' o' l2 E. cbn [set_th th] in E. erewrite self_err in E by exact Ht. discriminate.
    + eapply insi_keep; [exact CI|exact IH|exact Ht|discriminate| |].
      * intros u d' o' l2 N E. cbn [th] in E. rewrite others_err in E by exact N. exact E.
      * intros d' o' l2 E. cbn [th] in E. erewrite self_err in E by exact Ht. discriminate.
    + eapply insi_keep; [exact CI|exact IH|exact Ht|discriminate| |].
      * intros u d' o' l2 N E. cbn [set_th th] in E. rewrite others_err in E by exact N. exact E.
      * intros d' o' l2 E. cbn [set_th th] in E. erewrite self_err in E by exact Ht. discriminate.
    + eapply insi_keep; [exact CI|exact IH|exact Ht|discriminate|auto|]. intros d' o' l2 E. rewrite Ht in E. discriminate.
    + eapply insi_keep; [exact CI|exact IH|exact Ht|discriminate|auto|]. intros d' o' l2 E. rewrite Ht in E. discriminate.
Qed.
(** a call that returned "inserted" has made the key present, in one step *)
Lemma inserted_event w t d p en r : wruns P n w -> nth_error (w_log w) en = Some (t, WCall d (Point p)) -> nth_error (w_log w) r = Some (t, WRet d RIns) ->
  (forall j d' o', (en < j < r)%nat -> nth_error (w_log w) j <> Some (t, WCall d' o')) -> (en < r)%nat ->
  exists i a, (en < i < r)%nat /\ nth_error (w_log w) i = Some (t, a) /\ ~ Present c w d (pkey p) i /\ Present c w d (pkey p) (S i).
Proof.
  intros R Een Er Nc Ler.
  destruct (run_event c st HC P n HP w r _ R Er) as (w1 & w2 & C & R1 & Sp & _ & E2 & L1 & G1 & _). cbn [fst snd] in E2.
  assert (exists o, nth_error (th (w_now w1)) t = Some (At d o (LRet RIns))) as (o & Ht).
  { destruct Sp; injection E2 as E2 E3; try discriminate; apply app_inj_tail in E3 as [_ E3]; try discriminate. injection E3 as -> -> ->. eauto. }
  destruct (run_ins w1 R1 t d o _ Ht eq_refl) as (en1 & [C1 C2] & r0 & p0 & x & m & i & v & l1 & rd & -> & Lr0 & Er0).
  pose proof (nth_lt _ _ _ C1) as Len1. pose proof (nth_lt _ _ _ Er0) as Lr0'. rewrite L1 in Len1, Lr0'.
  assert (en1 = en) as ->.
  { rewrite <- (agrees_log w w1) in C1 by (exact G1 || lia). destruct (Nat.lt_trichotomy en1 en) as [L|[L|L]]; [|exact L|].
    - rewrite (agrees_log w w1) in Een by (exact G1 || lia). destruct (C2 en _ L Een d (Point p) eq_refl).
    - destruct (Nc en1 d (Point p0) ltac:(lia) C1). }
  assert (p0 = p) as -> by (rewrite <- (agrees_log w w1) in C1 by (exact G1 || lia); congruence).
  rewrite <- (agrees_log w w1) in Er0 by (exact G1 || lia).
  destruct (construct_event' c st HC P n HP w r0 t _ d i R Er0 (conj eq_refl eq_refl)) as (s & s' & q & v' & H1 & H2 & H3 & H4 & H5 & H6 & H7 & p1 & l2 & e2 & l2' & rd2 & Ea & ->).
  injection Ea as <- _ _ _ _. exists r0. eexists. split; [lia|]. split; [exact Er0|]. split.
  - intros (s1 & j & e & X1 & X2 & X3). assert (s1 = s) as -> by congruence. rewrite (H7 j e X2) in X3. discriminate.
  - exists s', i, (pkey p, v'). split; [exact H2|]. split; [exact H3|]. rewrite H4. apply H5.
Qed.
End WIns.
