(** Bulk visitation: results, locks, progress. *)
From Coq Require Import NArith Bool List Arith Lia Permutation.
From Verif Require Properties_Conc.
From Verif Require Import FloatModel SizeModel SizeProofs GroupModel GroupSpec FoaModel FoaGroup FoaBase FoaFind FoaArr FoaInv FoaRehash FoaSpec FoaWorld FoaRun
  ConcSpec ConcModel ConcInv ConcStep ConcStep2 ConcStep3 ConcSys ConcSys2 ConcLin1 ConcLin2 ConcLin3 ConcVisit ConcProps ConcLog ConcFound ConcProgress
  ConcBulkSpec ConcBulkModel ConcBulk ConcBulk2 ConcBulk3 ConcBulk4 ConcBulk5.
Import ListNotations.
Notation set_nth := FoaModel.set_nth.

Section Bulk6.
Context {K V : Type} (c : Cfg K V).
Hypothesis HC : good_cfg c.
Notation Sh := (@Sh K V).
Notation pop := (pop K V). Notation cop := (cop K V). Notation loc := (@loc K V). Notation cres := (cres K V).
Notation conf := (@conf K V). Notation pc := (@pc K V).
Notation GInv := (GInv c).
Notation event := (event K V).
Notation bcall := (@bcall K V). Notation bconf := (@bconf K V). Notation bevent := (@bevent K V).
Notation gsteps := (steps c counters_fit).
Notation run := (runs_with c counters_fit).
Notation called := (called (K:=K) (V:=V) (keqf c)).

Lemma active_step n nb es0 BC a es BC' u b : bruns c n nb es0 BC -> bstep c BC a es BC' -> nth_error (bulks BC) u = Some (Some b) -> (forall r, ~ In (BRet u r) es) ->
  (forall t x, In t (b_ts b) -> ~ In (ERet t x) (plain es)) /\ exists b', nth_error (bulks BC') u = Some (Some b') /\ same_call b b'.
Proof.
  intros R0 St Hb0 Hr. destruct (breach c HC _ _ _ _ R0) as (R & I & F).
  assert (forall e t x C t0 j thr C', by_thread c C t0 j thr e C' -> ~ In (ERet (K:=K) (V:=V) t x) (plain (opt_ev e))) as Nk.
  { intros e t x C t0 j thr C' Hy Hin. destruct Hy as [d o l s e l' a0 s' H1 H2 H3 H4]. destruct a0; cbn in Hin; [destruct Hin as [Hin|[]]; discriminate Hin|exact Hin]. }
  assert (forall u1 o C, u1 <> u -> exists b', nth_error (bulks (set_b BC C u1 o)) u = Some (Some b') /\ same_call b b') as Oth.
  { intros u1 o C N. exists b. cbn [set_b bulks]. rewrite others_err by congruence. split; [exact Hb0|repeat split]. }
  assert (forall u1 b1 C, nth_error (bulks BC) u1 = Some (Some b1) -> (u1 = u -> same_call b b1) -> exists b', nth_error (bulks (set_b BC C u1 (Some b1))) u = Some (Some b') /\ same_call b b') as Same.
  { intros u1 b1 C H1 H2. destruct (Nat.eq_dec u1 u) as [->|N]; [|apply Oth, N]. exists b1. cbn [set_b bulks]. split; [eapply self_err; exact H1|auto]. }
  assert (forall u1 b1 st C, nth_error (bulks BC) u1 = Some (Some b1) -> exists b', nth_error (bulks (set_b BC C u1 (Some (upd b1 st)))) u = Some (Some b') /\ same_call b b') as Upd.
  { intros u1 b1 st C H1. destruct (Nat.eq_dec u1 u) as [->|N]; [|apply Oth, N]. assert (b1 = b) by congruence. subst b1. exists (upd b st). cbn [set_b bulks]. split; [eapply self_err; exact H1|repeat split]. }
  destruct St as
   [C B e C' H Ho|C B u1 d x keys ts s Hu Hb L ND Hi b1|C B u1 b1 Hu Hs Hk|C B u1 b1 first m i res t j thr e C' l' Hu Hs Hlt Hk Hy Hk'|C B u1 b1 first m res Hu Hs
   |C B u1 b1 first m i res t x v vs mk j e C' Hu Hs Hlt Hk Hy|C B u1 b1 first m i res t x mk Hu Hs Hlt Hk|C B u1 b1 first m res Hu Hs
   |C B u1 b1 first m i res t l j thr e C' Hu Hs Hlt Hk Nd Nt Hy|C B u1 b1 first m i res t r Hu Hs Hlt Hk|C B u1 b1 first m res Hu Hs Hlt
   |C B u1 b1 first m res rs Hu Hs Hge Hk|C B u1 b1 ls Hu Hs Hk|C B u1 b1 r rs Hu Hs Hk]; cbn [bc bulks] in *.
  - split; [|exists b; split; [exact Hb0|repeat split]]. intros t x Ht Hin. destruct (Ho t) as [_ Ho2]; [exists u, b; auto|]. rewrite plain_opt in Hin. destruct e as [e|]; [|exact Hin].
    destruct Hin as [->|[]]. exact (Ho2 _ eq_refl eq_refl).
  - split; [|apply Oth; intros ->; congruence]. intros t x0 Ht Hin. cbn [plain flat_map app] in Hin. fold (plain (map (fun y : nat * (K * ufun K V) => BPlain (ECall (fst y) (OnC d (key_op x (snd y))))) (combine ts keys))) in Hin.
    rewrite (plain_map (fun y : nat * (K * ufun K V) => ECall (fst y) (OnC d (key_op x (snd y))))) in Hin. apply in_map_iff in Hin as (y & E & _). discriminate.
  - split; [intros t x _ []|apply Upd, Hu].
  - split; [intros t0 x _; eapply Nk; exact Hy|apply Upd, Hu].
  - split; [intros t x _ []|apply Upd, Hu].
  - split; [intros t0 x0 _; eapply Nk; exact Hy|]. apply Same; [exact Hu|intros ->; assert (b1 = b) by congruence; subst; repeat split].
  - split; [intros t0 x0 _ []|apply Upd, Hu].
  - split; [intros t x _ []|apply Upd, Hu].
  - split; [intros t0 x0 _; eapply Nk; exact Hy|]. apply Same; [exact Hu|intros ->; assert (b1 = b) by congruence; subst; repeat split].
  - split; [intros t0 x0 _ []|apply Upd, Hu].
  - split; [intros t x _ []|apply Upd, Hu].
  - split; [intros t x _ []|apply Upd, Hu].
  - split; [|apply Upd, Hu]. intros t x _ Hin. unfold plain, give_up_events in Hin. apply in_flat_map in Hin as (y & Hy & Hin). apply in_flat_map in Hy as ([t1 l1] & _ & Hy).
    cbn [fst snd] in Hy. destruct l1; try contradiction Hy; destruct Hy as [<-|[]]; destruct Hin as [Hin|[]]; discriminate Hin.
  - assert (u1 <> u) as N by (intros ->; exact (Hr r (or_introl eq_refl))). split; [|apply Oth, N]. intros t x Ht Hin. cbn [plain flat_map app] in Hin.
    fold (plain (map (fun y : nat * cres => BPlain (ERet (K:=K) (V:=V) (fst y) (AnsC (snd y)))) (combine (b_ts b1) rs))) in Hin.
    rewrite (plain_map (fun y : nat * cres => ERet (fst y) (AnsC (snd y)))) in Hin. apply in_map_iff in Hin as ([t1 r1] & E & Hc). cbn [fst snd] in E. injection E as -> _.
    apply in_combine_l in Hc. apply N. eapply (bi_disj _ I); cbn [bulks]; eassumption.
Qed.
Lemma active_steps n nb es0 BC1 tr BC u b : bruns c n nb es0 BC1 -> bsteps c BC1 tr BC -> nth_error (bulks BC1) u = Some (Some b) -> (forall r, ~ In (BRet u r) tr) ->
  (forall t x, In t (b_ts b) -> ~ In (ERet t x) (plain tr)) /\ exists b', nth_error (bulks BC) u = Some (Some b') /\ same_call b b'.
Proof.
  intros R H Hb. induction H as [|es1 C1 a es2 C2 H IH St F]; intros Hr; [split; [intros t x _ []|exists b; split; [exact Hb|repeat split]]|].
  destruct IH as (N1 & b1 & H1 & (E1 & E2 & E3 & E4)); [intros r Hi; apply (Hr r), in_or_app; auto|].
  destruct (active_step n nb _ C1 a es2 C2 u b1 (bruns_trans c _ _ _ _ _ _ R H) St H1) as (N2 & b2 & H2 & (F1 & F2 & F3 & F4)); [intros r Hi; apply (Hr r), in_or_app; auto|].
  split.
  - intros t x Ht Hin. rewrite plain_app in Hin. apply in_app_or in Hin as [Hin|Hin]; [exact (N1 t x Ht Hin)|]. apply (N2 t x); [rewrite E4; exact Ht|exact Hin].
  - exists b2. split; [exact H2|]. repeat split; congruence.
Qed.
(** the results of a call *)
Lemma total_many rs : total rs = how_many (K:=K) (V:=V) rs.
Proof. unfold total, how_many. induction rs as [|r rs IH]; [reflexivity|]. cbn [map list_sum fold_right filter found]. unfold list_sum in IH. rewrite IH. destruct r; reflexivity. Qed.
Lemma ret_map (rs rs' : list cres) : map (@LRet K V) rs = map LRet rs' -> rs = rs'.
Proof. revert rs'. induction rs as [|r rs IH]; intros [|r' rs'] E; try discriminate; [reflexivity|]. cbn in E. injection E as -> E. f_equal. auto. Qed.
Theorem results n nb es BC u r ev BC' : bruns c n nb es BC -> bstep c BC (By u) ev BC' -> In (BRet u r) ev -> exists b rs,
  nth_error (bulks BC) u = Some (Some b) /\ ev = BRet u r :: map (fun y => BPlain (ERet (fst y) (AnsC (snd y)))) (combine (b_ts b) rs) /\ length rs = length (b_keys b) /\ length (b_ts b) = length (b_keys b) /\
  match r with
  | Some m => Forall no_throw rs /\ m = how_many rs
  | None => exists rs1 k, rs = rs1 ++ repeat RThrew k /\ Forall no_throw rs1
  end.
Proof.
  intros R0 St Hin. destruct (breach c HC _ _ _ _ R0) as (R & I & F). destruct (ret_inv c _ _ _ _ _ St Hin) as (b & rs & Hu & Hs & Hk & ->). destruct (bi_ok _ I u b Hu) as (L & ND & S).
  exists b, rs. split; [exact Hu|]. split; [reflexivity|]. pose proof (keys_len _ _ _ Hk) as Lr. rewrite map_length in Lr. split; [exact Lr|]. split; [exact L|]. unfold StOK in S. rewrite Hs in S. destruct r as [m|].
  - destruct S as (rs1 & K1 & K2 & K3). pose proof (ret_map _ _ (keys_uniq _ _ _ _ K1 Hk)) as ->. split; [exact K2|]. rewrite K3. apply total_many.
  - destruct S as (rs1 & k & K1 & K2). pose proof (ret_map _ _ (keys_uniq _ _ _ _ K1 Hk)) as <-. eauto.
Qed.
(** a call that nothing interferes with *)
Theorem visits_in_turn n nb es0 BC0 u d x keys ts ev1 BC1 tr BC r ev2 BC2 s : bruns c n nb es0 BC0 -> bstep c BC0 (By u) ev1 BC1 -> In (BCall u d x keys ts) ev1 -> counters_fit (bc BC1) ->
  bsteps c BC1 tr BC -> (forall r, ~ In (BRet u r) tr) -> (forall t a, In (BPlain (ELin t a)) tr -> In t ts) -> bstep c BC (By u) ev2 BC2 -> In (BRet u r) ev2 -> box (bc BC0) d = Some s ->
  exists s' rs k, box (bc BC) d = Some s' /\ pid (tb s') = pid (tb s) /\ ev2 = BRet u r :: map (fun y => BPlain (ERet (fst y) (AnsC (snd y)))) (combine ts (rs ++ repeat RThrew k)) /\ length (rs ++ repeat RThrew k) = length keys /\
  match r with
  | Some m => k = 0%nat /\ Forall no_throw rs /\ m = how_many rs /\ in_turn (keqf c) (moves c) (pid (tb s)) x keys rs (elems (A s)) (elems (A s'))
  | None => k <> 0%nat /\ Forall no_throw rs /\ exists l1, in_turn (keqf c) (moves c) (pid (tb s)) x (firstn (length rs) keys) rs (elems (A s)) l1 /\
      (Permutation l1 (elems (A s')) \/ exists kf e, nth_error keys (length rs) = Some kf /\ called (pid (tb s)) (fst kf) x (snd kf) e None l1 (elems (A s')))
  end.
Proof.
  intros R0 S1 In1 F1 H Nr Hl S2 In2 Hb. destruct (call_inv c _ _ _ _ _ _ _ _ S1 In1) as (s0 & Hb0 & Lt & ND & Hidle & E1 & Hn). assert (s0 = s) by congruence. subst s0.
  pose proof (br_snoc c _ _ _ _ _ _ _ R0 S1 F1) as R1. set (b := BCallOf d x keys ts BWaiting) in *.
  assert (nth_error (bulks BC1) u = Some (Some b)) as Hu1 by (rewrite E1; cbn [set_b bulks]; eapply self_err; exact Hn).
  assert (keys_at b (bc BC1) (repeat LEnter (length keys))) as K1.
  { rewrite E1. cbn [set_b bc]. apply (keys_place b); [apply repeat_length|exact Lt|exact ND|]. cbn [b b_ts]. intros t Ht. rewrite (Hidle t Ht). discriminate. }
  assert (box (bc BC1) d = Some s) as Hb1 by (rewrite E1; cbn [set_b bc]; unfold box; rewrite place_boxes; exact Hb).
  assert (Seq c (pid (tb s)) (elems (A s)) b (bc BC1)) as Sq1.
  { exists s. split; [exact Hb1|]. split; [reflexivity|]. cbn [b b_st b_x b_keys]. exists (repeat LEnter (length keys)). split; [exact K1|].
    replace (map res_of (repeat LEnter (length keys))) with (map (fun _ : K * ufun K V => @None cres) keys); [apply turn_start|]. clear. induction keys as [|kf keys IH]; [reflexivity|]. cbn [map length repeat]. rewrite IH. reflexivity. }
  assert (forall t a, In (ELin t a) (plain tr) -> In t ts) as Hl'.
  { intros t a Hi. unfold plain in Hi. apply in_flat_map in Hi as (y & Hy & Hi). destruct y; cbn in Hi; [destruct Hi as [->|[]]; eapply Hl; exact Hy|contradiction|contradiction]. }
  destruct (seq_steps c HC _ _ _ _ _ _ u b (pid (tb s)) (elems (A s)) R1 H Hu1 Sq1 Hl' Nr) as (b' & Hu' & (D1 & D2 & D3 & D4) & Sq).
  destruct (active_steps _ _ _ _ _ _ u b R1 H Hu1 Nr) as (Nret & _). cbn [b b_ts] in Nret.
  destruct (results _ _ _ _ _ _ _ _ (bruns_trans c _ _ _ _ _ _ R1 H) S2 In2) as (b2 & rs & Hu2 & Ev & Lr & L2 & Hres). assert (b2 = b') by congruence. subst b2.
  destruct (ret_inv c _ _ _ _ _ S2 In2) as (b2 & rs2 & Hu3 & Hs & Hk & Ev2). assert (b2 = b') by congruence. subst b2.
  cbn [b b_d b_x b_keys b_ts] in D1, D2, D3, D4.
  assert (rs2 = rs) as ->.
  { pose proof (keys_len _ _ _ Hk) as Lk. rewrite map_length in Lk. rewrite Ev in Ev2. injection Ev2 as Ev2. clear - Ev2 Lk Lr L2. revert Lr L2 Lk Ev2. generalize (b_ts b') (b_keys b'). clear. intros ts keys Lr L2 Lk. assert (length rs = length ts) as La by congruence. assert (length rs2 = length ts) as Lb by congruence. clear keys Lr L2 Lk.
    revert rs rs2 La Lb. induction ts as [|t ts IH]; intros [|r rs] [|r2 rs2] La Lb E; try discriminate; [reflexivity|]. cbn [combine map fst snd] in E. injection E as E1 E2. f_equal; [congruence|]. apply IH; auto. }
  clear Ev2 Hu3. destruct (breach c HC _ _ _ _ R1) as (Rb1 & _ & _). pose proof (bsteps_gsteps c HC _ _ _ _ _ _ R1 H) as Gs.
  assert (forall t, In t ts -> exists j, nth_error ts j = Some t /\ exists kf, nth_error keys j = Some kf /\ nth_error (th (bc BC1)) t = Some (ConcModel.At d (Point (PVisit x (fst kf) (snd kf))) LEnter)) as Pos.
  { intros t Ht. apply In_nth_error in Ht as [j Hj]. exists j. split; [exact Hj|]. assert (j < length keys)%nat as Lj by (rewrite <- Lt; apply nth_error_Some; congruence).
    assert (nth_error (repeat (@LEnter K V) (length keys)) j = Some LEnter) as El by (clear - Lj; revert j Lj; induction (length keys) as [|q IH]; intros j H; [lia|]; destruct j as [|j]; [reflexivity|]; apply IH; lia).
    destruct (proj2 K1 j LEnter El) as (t1 & kf & T1 & T2 & T3). cbn [b b_ts b_keys b_d b_x] in *. assert (t1 = t) by congruence. subst t1. exists kf. auto. }
  assert (forall j kf, nth_error keys j = Some kf -> nth_error rs j = Some RNone -> absent (keqf c) (pid (tb s)) (fst kf) (elems (A s))) as Abs.
  { intros j kf Hj Hrn. destruct (nth_error ts j) as [t|] eqn:Et; [|apply nth_error_None in Et; assert (j < length keys)%nat by (apply nth_error_Some; congruence); lia].
    assert (In t ts) as Hin by (eapply nth_error_In; exact Et). destruct (Pos t Hin) as (j' & Ej' & kf' & Ek' & Hat).
    assert (j' = j) as -> by (eapply NoDup_nth_error; [exact ND|apply nth_error_Some; congruence|congruence]). assert (kf' = kf) by congruence. subst kf'.
    destruct (proj2 Hk j (LRet RNone)) as (t1 & kf1 & T1 & T2 & T3); [rewrite nth_error_map, Hrn; reflexivity|]. assert (t1 = t) by congruence. subst t1. assert (kf1 = kf) by congruence. subst kf1.
    rewrite D1, D2 in T3. unfold key_op in T3. eapply (absent_chain c HC n _ (bc BC1) d s ts (plain tr) (bc BC) t x (fst kf) (snd kf)); [exact Rb1|exact Hb1|exact Gs| |exact Nret|exact Hl'|exact Hin|exact Hat|exact T3].
    intros t2 Ht2. destruct (Pos t2 Ht2) as (j2 & _ & kf2 & _ & Hat2). eauto 6. }
  destruct Sq as (s' & Hb' & Hp' & Q). rewrite Hs in Q. rewrite D1 in Hb'. rewrite D2, D3 in Q. rewrite D3 in Lr. rewrite D4 in Ev. destruct r as [m|].
  - destruct Hres as [Hn1 Hm]. destruct Q as (rs' & Q1 & Q2). pose proof (ret_map _ _ (keys_uniq _ _ _ _ Q1 Hk)) as ->.
    exists s', rs, 0%nat. cbn [repeat]. rewrite app_nil_r. split; [exact Hb'|]. split; [exact Hp'|]. split; [exact Ev|]. split; [exact Lr|]. split; [reflexivity|]. split; [exact Hn1|]. split; [exact Hm|].
    apply turn_in_turn; assumption.
  - destruct Q as (rs1 & ys & l1 & Q1 & Q2 & Q3 & Q4 & Q5). cbn match in Q1. destruct Hres as (rs3 & k3 & Er & Fr).
    pose proof (keys_uniq _ _ _ _ Q1 Hk) as Ek.
    assert (exists zs, rs = rs1 ++ zs /\ ys = map LRet zs) as (zs & Ez1 & Ez2).
    { clear - Ek. revert rs Ek. induction rs1 as [|r rs1 IH]; intros rs E; cbn [map app] in E; [exists rs; auto|]. destruct rs as [|r' rs]; [discriminate|]. cbn [map] in E. injection E as -> E. destruct (IH rs E) as (zs & -> & ->). exists zs. auto. }
    destruct Q3 as [Nz Fz]. rewrite Ez2 in Nz, Fz. assert (zs = repeat RThrew (length zs)) as Ezs.
    { clear - Fz. induction zs as [|z zs IH]; [reflexivity|]. cbn [map] in Fz. inversion Fz; subst. cbn [length repeat]. f_equal; [congruence|auto]. }
    exists s', rs1, (length zs). rewrite <- Ezs, <- Ez1. split; [exact Hb'|]. split; [exact Hp'|]. split; [exact Ev|]. split; [exact Lr|]. split; [destruct zs; [destruct (Nz eq_refl)|discriminate]|]. split; [exact Q2|].
    exists l1. split; [|exact Q5]. apply turn_in_turn; [exact Q4|exact Q2|]. intros j kf Hj Hrn. apply (Abs j kf).
    + assert (j < length rs1)%nat as Lj by (apply nth_error_Some; congruence). rewrite nth_firstn in Hj by exact Lj. exact Hj.
    + rewrite Ez1. rewrite nth_error_app1; [exact Hrn|apply nth_error_Some; congruence].
Qed.


(** *** locks *)
Lemma locked_is_current (b : bcall) (C : conf) j t l o g x : StOK b C -> key_at b C j t l -> lock_of o l = Some (g, x) -> exists first m i res, b_st b = BRun first m Visiting i res /\ (i < m)%nat /\ j = (first + i)%nat.
Proof.
  intros S Hk Lk. unfold StOK in S. destruct (b_st b) as [|first m ph i res| |[res|]].
  - apply (keys_get _ _ _ _ _ _ S) in Hk. apply repeat_get in Hk. subst l. discriminate Lk.
  - destruct S as (rs & ys & k & Sk & Sn & Sr & R1 & R2 & R3 & R4 & R5). apply (keys_get _ _ _ _ _ _ Sk) in Hk.
    assert (forall zs j, Forall is_scan zs -> nth_error zs j <> Some l) as Ns.
    { intros zs j0 Fz E. apply nth_error_In in E. rewrite Forall_forall in Fz. destruct (Fz _ E) as (? & ? & ? & ->). discriminate Lk. }
    assert (forall n j, nth_error (repeat LHash n) j <> Some l) as Nh by (intros n0 j0 E; apply repeat_get in E; subst l; discriminate Lk).
    assert (forall rs j, nth_error (map LDone rs) j <> Some l) as Nd by (intros rs0 j0 E; rewrite nth_error_map in E; destruct (nth_error rs0 j0); [|discriminate E]; injection E as <-; discriminate Lk).
    destruct (Nat.lt_ge_cases j (length (map (@LDone K V) rs))) as [La|La]; [rewrite nth_error_app1 in Hk by exact La; destruct (Nd _ _ Hk)|]. rewrite nth_error_app2 in Hk by exact La. rewrite map_length in *.
    destruct (Nat.lt_ge_cases (j - length rs) (length ys)) as [Lb|Lb]; [rewrite nth_error_app1 in Hk by exact Lb|rewrite nth_error_app2 in Hk by exact Lb; destruct (Nh _ _ Hk)].
    destruct ph; [destruct R5 as (_ & _ & R5); destruct (Ns _ _ R5 Hk)|destruct R5 as (_ & _ & R5); destruct (Ns _ _ R5 Hk)|]. destruct R5 as (R5 & R6 & R7). destruct ys as [|y zs]; [cbn in Lb; lia|].
    destruct (j - length rs)%nat as [|q] eqn:Eq; cbn [nth_error] in Hk; [|destruct R7 as (_ & _ & R7); destruct (Ns _ _ R7 Hk)].
    exists first, m, i, res. split; [reflexivity|]. cbn [length] in *. split; lia.
  - destruct S as (rs & ys & Sk & Sn & Sy). apply (keys_get _ _ _ _ _ _ Sk), nth_error_In, in_app_or in Hk as [Hk|Hk].
    + apply in_map_iff in Hk as (r & <- & _). discriminate Lk.
    + rewrite Forall_forall in Sy. destruct (Sy _ Hk) as [->|[->|(? & ? & ? & ->)]]; discriminate Lk.
  - destruct S as (rs & Sk & _). apply (keys_get _ _ _ _ _ _ Sk), nth_error_In, in_map_iff in Hk as (r & <- & _). discriminate Lk.
  - destruct S as (rs & k & Sk & _). apply (keys_get _ _ _ _ _ _ Sk), nth_error_In, in_map_iff in Hk as (r & <- & _). discriminate Lk.
Qed.
Lemma owned_key (BC : bconf) u (b : bcall) t : BInv BC -> nth_error (bulks BC) u = Some (Some b) -> In t (b_ts b) -> exists j l, key_at b (bc BC) j t l.
Proof.
  intros I Hu Ht. destruct (bi_ok _ I u b Hu) as (L & ND & S). destruct (stok_keys _ _ S) as [ls Hls]. apply In_nth_error in Ht as [j Hj].
  assert (j < length (b_ts b))%nat as Lj by (apply nth_error_Some; congruence). destruct (nth_error ls j) as [l|] eqn:El; [|apply nth_error_None in El; rewrite (keys_len _ _ _ Hls) in El; lia].
  destruct (proj2 Hls j l El) as (t1 & Hk). exists j, l. assert (t1 = t) as <- by (destruct Hk as (kf & T1 & _); congruence). exact Hk.
Qed.
Theorem one_lock n nb es BC u b t t' p p' : bruns c n nb es BC -> nth_error (bulks BC) u = Some (Some b) -> In t (b_ts b) -> In t' (b_ts b) ->
  nth_error (th (bc BC)) t = Some p -> nth_error (th (bc BC)) t' = Some p' ->
  (exists d o l g x, p = ConcModel.At d o l /\ lock_of o l = Some (g, x)) -> (exists d o l g x, p' = ConcModel.At d o l /\ lock_of o l = Some (g, x)) -> t = t'.
Proof.
  intros R0 Hu T1 T2 H1 H2 (d & o & l & g & x & -> & L1) (d' & o' & l' & g' & x' & -> & L2). destruct (breach c HC _ _ _ _ R0) as (R & I & F). destruct (bi_ok _ I u b Hu) as (L & ND & S).
  destruct (owned_key _ _ _ _ I Hu T1) as (j & l1 & K1). destruct (owned_key _ _ _ _ I Hu T2) as (j' & l1' & K1').
  assert (l1 = l) as -> by (destruct K1 as (kf & _ & _ & E); congruence). assert (l1' = l') as -> by (destruct K1' as (kf & _ & _ & E); congruence).
  destruct (locked_is_current _ _ _ _ _ _ _ _ S K1 L1) as (f1 & m1 & i1 & r1 & E1 & _ & ->). destruct (locked_is_current _ _ _ _ _ _ _ _ S K1' L2) as (f2 & m2 & i2 & r2 & E2 & _ & ->).
  rewrite E1 in E2. injection E2 as <- <- <- <-. destruct K1 as (kf & Z1 & _). destruct K1' as (kf' & Z1' & _). congruence.
Qed.

(** *** progress *)
Lemma by_advance C t d o l : GInv C -> counters_fit C -> nth_error (th C) t = Some (ConcModel.At d o l) -> l <> LFull -> (forall r, l <> LRet r) ->
  match waits o l with Some (g, x) => free_for C t d g x = true | None => True end -> exists e C', by_thread c C t (pick l) false e C'.
Proof.
  intros G NW Ht Nf Nr Hw. destruct (gi_at _ _ G _ _ _ _ Ht) as [s Hb]. pose proof (ginv_defined c C t d o l s G NW Ht Hb Nf Nr (pick l) false) as X.
  pose proof (not_blocked c (free_for C t d) s o l false Hw) as Y. destruct (lstep c (free_for C t d) s o l (pick l) false) as [| |e l' a] eqn:E; [destruct (Y eq_refl)|destruct X|].
  destruct (apply e s) as [s'|] eqn:Ea; [|destruct (X eq_refl)]. eexists _, _. eapply by_thread_intro; eassumption.
Qed.
(** a call in progress, of a range or of a single key, makes a step *)
Definition call_moves (BC : bconf) : Prop :=
  (exists u b ev BC', nth_error (bulks BC) u = Some (Some b) /\ bstep c BC (By u) ev BC') \/
  (exists t d o l ev BC', ~ owned (bulks BC) t /\ nth_error (th (bc BC)) t = Some (ConcModel.At d o l) /\ bstep c BC Other ev BC' /\ nth_error (th (bc BC')) t <> Some (ConcModel.At d o l)).
(** a call in progress makes a step, or waits for a group *)
Lemma bulk_advance n nb es BC u b : bruns c n nb es BC -> nth_error (bulks BC) u = Some (Some b) ->
  (exists ev BC', bstep c BC (By u) ev BC') \/
  (exists t d o l g x, In t (b_ts b) /\ nth_error (th (bc BC)) t = Some (ConcModel.At d o l) /\ waits o l = Some (g, x) /\ free_for (bc BC) t d g x = false).
Proof.
  intros R0 Hu. destruct (breach c HC _ _ _ _ R0) as (R & I & F). destruct (bi_ok _ I u b Hu) as (L & ND & S).
  assert (GInv (bc BC)) as G by (eapply (reach_ginv c HC counters_fit); [auto|exact R]). destruct BC as [C B]. cbn [bc bulks] in *.
  assert (forall ls j l, keys_at b C ls -> nth_error ls j = Some l -> exists t, key_at b C j t l) as At1 by (intros ls j l [_ Hk] Hj; exact (Hk j l Hj)).
  pose proof S as S0. unfold StOK in S. destruct (b_st b) as [|first m ph i res| |[res|]] eqn:Hs.
  - left. eexists _, _. eapply b_enter; eassumption.
  - destruct S as (rs & ys & k & Sk & Sn & Sr & R1 & R2 & R3 & R4 & R5). destruct ph.
    + destruct (Nat.eq_dec i m) as [->|N]; [left; eexists _, _; eapply b_hash_end; eassumption|]. left. destruct R5 as (R5 & R6 & R7). destruct k as [|k]; [lia|].
      destruct (At1 _ (first + i)%nat LHash Sk) as [t Hk]; [cbn [repeat]; rewrite app_assoc; replace (first + i)%nat with (length (map (@LDone K V) rs ++ ys)) by (rewrite app_length, map_length; lia); apply nth_mid|].
      pose proof Hk as (kf & Z1 & Z2 & Z3). destruct (by_advance C t _ _ _ G F Z3) as (e & C' & Hy); [discriminate|discriminate|exact Logic.I|].
      destruct (by_key c b C _ t _ _ _ _ _ Hk Hy) as (kf' & s & ef & l1 & a1 & B1 & B2 & B3 & B4 & B5). eexists _, _. eapply b_hash; [exact Hu|exact Hs|lia|exact Hk|exact Hy|exact B5].
    + destruct (Nat.eq_dec i m) as [->|N]; [left; eexists _, _; eapply b_match_end; eassumption|]. left. destruct R5 as (R5 & R6 & R7).
      destruct (nth_error ys i) as [y|] eqn:Ey; [|apply nth_error_None in Ey; lia].
      destruct (At1 _ (first + i)%nat y Sk) as [t Hk]; [rewrite nth_error_app2 by (rewrite map_length; lia); rewrite map_length, nth_error_app1 by lia; rewrite <- Ey; f_equal; lia|].
      assert (is_scan y) as (x & v & mk & ->) by (rewrite Forall_forall in R7; apply R7; eapply nth_error_In; exact Ey).
      destruct v as [|v vs]; [eexists _, _; eapply b_match_next; [exact Hu|exact Hs|lia|exact Hk]|]. pose proof Hk as (kf & Z1 & Z2 & Z3).
      destruct (by_advance C t _ _ _ G F Z3) as (e & C' & Hy); [discriminate|discriminate|exact Logic.I|]. eexists _, _. eapply b_match; [exact Hu|exact Hs| |exact Hk|exact Hy]. lia.
    + destruct R5 as (R5 & R6 & R7). destruct (Nat.eq_dec i m) as [->|N].
      * left. destruct ys as [|y zs]; [|cbn [length] in R6; lia]. destruct (Nat.lt_ge_cases (first + m) (length (b_keys b))) as [Lm|Lm]; [eexists _, _; eapply b_chunk; eassumption|].
        cbn [length app] in *. assert (k = 0)%nat as -> by lia. cbn [repeat] in Sk. rewrite app_nil_r in Sk. eexists _, _. eapply b_end; eassumption.
      * destruct ys as [|y zs]; [cbn [length] in R6; lia|]. destruct R7 as (O1 & O2 & O3). cbn [app] in Sk.
        destruct (At1 _ (first + i)%nat y Sk) as [t Hk]; [replace (first + i)%nat with (length (map (@LDone K V) rs)) by (rewrite map_length; lia); apply nth_mid|].
        assert ((exists r, y = LDone r) \/ forall r, y <> LDone r) as [[r ->]|Nd] by (destruct y; try (right; intros; discriminate); left; eauto).
        -- left. eexists _, _. eapply b_visit_next; [exact Hu|exact Hs|lia|exact Hk].
        -- pose proof Hk as (kf & Z1 & Z2 & Z3). destruct (waits (key_op (b_x b) kf) y) as [[g x]|] eqn:W; [destruct (free_for C t (b_d b) g x) eqn:Fr|].
           ++ left. destruct (by_advance C t _ _ _ G F Z3) as (e & C' & Hy); [intros ->; discriminate O1|intros r ->; discriminate O1|rewrite W; exact Fr|]. eexists _, _. eapply b_visit; [exact Hu|exact Hs| |exact Hk|exact Nd| |exact Hy]; [lia|auto].
           ++ right. exists t, (b_d b), (key_op (b_x b) kf), y, g, x. split; [eapply nth_error_In; exact Z1|]. auto.
           ++ left. destruct (by_advance C t _ _ _ G F Z3) as (e & C' & Hy); [intros ->; discriminate O1|intros r ->; discriminate O1|rewrite W; exact Logic.I|]. eexists _, _. eapply b_visit; [exact Hu|exact Hs| |exact Hk|exact Nd| |exact Hy]; [lia|auto].
  - left. destruct S as (rs & ys & Sk & _). eexists _, _. eapply b_unwind; eassumption.
  - left. destruct S as (rs & Sk & _). eexists _, _. eapply b_ret; eassumption.
  - left. destruct S as (rs & k & Sk & _). eexists _, _. eapply b_ret; eassumption.
Qed.
Lemma advance_plain n nb es BC t : bruns c n nb es BC -> ~ owned (bulks BC) t -> advances c (bc BC) t -> call_moves BC.
Proof.
  intros R0 No (d & o & l & e & C' & H1 & H2 & H3 & H4). destruct BC as [C B]. cbn [bc bulks] in *. right. exists t, d, o, l, (opt_ev e), (BConf C' B). split; [exact No|]. split; [exact H1|]. split; [|exact H3]. eapply b_plain; [exact H2|]. intros t' Ho.
  assert (t' <> t) as N by (intros ->; exact (No Ho)). split; [apply H4, N|]. intros x -> E. subst t'.
  assert (forall t1 q, nth_error (th C) t1 <> None -> nth_error (set_nth (th C) t1 q) t <> nth_error (th C) t -> t1 = t) as Hc.
  { intros t1 q _ Hd. destruct (Nat.eq_dec t1 t) as [->|N1]; [reflexivity|]. rewrite others_err in Hd by congruence. congruence. }
  rewrite <- H1 in H3. remember (Some x) as ev eqn:Ev.
  destruct H2 as [C t1 d1 o1 s1 E1 Hb|C t1 d1 o1 l1 s1 i thr e l2 a s2 E1 Hb Hst Ha|C t1 d1 o1 s1 n0 t' n' cn E1 Hb Hal Hr Hc1|
    C t1 d1 o1 s1 n0 kd t' n' cn E1 Hb Hal Hr Hc1|C t1 d1 o1 r E1|C t1 o1 E1|C t1 o1 n0 r w bs E1 Hp He Hbk|C t1 r E1]; try discriminate Ev; cbn [set_box set_th th] in H3;
    try (injection Ev as <-; cbn [ev_thread] in N; apply N; eapply Hc; [|exact H3]; congruence).
  destruct a as [a|]; [|discriminate Ev]. cbn in Ev. injection Ev as <-. cbn [ev_thread] in N. apply N. eapply Hc; [|exact H3]. congruence.
Qed.
Lemma owned_dec (B : list (option bcall)) t : owned B t \/ ~ owned B t.
Proof.
  destruct (existsb (fun o => match o with Some b => existsb (Nat.eqb t) (b_ts b) | None => false end) B) eqn:E.
  - left. apply existsb_exists in E as ([b|] & Hb & E); [|discriminate]. apply existsb_exists in E as (t1 & Ht & E). apply Nat.eqb_eq in E. subst t1. apply In_nth_error in Hb as [u Hu]. exists u, b. auto.
  - right. intros (u & b & Hu & Ht). assert (existsb (fun o => match o with Some b => existsb (Nat.eqb t) (b_ts b) | None => false end) B = true); [|congruence].
    apply existsb_exists. exists (Some b). split; [eapply nth_error_In; exact Hu|]. apply existsb_exists. exists t. split; [exact Ht|apply Nat.eqb_refl].
Qed.
(** the holder of a group is not waiting *)
Lemma holder_moves n nb es BC t d o l g x : bruns c n nb es BC -> nth_error (th (bc BC)) t = Some (ConcModel.At d o l) -> lock_of o l = Some (g, x) -> call_moves BC.
Proof.
  intros R0 Ht Lk. destruct (breach c HC _ _ _ _ R0) as (R & I & F). assert (GInv (bc BC)) as G by (eapply (reach_ginv c HC counters_fit); [auto|exact R]).
  assert (l <> LFull) as Nf by (intros ->; discriminate Lk). assert (forall r, l <> LRet r) as Nr by (intros r ->; discriminate Lk).
  destruct (owned_dec (bulks BC) t) as [(u & b & Hu & Hin)|No].
  - destruct (bulk_advance _ _ _ _ _ _ R0 Hu) as [(ev & BC' & H)|(t1 & d1 & o1 & l1 & g1 & x1 & T1 & T2 & T3 & T4)]; [left; eauto 6|].
    destruct (bi_ok _ I u b Hu) as (L & ND & S). destruct (owned_key _ _ _ _ I Hu Hin) as (j & l2 & K1). destruct (owned_key _ _ _ _ I Hu T1) as (j1 & l3 & K2).
    assert (l2 = l) as -> by (destruct K1 as (kf & _ & _ & E); congruence). assert (l3 = l1) as -> by (destruct K2 as (kf & _ & _ & E); congruence).
    destruct (locked_is_current _ _ _ _ _ _ _ _ S K1 Lk) as (first & m & i & res & Es & Hlt & ->).
    (* the current key is not waiting *)
    left. exists u, b. destruct BC as [C B]. cbn [bc bulks] in *. pose proof K1 as (kf & Z1 & Z2 & Z3). destruct (by_advance C t _ _ _ G F Z3 Nf Nr) as (e & C' & Hy).
    { assert (o = key_op (b_x b) kf) as -> by congruence. rewrite (holder_not_waiting _ _ _ _ Lk). exact Logic.I. }
    eexists _, _. split; [exact Hu|]. eapply b_visit; [exact Hu|exact Es|exact Hlt|exact K1|intros r ->; discriminate Lk|auto|exact Hy].
  - eapply advance_plain; [exact R0|exact No|]. eapply local_advance; [exact G|exact F|exact Ht|exact Nf|exact Nr|]. rewrite (holder_not_waiting _ _ _ _ Lk). exact Logic.I.
Qed.
Theorem no_deadlock n nb es BC : bruns c n nb es BC -> (exists u b, nth_error (bulks BC) u = Some (Some b)) \/ (exists t d o l, nth_error (th (bc BC)) t = Some (ConcModel.At d o l)) ->
  call_moves BC.
Proof.
  intros R0 H. destruct (breach c HC _ _ _ _ R0) as (R & I & F). assert (GInv (bc BC)) as G by (eapply (reach_ginv c HC counters_fit); [auto|exact R]).
  assert (forall u b, nth_error (bulks BC) u = Some (Some b) -> call_moves BC) as Bulk.
  { intros u b Hu. destruct (bulk_advance _ _ _ _ _ _ R0 Hu) as [(ev & BC' & Hs)|(t1 & d1 & o1 & l1 & g1 & x1 & T1 & T2 & T3 & T4)]; [left; eauto 6|].
    apply forallb_false in T4 as (p & Hp & Fp). apply others_in in Hp as (t' & N & Hp). unfold allows in Fp. destruct p as [|d' o' l'| |]; try discriminate.
    destruct (lock_of o' l') as [[g' x']|] eqn:Lk; [|discriminate]. eapply holder_moves; eassumption. }
  destruct H as [(u & b & Hu)|(t & d & o & l & Ht)]; [eauto|].
  destruct (some_advance c HC (bc BC) t d o l G F Ht) as (t' & A). destruct (owned_dec (bulks BC) t') as [(u & b & Hu & _)|No]; [eauto|]. eapply advance_plain; eassumption.
Qed.
(** chunks *)
Theorem chunk_fits n nb es BC u b first m ph i res : bruns c n nb es BC -> nth_error (bulks BC) u = Some (Some b) -> b_st b = BRun first m ph i res ->
  (i <= m)%nat /\ (m <= 2 * bulk_visit_size - 1)%nat /\ (first + m <= length (b_keys b))%nat.
Proof.
  intros R0 Hu Hs. destruct (breach c HC _ _ _ _ R0) as (R & I & F). destruct (bi_ok _ I u b Hu) as (L & ND & S). unfold StOK in S. rewrite Hs in S.
  destruct S as (rs & ys & k & Sk & Sn & Sr & R1 & R2 & R3 & R4 & R5). split; [exact R3|]. split; [|exact R2]. rewrite R1. unfold chunk, bulk_visit_size. destruct (Nat.ltb_spec (length (b_keys b) - first) (2 * 16)); lia.
Qed.
End Bulk6.
