(** Bulk visitation: a call that nothing interferes with visits its keys in turn. *)
From Coq Require Import NArith Bool List Arith Lia Permutation.
From Verif Require Properties_Conc.
From Verif Require Import FloatModel SizeModel SizeProofs GroupModel GroupSpec FoaModel FoaGroup FoaBase FoaFind FoaArr FoaInv FoaRehash FoaSpec FoaWorld FoaRun
  ConcSpec ConcModel ConcInv ConcStep ConcStep2 ConcStep3 ConcSys ConcSys2 ConcLin1 ConcLin2 ConcLin3 ConcVisit ConcProps ConcLog ConcFound ConcProgress
  ConcBulkSpec ConcBulkModel ConcBulk ConcBulk2 ConcBulk3 ConcBulk4.
Import ListNotations.
Notation set_nth := FoaModel.set_nth.

Section Bulk5.
Context {K V : Type} (c : Cfg K V).
Hypothesis HC : good_cfg c.
Notation Sh := (@Sh K V).
Notation pop := (pop K V). Notation cop := (cop K V). Notation loc := (@loc K V). Notation cres := (cres K V).
Notation conf := (@conf K V). Notation pc := (@pc K V).
Notation GInv := (GInv c).
Notation event := (event K V).
Notation bcall := (@bcall K V). Notation bconf := (@bconf K V). Notation bevent := (@bevent K V).
Notation gsteps := (steps c counters_fit).
Notation run := (runs_with c counters_fit).
Notation called := (called (K:=K) (V:=V) (keqf c)).
Notation turn := (turn c).

(** *** steps that change no contents *)
Definition same_box (C C' : conf) (d : nat) : Prop := forall s, box C d = Some s -> exists s', box C' d = Some s' /\ pid (tb s') = pid (tb s) /\ Permutation (elems (A s)) (elems (A s')).
Lemma same_boxes (C C' : conf) d : boxes C' = boxes C -> same_box C C' d.
Proof. intros E s H. exists s. unfold box in *. rewrite E. auto. Qed.
Lemma quiet_same n es C e C' d : run n es C -> gstep c C e C' -> (forall t a, e <> Some (ELin t a)) -> same_box C C' d.
Proof.
  intros R St Ne s Hb. pose proof (Properties_Conc.C36_other_steps_change_nothing c HC _ _ _ _ _ R St Ne) as W. unfold same_world, Properties_Conc.abstract in W.
  assert (nth_error (boxes C) d = Some (Some s)) as Hn by (unfold box in Hb; destruct (nth_error (boxes C) d); congruence).
  revert W Hn. unfold box. generalize (boxes C) (boxes C'). clear. intros bs. revert d. induction bs as [|b bs IH]; intros d bs' W Hn; [destruct d; discriminate|].
  destruct bs' as [|b' bs']; cbn [map] in W; inversion W; subst. destruct d as [|d]; cbn [nth_error] in *; [|apply (IH d bs' H4 Hn)].
  injection Hn as ->. destruct b' as [s'|]; cbn [option_map] in H2; [|contradiction]. destruct H2 as (_ & H2 & _ & H3). exists s'. cbn in *. auto.
Qed.

(** *** one call *)
Definition Seq (p : N) (l0 : list (K * V)) (b : bcall) (C : conf) : Prop := exists s, box C (b_d b) = Some s /\ pid (tb s) = p /\
  match b_st b with
  | BWaiting | BRun _ _ _ _ _ => exists ls, keys_at b C ls /\ turn p (b_x b) (b_keys b) (map res_of ls) l0 (elems (A s))
  | BOut (Some _) => exists rs, keys_at b C (map LRet rs) /\ turn p (b_x b) (b_keys b) (map Some rs) l0 (elems (A s))
  | BThrown | BOut None => exists rs ys l1, keys_at b C (map (match b_st b with BThrown => LDone | _ => LRet end) rs ++ ys) /\ Forall normal rs /\ (ys <> [] /\ Forall (match b_st b with BThrown => stopped | _ => fun l => l = LRet RThrew end) ys) /\
      turn p (b_x b) (firstn (length rs) (b_keys b)) (map Some rs) l0 l1 /\
      (Permutation l1 (elems (A s)) \/ exists kf e, nth_error (b_keys b) (length rs) = Some kf /\ called p (fst kf) (b_x b) (snd kf) e None l1 (elems (A s)))
  end.
Lemma seq_same p l0 b (C C' : conf) : (forall t, In t (b_ts b) -> nth_error (th C') t = nth_error (th C) t) -> same_box C C' (b_d b) -> Seq p l0 b C -> Seq p l0 b C'.
Proof.
  intros E Sb (s & Hb & Hp & H). destruct (Sb s Hb) as (s' & Hb' & Hp' & Pm). exists s'. split; [exact Hb'|]. split; [congruence|].
  assert (forall ls, keys_at b C ls -> keys_at b C' ls) as Kp by (intros ls; apply keys_same, E).
  destruct (b_st b) as [|first m ph i res| |[res|]].
  - destruct H as (ls & H1 & H2). exists ls. split; [auto|]. eapply turn_perm; eassumption.
  - destruct H as (ls & H1 & H2). exists ls. split; [auto|]. eapply turn_perm; eassumption.
  - destruct H as (rs & ys & l1 & H1 & H2 & H3 & H4 & H5). exists rs, ys, l1. do 4 (split; [auto|]). destruct H5 as [H5|(kf & e & H5 & H6)]; [left; rewrite H5; exact Pm|right; exists kf, e; split; [exact H5|eapply called_perm; eassumption]].
  - destruct H as (rs & H1 & H2). exists rs. split; [auto|]. eapply turn_perm; eassumption.
  - destruct H as (rs & ys & l1 & H1 & H2 & H3 & H4 & H5). exists rs, ys, l1. do 4 (split; [auto|]). destruct H5 as [H5|(kf & e & H5 & H6)]; [left; rewrite H5; exact Pm|right; exists kf, e; split; [exact H5|eapply called_perm; eassumption]].
Qed.
(** at the keys after the current one nothing has happened, and none of the earlier ones has thrown *)
Lemma scan_res (l : loc) : is_scan l -> res_of l = None.
Proof. intros (x & u & m & ->). reflexivity. Qed.
Lemma quiet_none {X} (f : X -> option cres) l : (forall x, In x l -> f x = None) -> Forall quiet (map f l).
Proof. intros H. apply Forall_forall. intros y Hy. apply in_map_iff in Hy as (x & <- & Hx). left. apply H, Hx. Qed.
Lemma normal_res (rs : list cres) : Forall normal rs -> Forall (fun r => r <> Some RThrew) (map (@res_of K V) (map LDone rs)).
Proof. intros H. rewrite map_map. apply (normal_some rs H). Qed.
Lemma scans_res (ys : list loc) : Forall is_scan ys -> Forall (fun r => r <> Some RThrew) (map (@res_of K V) ys).
Proof. intros H. induction H as [|y ys H _ IH]; constructor; auto. rewrite (scan_res _ H). discriminate. Qed.
Lemma around (b : bcall) (C : conf) first m ph i res (ls : list loc) : StOK b C -> b_st b = BRun first m ph i res -> (i < m)%nat -> keys_at b C ls -> exists (As : list loc) l Bs, ls = As ++ l :: Bs /\ length As = (first + i)%nat /\
  Forall (fun r => r <> Some RThrew) (map res_of As) /\ Forall quiet (map res_of Bs).
Proof.
  intros S Hs Hlt Hk. unfold StOK in S. rewrite Hs in S. destruct S as (rs & ys & k & Sk & Sn & Sr & R1 & R2 & R3 & R4 & R5). rewrite <- (keys_uniq _ _ _ _ Sk Hk).
  assert (forall n, Forall quiet (map res_of (repeat (@LHash K V) n))) as Qr by (intros n; apply quiet_none; intros x Hx; apply repeat_spec in Hx; subst; reflexivity).
  assert (forall zs, Forall is_scan zs -> Forall quiet (map res_of zs)) as Qs by (intros zs Hz; apply quiet_none; intros x Hx; apply scan_res; rewrite Forall_forall in Hz; auto).
  destruct ph.
  - destruct R5 as (R5 & R6 & R7). destruct k as [|k]; [lia|]. exists (map LDone rs ++ ys), LHash, (repeat LHash k). split; [rewrite <- app_assoc; reflexivity|].
    split; [rewrite app_length, map_length; lia|]. split; [rewrite map_app; apply Forall_app; split; [apply normal_res, Sn|apply scans_res, R7]|apply Qr].
  - destruct R5 as (R5 & R6 & R7). destruct (nth_error ys i) as [y|] eqn:Ey; [|apply nth_error_None in Ey; lia]. apply nth_error_split in Ey as (Y1 & Y2 & -> & Ly).
    apply Forall_app in R7 as [F1 F2]. inversion F2; subst. exists (map LDone rs ++ Y1), y, (Y2 ++ repeat LHash k). split; [rewrite <- !app_assoc; reflexivity|].
    split; [rewrite app_length, map_length; lia|]. split; [rewrite map_app; apply Forall_app; split; [apply normal_res, Sn|apply scans_res, F1]|]. rewrite map_app. apply Forall_app. auto.
  - destruct R5 as (R5 & R6 & R7). destruct ys as [|y zs]; [cbn [length] in R6; lia|]. destruct R7 as (R7 & R8 & R9). exists (map LDone rs), y, (zs ++ repeat LHash k). split; [reflexivity|].
    split; [rewrite map_length; lia|]. split; [apply normal_res, Sn|]. rewrite map_app. apply Forall_app. auto.
Qed.
(** a step of one key *)
Lemma seq_key p l0 b C C' t j thr e l first m ph i res st : GInv C -> GInv C' -> length (b_ts b) = length (b_keys b) -> NoDup (b_ts b) -> StOK b C -> Seq p l0 b C -> b_st b = BRun first m ph i res -> (i < m)%nat ->
  key_at b C (first + i) t l -> by_thread c C t j thr e C' -> (exists f1 m1 p1 i1 r1, st = BRun f1 m1 p1 i1 r1) -> Seq p l0 (upd b st) C'.
Proof.
  intros G G' Ll ND S (s & Hb & Hp & Q) Hs Hlt Hk Hy (f1 & m1 & p1 & i1 & r1 & ->). rewrite Hs in Q. destruct Q as (ls & Q1 & Q2).
  destruct (around b C first m ph i res ls S Hs Hlt Q1) as (As & l1 & Bs & -> & LA & FA & FB). rewrite <- LA in Hk. pose proof (keys_get _ _ _ _ _ _ Q1 Hk) as Eg. rewrite nth_mid in Eg. injection Eg as ->.
  destruct (key_effect c b C _ t l j thr e C' G G' Hk Hy) as (kf & s0 & s' & l' & K1 & K2 & K3 & K4 & K5 & K6). assert (s0 = s) by congruence. subst s0.
  pose proof (keys_set b C C' _ _ _ t l' Q1 ND Hk (by_thread_others _ _ _ _ _ _ _ Hy) K2) as Q1'.
  exists s'. cbn [upd b_d b_st b_x b_keys]. split; [exact K4|]. split; [congruence|]. exists (As ++ l' :: Bs). split; [exact Q1'|].
  pose proof (keys_len _ _ _ Q1) as Lk. rewrite map_app in Q2 |- *. cbn [map] in Q2 |- *.
  destruct K6 as [(_ & K6 & K7)|(r & _ & N & E1 & E2 & Ps)].
  - rewrite K6. destruct K7 as [->|[[E1 E2]|[E1 E2]]]; [exact Q2| |]; (eapply turn_same; [exact Q2| |]; unfold quiet; auto).
  - rewrite E1. eapply turn_more; [exact Q2|exact FA|rewrite app_length in *; cbn [length] in *; rewrite !map_length; congruence|exact E2|exact FB|rewrite map_length; exact K1|exact N|]. rewrite <- Hp. exact Ps.
Qed.

Definition same_call (b b' : bcall) : Prop := b_d b' = b_d b /\ b_x b' = b_x b /\ b_keys b' = b_keys b /\ b_ts b' = b_ts b.
Lemma same_call_upd (b : bcall) st : same_call b (upd b st).
Proof. repeat split. Qed.
Lemma upd_same (b : bcall) : upd b (b_st b) = b.
Proof. destruct b; reflexivity. Qed.
Lemma by_thread_ev C t i thr C' t' x : by_thread c C t i thr (Some (ELin t' x)) C' -> t' = t.
Proof. intros H. remember (Some (ELin t' x)) as e eqn:E. destruct H. destruct a; [cbn in E; congruence|discriminate]. Qed.
(** another call's step *)
Lemma seq_other p l0 (BC : bconf) u u1 (b b1 : bcall) o (C' : conf) : nth_error (bulks BC) u = Some (Some b) -> u1 <> u -> Seq p l0 b (bc BC) ->
  (forall t, ~ In t (b_ts b1) -> nth_error (th C') t = nth_error (th (bc BC)) t) -> (forall t, In t (b_ts b) -> ~ In t (b_ts b1)) -> same_box (bc BC) C' (b_d b) ->
  exists b', nth_error (bulks (set_b BC C' u1 o)) u = Some (Some b') /\ same_call b b' /\ Seq p l0 b' (bc (set_b BC C' u1 o)).
Proof.
  intros Hu N S Ho D Sb. exists b. cbn [set_b bulks bc]. split; [rewrite others_err by congruence; exact Hu|]. split; [repeat split|]. eapply seq_same; [|exact Sb|exact S]. auto.
Qed.
Lemma rets_same (rs rs' : list cres) : map (@LDone K V) rs = map LDone rs' -> rs = rs'.
Proof. revert rs'. induction rs as [|r rs IH]; intros [|r' rs'] E; try discriminate; [reflexivity|]. cbn in E. injection E as -> E. f_equal. auto. Qed.
Lemma place_other ts (C : conf) ps t : ~ In t ts -> nth_error (th (place C ts ps)) t = nth_error (th C) t.
Proof. apply place_out. Qed.
Theorem seq_step n nb es0 BC a es BC' u b p l0 : bruns c n nb es0 BC -> bstep c BC a es BC' -> counters_fit (bc BC') -> nth_error (bulks BC) u = Some (Some b) -> Seq p l0 b (bc BC) ->
  (forall t x, In (ELin t x) (plain es) -> In t (b_ts b)) -> (forall r, ~ In (BRet u r) es) ->
  exists b', nth_error (bulks BC') u = Some (Some b') /\ same_call b b' /\ Seq p l0 b' (bc BC').
Proof.
  intros R0 St F' Hb0 Sq He Hr. destruct (breach c HC _ _ _ _ R0) as (R & I & F). pose proof (br_snoc c _ _ _ _ _ _ _ R0 St F') as R0'. destruct (breach c HC _ _ _ _ R0') as (R' & I' & _).
  assert (GInv (bc BC)) as G by (eapply (reach_ginv c HC counters_fit); [auto|exact R]). assert (GInv (bc BC')) as G' by (eapply (reach_ginv c HC counters_fit); [auto|exact R']).
  clear R0 R0'.
  assert (forall u1 b1, nth_error (bulks BC) u1 = Some (Some b1) -> u1 <> u -> forall t, In t (b_ts b) -> ~ In t (b_ts b1)) as Dis.
  { intros u1 b1 H1 N t T1 T2. apply N. eapply (bi_disj _ I); eassumption. }
  assert (forall u1 b1 t j e thr C' o ix l, nth_error (bulks BC) u1 = Some (Some b1) -> u1 <> u -> key_at b1 (bc BC) ix t l -> by_thread c (bc BC) t j thr e C' -> es = opt_ev e ->
    exists b', nth_error (bulks (set_b BC C' u1 o)) u = Some (Some b') /\ same_call b b' /\ Seq p l0 b' (bc (set_b BC C' u1 o))) as OtherKey.
  { intros u1 b1 t j e thr C' o ix l Hu N (kf & Z1 & _) Hy Ee. eapply (seq_other p l0 BC u u1 b b1); [exact Hb0|exact N|exact Sq|eapply ts_not; [eapply by_thread_others; exact Hy|exact Z1]|apply (Dis u1 b1 Hu N)|].
    eapply quiet_same; [exact R|eapply by_thread_gstep; exact Hy|]. intros t' x ->. subst es. assert (In t' (b_ts b)) as Ht' by (apply (He t' x); cbn; auto).
    assert (t' = t) as -> by (eapply by_thread_ev; exact Hy). exact (Dis u1 b1 Hu N t Ht' (nth_error_In _ _ Z1)). }
  assert (forall u1 o, u1 <> u -> exists b', nth_error (bulks (set_b BC (bc BC) u1 o)) u = Some (Some b') /\ same_call b b' /\ Seq p l0 b' (bc (set_b BC (bc BC) u1 o))) as OtherSame.
  { intros u1 o N. exists b. cbn [set_b bulks bc]. split; [rewrite others_err by congruence; exact Hb0|]. split; [repeat split|exact Sq]. }
  assert (forall first m ph i res st, nth_error (bulks BC) u = Some (Some b) -> b_st b = BRun first m ph i res -> (exists f1 m1 p1 i1 r1, st = BRun f1 m1 p1 i1 r1) ->
    exists b', nth_error (bulks (set_b BC (bc BC) u (Some (upd b st)))) u = Some (Some b') /\ same_call b b' /\ Seq p l0 b' (bc (set_b BC (bc BC) u (Some (upd b st))))) as Keep.
  { intros first m ph i res st Hu Hs (f1 & m1 & p1 & i1 & r1 & ->). eexists. cbn [set_b bulks bc]. split; [eapply self_err; exact Hu|]. split; [repeat split|].
    destruct Sq as (s & Q1 & Q2 & Q). rewrite Hs in Q. exists s. auto. }
  destruct St as
   [C B e C' H Ho|C B u1 d x keys ts s Hu Hb L ND Hi b1|C B u1 b1 Hu Hs Hk|C B u1 b1 first m i res t j thr e C' l' Hu Hs Hlt Hk Hy Hk'|C B u1 b1 first m res Hu Hs
   |C B u1 b1 first m i res t x v vs mk j e C' Hu Hs Hlt Hk Hy|C B u1 b1 first m i res t x mk Hu Hs Hlt Hk|C B u1 b1 first m res Hu Hs
   |C B u1 b1 first m i res t l j thr e C' Hu Hs Hlt Hk Nd Nt Hy|C B u1 b1 first m i res t r Hu Hs Hlt Hk|C B u1 b1 first m res Hu Hs Hlt
   |C B u1 b1 first m res rs Hu Hs Hge Hk|C B u1 b1 ls Hu Hs Hk|C B u1 b1 r rs Hu Hs Hk]; cbn [bc bulks] in *.
  - exists b. split; [exact Hb0|]. split; [repeat split|]. eapply seq_same; [|eapply quiet_same; [exact R|exact H|]|exact Sq].
    + intros t Ht. apply Ho. exists u, b. auto.
    + intros t x ->. assert (In t (b_ts b)) as Ht by (apply (He t x); cbn; auto). destruct (Ho t) as [_ Ho2]; [exists u, b; auto|]. exact (Ho2 _ eq_refl eq_refl).
  - assert (u1 <> u) as N by (intros ->; congruence). eapply (seq_other p l0 (BConf C B) u u1 b b1); [exact Hb0|exact N|exact Sq|intros t Ht; apply place_out, Ht| |apply same_boxes, place_boxes].
    cbn [b_ts b1]. intros t H1 H2. destruct (bi_ok _ I u b Hb0) as (L1 & ND1 & S1). destruct (stok_keys _ _ S1) as [ls Hls].
    apply In_nth_error in H1 as [j Hj]. assert (j < length (b_ts b))%nat as Lj by (apply nth_error_Some; congruence).
    destruct (nth_error ls j) as [l|] eqn:El; [|apply nth_error_None in El; rewrite (keys_len _ _ _ Hls) in El; lia].
    destruct (proj2 Hls j l El) as (t1 & kf & T1 & T2 & T3). assert (t1 = t) by congruence. subst t1. cbn [bc] in T3. rewrite (Hi t H2) in T3. discriminate.
  - destruct (Nat.eq_dec u1 u) as [->|N].
    2:{ eapply (seq_other p l0 (BConf C B) u u1 b b1); [exact Hb0|exact N|exact Sq|intros t Ht; apply place_out, Ht|apply (Dis u1 b1 Hu N)|apply same_boxes, place_boxes]. }
    assert (b1 = b) by congruence. subst b1. destruct (bi_ok _ I u b Hb0) as (L1 & ND1 & S1).
    exists (upd b (BRun 0 (chunk (length (b_keys b))) Hashing 0 0)). cbn [set_b bulks bc]. split; [eapply self_err; exact Hu|]. split; [repeat split|].
    destruct Sq as (s & Q1 & Q2 & Q). rewrite Hs in Q. destruct Q as (ls & Q3 & Q4). exists s. split; [unfold box; rewrite place_boxes; exact Q1|]. split; [exact Q2|].
    exists (repeat LHash (length (b_keys b))). split; [apply (keys_place b); [apply repeat_length|exact L1|exact ND1|eapply keys_ts_lt; eassumption]|].
    rewrite <- (keys_uniq _ _ _ _ Hk Q3) in Q4. cbn [upd b_x b_keys]. replace (map res_of (repeat LHash _)) with (map res_of (repeat (@LEnter K V) (length (b_keys b)))); [exact Q4|].
    clear. induction (length (b_keys b)) as [|m IH]; [reflexivity|]. cbn [repeat map]. rewrite IH. reflexivity.
  - (* hash *)
    destruct (Nat.eq_dec u1 u) as [->|N]; [|eapply OtherKey; [exact Hu|exact N|exact Hk|exact Hy|reflexivity]].
    assert (b1 = b) by congruence. subst b1. destruct (bi_ok _ I u b Hb0) as (L1 & ND1 & S1). cbn [bc] in *.
    destruct (by_key c b C _ t _ _ _ _ _ Hk Hy) as (kf & s & ef & l1 & a1 & B1 & B2 & B3 & B4 & B5). destruct (key_unique _ _ _ _ _ _ _ Hk' B5) as [_ ->].
    destruct (hash_to _ _ _ _ _ _ _ _ _ _ _ B3) as [[-> ->]|[Sc ->]].
    + exists (upd b BThrown). cbn [set_b bulks bc]. split; [eapply self_err; exact Hu|]. split; [repeat split|].
      destruct Sq as (s0 & Q1 & Q2 & Q). rewrite Hs in Q. destruct Q as (ls & Q3 & Q4). pose proof S1 as S2. unfold StOK in S2. rewrite Hs in S2. destruct S2 as (rs & ys & k & Sk & Sn & Sr & R1 & R2 & R3 & R4 & R5 & R6 & R7).
      rewrite <- (keys_uniq _ _ _ _ Sk Q3) in Q4. assert (s0 = s) by congruence. subst s0.
      assert (length (map LDone rs ++ ys) = first + i)%nat as Len by (rewrite app_length, map_length; lia). destruct k as [|k]; [lia|]. cbn [repeat] in Sk. rewrite app_assoc in Sk. rewrite <- Len in Hk, Hk'.
      pose proof (keys_set b C C' _ _ _ t _ Sk ND1 Hk (by_thread_others _ _ _ _ _ _ _ Hy) Hk') as Sk'. rewrite <- app_assoc in Sk'.
      rewrite map_app, map_map in Q4. cbn [res_of] in Q4. destruct (turn_split c _ _ _ _ _ _ _ Q4 Sn) as (l1 & T1 & T2).
      destruct (key_effect c b C _ t _ _ _ _ C' G G' Hk Hy) as (kf' & s1 & s' & l' & K1 & K2 & K3 & K4 & K5 & _). assert (s1 = s) by congruence. subst s1.
      exists s'. cbn [upd b_d b_st b_x b_keys]. split; [exact K4|]. split; [congruence|]. exists rs, (ys ++ LDone RThrew :: repeat LHash k), l1. split; [exact Sk'|]. split; [exact Sn|].
      split; [split; [destruct ys; discriminate|]; apply Forall_app; split; [eapply Forall_impl; [|exact R7]; unfold stopped; auto|]; constructor; [left; reflexivity|]; apply Forall_forall; intros y Hy1; apply repeat_spec in Hy1; right; left; exact Hy1|].
      split; [exact T1|]. left.
      assert (elems (A s') = elems (A s)) as ->.
      { destruct Hy as [d0 o0 l0' s0 e0 l2 a2 s2 Y1 Y2 Y3 Y4]. destruct Hk as (kf0 & X1 & X2 & X3). rewrite X3 in Y1. injection Y1 as <- <- <-. cbn [key_op lstep pstep] in Y3.
        assert (s0 = s) by congruence. subst s0. rewrite (box_set (set_th C t (ConcModel.At (b_d b) (key_op (b_x b) kf0) l2)) (b_d b) s2 s) in K4 by exact B2. rewrite Nat.eqb_refl in K4. injection K4 as <-.
        destruct thr; unfold go in Y3; injection Y3 as <- <- <-; cbn [apply] in Y4; injection Y4 as <-; reflexivity. }
      eapply turn_quiet; [exact T2|]. rewrite map_app. apply Forall_app. split; apply quiet_none; intros y Hy1; [apply scan_res; rewrite Forall_forall in R7; auto|].
      apply (repeat_spec (S k)) in Hy1. subst. reflexivity.
    + assert (match l' with LDone _ => BThrown | _ => BRun first m Hashing (S i) res end = BRun first m Hashing (S i) res) as -> by (destruct Sc as (? & ? & ? & ->); reflexivity).
      exists (upd b (BRun first m Hashing (S i) res)). cbn [set_b bulks bc]. split; [eapply self_err; exact Hu|]. split; [repeat split|]. eapply seq_key; [exact G|exact G'|exact L1|exact ND1|exact S1|exact Sq|exact Hs|exact Hlt|exact Hk|exact Hy|eauto 8].
  - (* end of hashing *)
    destruct (Nat.eq_dec u1 u) as [->|N]; [|apply OtherSame, N]. assert (b1 = b) by congruence. subst b1. eapply Keep; [exact Hu|exact Hs|eauto 8].
  - (* matching *)
    destruct (Nat.eq_dec u1 u) as [->|N]; [|eapply OtherKey; [exact Hu|exact N|exact Hk|exact Hy|reflexivity]]. assert (b1 = b) by congruence. subst b1. destruct (bi_ok _ I u b Hb0) as (L1 & ND1 & S1). cbn [bc] in *.
    exists (upd b (b_st b)). cbn [set_b bulks bc]. split; [rewrite upd_same; eapply self_err; exact Hu|]. split; [repeat split|]. rewrite Hs. eapply seq_key; [exact G|exact G'|exact L1|exact ND1|exact S1|exact Sq|exact Hs|exact Hlt|exact Hk|exact Hy|eauto 8].
  - destruct (Nat.eq_dec u1 u) as [->|N]; [|apply OtherSame, N]. assert (b1 = b) by congruence. subst b1. eapply Keep; [exact Hu|exact Hs|eauto 8].
  - destruct (Nat.eq_dec u1 u) as [->|N]; [|apply OtherSame, N]. assert (b1 = b) by congruence. subst b1. eapply Keep; [exact Hu|exact Hs|eauto 8].
  - (* visiting *)
    destruct (Nat.eq_dec u1 u) as [->|N]; [|eapply OtherKey; [exact Hu|exact N|exact Hk|exact Hy|reflexivity]]. assert (b1 = b) by congruence. subst b1. destruct (bi_ok _ I u b Hb0) as (L1 & ND1 & S1). cbn [bc] in *.
    exists (upd b (b_st b)). cbn [set_b bulks bc]. split; [rewrite upd_same; eapply self_err; exact Hu|]. split; [repeat split|]. rewrite Hs. eapply seq_key; [exact G|exact G'|exact L1|exact ND1|exact S1|exact Sq|exact Hs|exact Hlt|exact Hk|exact Hy|eauto 8].
  - (* next key *)
    destruct (Nat.eq_dec u1 u) as [->|N]; [|apply OtherSame, N]. assert (b1 = b) by congruence. subst b1. destruct (bi_ok _ I u b Hb0) as (L1 & ND1 & S1). cbn [bc] in *.
    destruct (key_wf c _ _ _ _ _ G Hk) as (kf1 & W1 & W2 & W3). destruct (normal_of_wf c _ _ _ _ _ _ G W3) as [Nr| ->].
    + assert (exists st, match r with RThrew => BThrown | _ => BRun first m Visiting (S i) (res + count r) end = st /\ exists f1 m1 p1 i1 r1, st = BRun f1 m1 p1 i1 r1) as (st & -> & Hst) by (destruct Nr as [->|[e ->]]; eauto 10).
      eapply Keep; [exact Hu|exact Hs|exact Hst].
    + exists (upd b BThrown). cbn [set_b bulks bc]. split; [eapply self_err; exact Hu|]. split; [repeat split|].
      destruct Sq as (s0 & Q1 & Q2 & Q). rewrite Hs in Q. destruct Q as (ls & Q3 & Q4). pose proof S1 as S2. unfold StOK in S2. rewrite Hs in S2. destruct S2 as (rs & ys & k & Sk & Sn & Sr & R1 & R2 & R3 & R4 & R5 & R6 & R7).
      rewrite <- (keys_uniq _ _ _ _ Sk Q3) in Q4. destruct ys as [|y zs]; [cbn [length] in R6; lia|]. cbn [app] in Sk. assert (length (map LDone rs) = first + i)%nat as Len by (rewrite map_length; lia).
      rewrite <- Len in Hk. pose proof (keys_get _ _ _ _ _ _ Sk Hk) as Eg. rewrite nth_mid in Eg. injection Eg as ->. rewrite map_app, map_map in Q4. cbn [res_of app map] in Q4.
      destruct (turn_split c _ _ _ _ _ _ _ Q4 Sn) as (l1 & T1 & T2). exists s0. cbn [upd b_d b_st b_x b_keys]. split; [exact Q1|]. split; [exact Q2|]. exists rs, (LDone RThrew :: zs ++ repeat LHash k), l1.
      split; [exact Sk|]. split; [exact Sn|].
      split; [split; [discriminate|]; constructor; [left; reflexivity|]; apply Forall_app; split; [eapply Forall_impl; [|apply R7]; unfold stopped; auto|]; apply Forall_forall; intros y Hy1; apply repeat_spec in Hy1; right; left; exact Hy1|].
      split; [exact T1|]. inversion T2; subst; [match goal with E : _ = None \/ _ |- _ => destruct E; discriminate end|].
      assert (nth_error (b_keys b) (length rs) = Some kf) as En.
      { rewrite <- (firstn_skipn (length rs) (b_keys b)) at 1. match goal with E : kf :: _ = skipn _ _ |- _ => rewrite <- E end.
        assert (length (firstn (length rs) (b_keys b)) = length rs) as Lf by (rewrite firstn_length; rewrite map_length in Len; pose proof (keys_len _ _ _ Sk) as Lk; rewrite app_length, map_length in Lk; cbn [length] in Lk; lia).
        rewrite nth_error_app2, Lf, Nat.sub_diag by lia. reflexivity. }
      match goal with E : _ \/ _ |- _ => destruct E as [E|[e E]]; [left; exact E|right; exists kf, e; auto] end.
  - destruct (Nat.eq_dec u1 u) as [->|N]; [|apply OtherSame, N]. assert (b1 = b) by congruence. subst b1. eapply Keep; [exact Hu|exact Hs|eauto 8].
  - (* end *)
    destruct (Nat.eq_dec u1 u) as [->|N].
    2:{ eapply (seq_other p l0 (BConf C B) u u1 b b1); [exact Hb0|exact N|exact Sq|intros t Ht; apply place_out, Ht|apply (Dis u1 b1 Hu N)|apply same_boxes, place_boxes]. }
    assert (b1 = b) by congruence. subst b1. destruct (bi_ok _ I u b Hb0) as (L1 & ND1 & S1). cbn [bc] in *. pose proof (keys_len _ _ _ Hk) as Lr. rewrite map_length in Lr.
    exists (upd b (BOut (Some res))). cbn [set_b bulks bc]. split; [eapply self_err; exact Hu|]. split; [repeat split|].
    destruct Sq as (s0 & Q1 & Q2 & Q). rewrite Hs in Q. destruct Q as (ls & Q3 & Q4). rewrite <- (keys_uniq _ _ _ _ Hk Q3), map_map in Q4. exists s0. cbn [upd b_d b_st b_x b_keys].
    split; [unfold box; rewrite place_boxes; exact Q1|]. split; [exact Q2|]. exists rs. split; [apply (keys_place b); [rewrite map_length; exact Lr|exact L1|exact ND1|eapply keys_ts_lt; eassumption]|exact Q4].
  - (* exception *)
    destruct (Nat.eq_dec u1 u) as [->|N].
    2:{ eapply (seq_other p l0 (BConf C B) u u1 b b1); [exact Hb0|exact N|exact Sq|intros t Ht; apply place_out, Ht|apply (Dis u1 b1 Hu N)|apply same_boxes, place_boxes]. }
    assert (b1 = b) by congruence. subst b1. destruct (bi_ok _ I u b Hb0) as (L1 & ND1 & S1). cbn [bc] in *. pose proof (keys_len _ _ _ Hk) as Lr.
    exists (upd b (BOut None)). cbn [set_b bulks bc]. split; [eapply self_err; exact Hu|]. split; [repeat split|].
    destruct Sq as (s0 & Q1 & Q2 & Q). rewrite Hs in Q. destruct Q as (rs & ys & l1 & Q3 & Q4 & Q5 & Q6 & Q7). pose proof (keys_uniq _ _ _ _ Hk Q3) as ->. exists s0. cbn [upd b_d b_st b_x b_keys].
    split; [unfold box; rewrite place_boxes; exact Q1|]. split; [exact Q2|]. exists rs, (map given_up ys), l1.
    split; [|split; [exact Q4|]; split; [destruct Q5 as [Q5 Q5']; split; [destruct ys; [congruence|discriminate]|]; apply Forall_forall; intros y Hy; apply in_map_iff in Hy as (y0 & <- & Hy0); rewrite Forall_forall in Q5'; destruct (Q5' y0 Hy0) as [->|[->|(? & ? & ? & ->)]]; reflexivity|auto]]. replace (map LRet rs) with (map given_up (map (@LDone K V) rs)) by apply map_map. rewrite <- map_app.
    apply (keys_place b); [rewrite map_length; exact Lr|exact L1|exact ND1|eapply keys_ts_lt; eassumption].
  - (* return *)
    destruct (Nat.eq_dec u1 u) as [->|N]; [destruct (Hr r (or_introl eq_refl))|].
    eapply (seq_other p l0 (BConf C B) u u1 b b1); [exact Hb0|exact N|exact Sq|intros t Ht; apply place_out, Ht|apply (Dis u1 b1 Hu N)|apply same_boxes, place_boxes].
Qed.

(** *** visits that find nothing *)
Lemma stays_at C e C' t d o l : gstep c C e C' -> nth_error (th C) t = Some (ConcModel.At d o l) -> (forall a, e <> Some (ERet t a)) -> exists l', nth_error (th C') t = Some (ConcModel.At d o l').
Proof.
  intros St Ht Ne.
  assert (forall t1 p1, t1 <> t \/ (exists l1, p1 = ConcModel.At d o l1) -> exists l1, nth_error (set_nth (th C) t1 p1) t = Some (ConcModel.At d o l1)) as Z.
  { intros t1 p1 Hc. destruct (Nat.eq_dec t t1) as [<-|N]; [|rewrite others_err by exact N; eauto]. destruct Hc as [Hc|[l1 ->]]; [congruence|]. exists l1. eapply self_err; exact Ht. }
  destruct St as [C t1 d1 o1 s1 H1 Hb|C t1 d1 o1 l1 s1 i thr e l2 a s2 H1 Hb Hst Ha|C t1 d1 o1 s1 n0 t' n' cn H1 Hb Hal Hr Hc|
    C t1 d1 o1 s1 n0 kd t' n' cn H1 Hb Hal Hr Hc|C t1 d1 o1 r H1|C t1 o1 H1|C t1 o1 n0 r w bs H1 Hp He Hbk|C t1 r H1]; cbn [set_box set_th th]; apply Z;
    destruct (Nat.eq_dec t1 t) as [->|N]; try (left; exact N); try congruence.
  - right. assert (ConcModel.At d1 o1 l1 = ConcModel.At d o l) as E by congruence. injection E as -> -> _. eauto.
  - right. assert (ConcModel.At d1 o1 LFull = ConcModel.At d o l) as E by congruence. injection E as -> -> _. eauto.
  - right. assert (ConcModel.At d1 o1 LFull = ConcModel.At d o l) as E by congruence. injection E as -> -> _. eauto.
  - destruct (Ne _ eq_refl).
Qed.
Lemma in_present C d s p k e : box C d = Some s -> pid (tb s) = p -> In e (elems (A s)) -> keqf c p k (fst e) = true -> present c C d p k.
Proof.
  intros Hb Hp Hi Hq. unfold elems, live in Hi. apply in_flat_map in Hi as (y & Hy & He). apply In_nth_error in Hy as [i Hi]. destruct y as [| |e']; cbn in He; try contradiction. destruct He as [->|[]].
  exists s, i, e. split; [exact Hb|]. split; [exact Hp|]. split; [|exact Hq]. unfold get_cell. unfold cells, A in Hi. destruct (a_elems (arr (tb s))); [exact Hi|destruct i; discriminate].
Qed.
Lemma keys_chain n es0 C1 d s1 ts es C : run n es0 C1 -> box C1 d = Some s1 -> gsteps C1 es C ->
  (forall t, In t ts -> exists x k f l, nth_error (th C1) t = Some (ConcModel.At d (Point (PVisit x k f)) l)) ->
  (forall t a, In t ts -> ~ In (ERet t a) es) -> (forall t a, In (ELin t a) es -> In t ts) ->
  run n (es0 ++ es) C /\ (forall t d' o l, In t ts -> nth_error (th C1) t = Some (ConcModel.At d' o l) -> exists l', nth_error (th C) t = Some (ConcModel.At d' o l')) /\
  exists s, box C d = Some s /\ pid (tb s) = pid (tb s1) /\ Permutation (map fst (elems (A s1))) (map fst (elems (A s))).
Proof.
  intros R Hb H Ht Hr Hl. induction H as [F|es C2 e C3 H IH St F].
  - rewrite app_nil_r. split; [exact R|]. split; [eauto|]. exists s1. auto.
  - destruct IH as (R2 & T2 & s2 & Hb2 & Hp2 & P2); [intros t a H1 H2; apply (Hr t a H1), in_or_app; auto|intros t a H1; apply (Hl t a), in_or_app; auto|].
    split; [rewrite app_assoc; eapply r_snoc; eassumption|]. split.
    + intros t d' o l Hin Hat. destruct (T2 t d' o l Hin Hat) as [l2 E2]. eapply stays_at; [exact St|exact E2|]. intros a ->. apply (Hr t a Hin), in_or_app. right. now left.
    + assert ((exists t a, e = Some (ELin t a)) \/ forall t a, e <> Some (ELin t a)) as [(t & a & ->)|Ne].
      { destruct e as [[| |]|]; try (right; intros; discriminate). left. eauto. }
      * assert (In t ts) as Hin by (apply (Hl t a), in_or_app; right; now left). destruct (Ht t Hin) as (x & k & f & l & E1). destruct (T2 t _ _ _ Hin E1) as [l2 E2].
        destruct (Properties_Conc.C36_instants c HC _ _ _ _ _ _ R2 St) as (ca & done & Ec & Te). unfold calls_of in Ec. rewrite E2 in Ec. injection Ec as <- <-.
        destruct a as [r| | |]; cbn [takes_effect] in Te; try contradiction. destruct Te as (_ & v & l' & Hv & Ps & Ew).
        assert (v = vw s2) as -> by (change (Properties_Conc.abstract C2) with (absw C2) in Hv; rewrite (absw_box _ _ _ Hb2) in Hv; congruence).
        assert (nth_error (absw C3) d = Some (Some (View (v_hash (vw s2)) (v_pred (vw s2)) (v_alloc (vw s2)) l'))) as E3.
        { change (Properties_Conc.abstract C3) with (absw C3) in Ew. rewrite Ew, set_err; [rewrite Nat.eqb_refl; reflexivity|]. apply nth_error_Some. change (Properties_Conc.abstract C2) with (absw C2) in Hv. change (Properties_Conc.abstract C2) with (absw C2). congruence. }
        unfold absw in E3. rewrite nth_error_map in E3. destruct (nth_error (boxes C3) d) as [[s3|]|] eqn:B3; try discriminate E3. cbn [option_map] in E3. injection E3 as Z1 Z2 Z3 Z4.
        exists s3. split; [unfold box; rewrite B3; reflexivity|]. split; [cbn in Z2; congruence|]. rewrite P2. rewrite Z4.
        cbn [vw v_elems v_pred] in Ps. destruct r; cbn [pspec] in Ps; try contradiction.
        -- destruct Ps as [_ Ps]. rewrite Ps. reflexivity.
        -- destruct Ps as [b Ps]. eapply called_keys; exact Ps.
        -- destruct Ps as [Ps|[e Ps]]; [rewrite Ps; reflexivity|eapply called_keys; exact Ps].
      * destruct (quiet_same _ _ _ _ _ d R2 St Ne s2 Hb2) as (s3 & B3 & E3 & P3). exists s3. split; [exact B3|]. split; [congruence|]. rewrite P2. apply Permutation_map, P3.
Qed.
Lemma absent_chain n es0 C1 d s1 ts es C t x k f : run n es0 C1 -> box C1 d = Some s1 -> gsteps C1 es C ->
  (forall t, In t ts -> exists x k f l, nth_error (th C1) t = Some (ConcModel.At d (Point (PVisit x k f)) l)) ->
  (forall t a, In t ts -> ~ In (ERet t a) es) -> (forall t a, In (ELin t a) es -> In t ts) ->
  In t ts -> nth_error (th C1) t = Some (ConcModel.At d (Point (PVisit x k f)) LEnter) -> nth_error (th C) t = Some (ConcModel.At d (Point (PVisit x k f)) (LRet RNone)) ->
  absent (keqf c) (pid (tb s1)) k (elems (A s1)).
Proof.
  intros R Hb H Ht Hr Hl Hin H1 H2. destruct (existsb (fun e => keqf c (pid (tb s1)) k (fst e)) (elems (A s1))) eqn:E.
  2:{ intros e He. destruct (keqf c (pid (tb s1)) k (fst e)) eqn:Q; [|reflexivity]. rewrite <- E. symmetry. apply existsb_exists. eauto. }
  apply existsb_exists in E as (e0 & He0 & Q0).
  assert (forall es C, gsteps C1 es C -> (forall t a, In t ts -> ~ In (ERet t a) es) -> (forall t a, In (ELin t a) es -> In t ts) ->
    GInv C /\ present c C d (pid (tb s1)) k /\ FInv c C t d (PVisit x k f) (pid (tb s1))) as Chain.
  { clear es C H Hr Hl H2. intros es C H Hr Hl.
    assert (GInv C /\ present c C d (pid (tb s1)) k) as [G P].
    { destruct (keys_chain n es0 C1 d s1 ts es C R Hb H Ht Hr Hl) as (R2 & _ & s & B & Ep & Pm). split; [eapply (reach_ginv c HC counters_fit); [auto|exact R2]|].
      assert (In (fst e0) (map fst (elems (A s)))) as Hk by (eapply Permutation_in; [exact Pm|apply in_map, He0]). apply in_map_iff in Hk as (e1 & E1 & He1).
      eapply in_present; [exact B|exact Ep|exact He1|rewrite E1; exact Q0]. }
    split; [exact G|]. split; [exact P|]. clear G P. induction H as [F|es C2 e C3 H IH St F].
    - exists LEnter. split; [exact H1|]. intros; exact Logic.I.
    - assert (forall t a, In t ts -> ~ In (ERet t a) es) as Hr' by (intros t0 a I1 I2; apply (Hr t0 a I1), in_or_app; auto).
      assert (forall t a, In (ELin t a) es -> In t ts) as Hl' by (intros t0 a I1; apply (Hl t0 a), in_or_app; auto).
      destruct (keys_chain n es0 C1 d s1 ts es C2 R Hb H Ht Hr' Hl') as (R2 & _ & s & B & Ep & Pm).
      eapply (finv_step c HC); [eapply (reach_ginv c HC counters_fit); [auto|exact R2]|exact St|reflexivity| | |apply IH; assumption].
      + intros a ->. apply (Hr t a Hin), in_or_app. right. now left.
      + assert (In (fst e0) (map fst (elems (A s)))) as Hk by (eapply Permutation_in; [exact Pm|apply in_map, He0]). apply in_map_iff in Hk as (e1 & E1 & He1).
        eapply in_present; [exact B|exact Ep|exact He1|cbn [pkey]; rewrite E1; exact Q0]. }
  destruct (Chain es C H Hr Hl) as (G & P & Fi). destruct (finv_not_none c C t d (PVisit x k f) (pid (tb s1)) G Fi P _ H2) as [_ N]. congruence.
Qed.

(** *** the whole call *)
Lemma seq_steps n nb es0 BC1 tr BC u b p l0 : bruns c n nb es0 BC1 -> bsteps c BC1 tr BC -> nth_error (bulks BC1) u = Some (Some b) -> Seq p l0 b (bc BC1) ->
  (forall t x, In (ELin t x) (plain tr) -> In t (b_ts b)) -> (forall r, ~ In (BRet u r) tr) ->
  exists b', nth_error (bulks BC) u = Some (Some b') /\ same_call b b' /\ Seq p l0 b' (bc BC).
Proof.
  intros R H Hb Sq. induction H as [|es1 C1 a es2 C2 H IH St F]; intros He Hr; [exists b; split; [exact Hb|]; split; [repeat split|exact Sq]|].
  destruct IH as (b1 & H1 & (E1 & E2 & E3 & E4) & S1); [intros t x Hi; apply (He t x); rewrite plain_app; apply in_or_app; auto|intros r Hi; apply (Hr r), in_or_app; auto|].
  destruct (seq_step n nb _ C1 a es2 C2 u b1 p l0 (bruns_trans c _ _ _ _ _ _ R H) St F H1 S1) as (b2 & H2 & (F1 & F2 & F3 & F4) & S2).
  - intros t x Hi. rewrite E4. apply (He t x). rewrite plain_app. apply in_or_app. auto.
  - intros r Hi. apply (Hr r), in_or_app. auto.
  - exists b2. split; [exact H2|]. split; [|exact S2]. repeat split; congruence.
Qed.
Lemma call_inv BC0 u ev d x keys ts BC1 : bstep c BC0 (By u) ev BC1 -> In (BCall u d x keys ts) ev -> exists s,
  let b := BCallOf d x keys ts BWaiting in box (bc BC0) d = Some s /\ length ts = length keys /\ NoDup ts /\ (forall t, In t ts -> nth_error (th (bc BC0)) t = Some Idle) /\
  BC1 = set_b BC0 (place (bc BC0) ts (all_at b (repeat LEnter (length keys)))) u (Some b) /\ nth_error (bulks BC0) u = Some None.
Proof.
  intros St Hin. assert (forall e : option event, ~ In (BCall u d x keys ts) (opt_ev e)) as No by (intros [e|] Hi; [destruct Hi as [Hi|[]]; discriminate Hi|exact Hi]).
  remember (By u) as a eqn:Ea. destruct St; try discriminate Ea; try (destruct (No _ Hin)); try (destruct Hin).
  - injection Ea as ->. match goal with E : BCall _ _ _ _ _ = _ |- _ => injection E as -> -> -> -> end. exists s. cbn [bc bulks]. auto 8.
  - exfalso. match goal with E : In _ (map _ _) |- _ => apply in_map_iff in E as (y & E & _); discriminate E end.
  - unfold give_up_events in Hin. apply in_flat_map in Hin as ([t l] & _ & Hi). cbn [fst snd] in Hi. destruct l; try contradiction Hi; destruct Hi as [Hi|[]]; discriminate Hi.
  - discriminate.
  - exfalso. match goal with E : In _ (map _ _) |- _ => apply in_map_iff in E as (y & E & _); discriminate E end.
Qed.
Lemma ret_inv BC u ev r BC' : bstep c BC (By u) ev BC' -> In (BRet u r) ev -> exists b rs,
  nth_error (bulks BC) u = Some (Some b) /\ b_st b = BOut r /\ keys_at b (bc BC) (map LRet rs) /\ ev = BRet u r :: map (fun y => BPlain (ERet (fst y) (AnsC (snd y)))) (combine (b_ts b) rs).
Proof.
  intros St Hin. assert (forall e : option event, ~ In (BRet u r) (opt_ev e)) as No by (intros [e|] Hi; [destruct Hi as [Hi|[]]; discriminate Hi|exact Hi]).
  remember (By u) as a eqn:Ea. destruct St; try discriminate Ea; try (destruct (No _ Hin)); try (destruct Hin).
  - discriminate.
  - exfalso. match goal with E : In _ (map _ _) |- _ => apply in_map_iff in E as (y & E & _); discriminate E end.
  - unfold give_up_events in Hin. apply in_flat_map in Hin as ([t l] & _ & Hi). cbn [fst snd] in Hi. destruct l; try contradiction Hi; destruct Hi as [Hi|[]]; discriminate Hi.
  - injection Ea as ->. match goal with E : BRet _ _ = _ |- _ => injection E as -> end. exists b, rs. cbn [bulks bc]. auto.
  - exfalso. match goal with E : In _ (map _ _) |- _ => apply in_map_iff in E as (y & E & _); discriminate E end.
Qed.
End Bulk5.
