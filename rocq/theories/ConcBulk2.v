(** Bulk visitation: every step is a sequence of steps of the single-key machine, and keeps the invariant. *)
From Coq Require Import NArith Bool List Arith Lia Permutation.
From Verif Require Import FloatModel SizeModel SizeProofs GroupModel GroupSpec FoaModel FoaGroup FoaBase FoaFind FoaArr FoaInv FoaRehash FoaSpec FoaWorld FoaRun
  ConcSpec ConcModel ConcInv ConcStep ConcStep2 ConcStep3 ConcSys ConcSys2 ConcLin1 ConcLin2 ConcLin3 ConcVisit ConcProps ConcLog ConcFound ConcProgress ConcBulkModel ConcBulk.
Import ListNotations.
Notation set_nth := FoaModel.set_nth.

Section Bulk2.
Context {K V : Type} (c : Cfg K V).
Hypothesis HC : good_cfg c.
Notation Sh := (@Sh K V).
Notation pop := (pop K V). Notation cop := (cop K V). Notation loc := (@loc K V). Notation cres := (cres K V).
Notation conf := (@conf K V). Notation pc := (@pc K V).
Notation GInv := (GInv c).
Notation event := (event K V).
Notation bcall := (@bcall K V). Notation bconf := (@bconf K V). Notation bevent := (@bevent K V).
Notation gsteps := (steps c counters_fit).

Lemma plain_opt (e : option event) : plain (opt_ev e) = ev_opt e.
Proof. destruct e; reflexivity. Qed.
Lemma plain_map {X} (f : X -> event) l : plain (map (fun x => BPlain (f x)) l) = map f l.
Proof. unfold plain. induction l as [|x l IH]; [reflexivity|]. cbn. rewrite IH. reflexivity. Qed.
Lemma plain_app (l l' : list bevent) : plain (l ++ l') = plain l ++ plain l'.
Proof. apply flat_map_app. Qed.
Lemma flat_some {X} (f : X -> event) l : concat (map (fun x => [f x]) l) = map f l.
Proof. induction l as [|x l IH]; [reflexivity|]. cbn. rewrite IH. reflexivity. Qed.
Lemma flat_none {X} (l : list X) : concat (map (fun _ => @nil event) l) = [].
Proof. induction l as [|x l IH]; [reflexivity|exact IH]. Qed.
Lemma combine_get {X Y} (a : list X) : forall (b : list Y) j x y, nth_error a j = Some x -> nth_error b j = Some y -> nth_error (combine a b) j = Some (x, y).
Proof. induction a as [|x0 a IH]; intros [|y0 b0] [|j0] x y; cbn; try discriminate; [congruence|]. apply IH. Qed.
Lemma combine_get' {X Y} (a : list X) : forall (b : list Y) j x y, nth_error (combine a b) j = Some (x, y) -> nth_error a j = Some x /\ nth_error b j = Some y.
Proof. induction a as [|x0 a IH]; intros [|y0 b0] [|j0] x y; cbn; try discriminate; [intros [= -> ->]; auto|apply IH]. Qed.

(** steps of a lookup *)
Lemma hash_to free (s : Sh) x k f i thr ef l' a : pstep c free s (PVisit x k f) LHash i thr = Step ef l' a ->
  (l' = LDone RThrew /\ a = Some (APoint RThrew)) \/ (is_scan l' /\ a = None).
Proof. cbn [pstep]. destruct thr; unfold go; intros [= <- <- <-]; [left; auto|right]. unfold is_scan. eauto. Qed.
Lemma scan_to free (s : Sh) x k f y v vs mk i ef l' a : pstep c free s (PVisit x k f) (LScan y (v :: vs) mk) i false = Step ef l' a -> is_scan l' /\ a = None.
Proof.
  cbn [pstep andb]. destruct (memb i (v :: vs)); [|discriminate]. destruct (get_group _ _); [|discriminate]. unfold go. intros [= <- <- <-]. unfold is_scan. eauto.
Qed.
Lemma visit_to free (s : Sh) x k f l i thr ef l' a : wf (Point (PVisit x k f)) l -> pstep c free s (PVisit x k f) l i thr = Step ef l' a ->
  outside l = false -> l <> LHash -> (forall r, l <> LDone r) -> outside l' = false /\ l' <> LHash.
Proof.
  intros W H O Nh Nd. destruct l; try discriminate O; cbn [wf emplaces erasing] in W; try contradiction; try discriminate W; cbn [pstep gives_up andb not_found] in H; unfold go, visit_slot, not_found in H;
    try (destruct (Nh eq_refl)); try (destruct (Nd _ eq_refl));
    repeat match type of H with
      | (if ?b then _ else _) = _ => destruct b
      | match ?b with _ => _ end = _ => destruct b
      | (let '(_, _) := ?b in _) = _ => destruct b
      end; try discriminate H; try discriminate W; try contradiction;
    try (injection H as <- <- <-; split; [reflexivity|discriminate]).
Qed.
Lemma key_wf b (C : conf) j t l : GInv C -> key_at b C j t l -> exists kf, nth_error (b_keys b) j = Some kf /\ wf (Point (PVisit (b_x b) (fst kf) (snd kf))) l /\ nth_error (th C) t = Some (ConcModel.At (b_d b) (key_op (b_x b) kf) l).
Proof.
  intros G (kf & K1 & K2 & K3). exists kf. split; [exact K2|]. split; [|exact K3]. destruct (gi_at _ _ G _ _ _ _ K3) as [s Hb]. destruct (gi_box _ _ G _ s Hb) as [k [B _]].
  apply (cb_ti _ _ _ _ B _ _ _ (proj2 (view_at C _ t _ _) K3)).
Qed.

Lemma nth_mid {X} (A : list X) l B : nth_error (A ++ l :: B) (length A) = Some l.
Proof. rewrite nth_error_app2, Nat.sub_diag by lia. reflexivity. Qed.
Lemma ts_not (C C' : conf) t (ts : list nat) j : (forall t', t' <> t -> nth_error (th C') t' = nth_error (th C) t') -> nth_error ts j = Some t ->
  forall t', ~ In t' ts -> nth_error (th C') t' = nth_error (th C) t'.
Proof. intros H Hj t' N. apply H. intros ->. apply N. eapply nth_error_In; exact Hj. Qed.

(** all threads of a call move *)
Lemma move_all b (C : conf) ls ls' (es : list (list event)) : GInv C -> counters_fit C -> length (b_ts b) = length (b_keys b) -> NoDup (b_ts b) ->
  keys_at b C ls -> length ls' = length (b_keys b) -> length es = length (b_keys b) ->
  (forall j kf t l l' e, nth_error (b_keys b) j = Some kf -> nth_error (b_ts b) j = Some t -> nth_error ls j = Some l -> nth_error ls' j = Some l' -> nth_error es j = Some e ->
     forall C' s, counters_fit C' -> box C' (b_d b) = Some s -> nth_error (th C') t = Some (ConcModel.At (b_d b) (key_op (b_x b) kf) l) ->
       gsteps C' e (set_th C' t (ConcModel.At (b_d b) (key_op (b_x b) kf) l'))) ->
  gsteps C (concat es) (place C (b_ts b) (all_at b ls')).
Proof.
  intros G F L ND [L1 H1] L2 L3 H. apply place_steps; [exact F|exact ND|rewrite all_at_len; congruence|congruence|].
  intros j t p e Ht Hp He. assert (j < length (b_keys b))%nat as Lj by (rewrite <- L; apply nth_error_Some; congruence).
  destruct (nth_error ls j) as [l|] eqn:El; [|apply nth_error_None in El; lia]. destruct (nth_error ls' j) as [l'|] eqn:El'; [|apply nth_error_None in El'; lia].
  destruct (H1 j l El) as (t1 & kf & T1 & T2 & T3). assert (t1 = t) by congruence. subst t1. rewrite (all_at_get b ls' j kf l' T2 El') in Hp. injection Hp as <-.
  intros C' Fc Eb Et. destruct (gi_at _ _ G _ _ _ _ T3) as [s Hb]. apply (H j kf t l l' e T2 Ht El El' He C' s); [exact Fc|unfold box; rewrite Eb; exact Hb|congruence].
Qed.
Lemma repeat_get {X} (x : X) n j y : nth_error (repeat x n) j = Some y -> y = x.
Proof. intros H. apply nth_error_In, repeat_spec in H. exact H. Qed.

Lemma keys_idle (b : bcall) (C : conf) ps : length ps = length (b_ts b) -> NoDup (b_ts b) -> (forall p, In p ps -> p = Idle) -> (forall t, In t (b_ts b) -> nth_error (th C) t <> None) ->
  forall t, In t (b_ts b) -> nth_error (th (place C (b_ts b) ps)) t = Some Idle.
Proof.
  intros L ND Hp Hn t Ht. apply In_nth_error in Ht as [j Hj]. assert (j < length ps)%nat as Lj by (rewrite L; apply nth_error_Some; congruence).
  destruct (nth_error ps j) as [p|] eqn:E; [|apply nth_error_None in E; lia]. rewrite (place_in _ C ps j t p ND Hj E); [f_equal; apply Hp; eapply nth_error_In; exact E|].
  apply Hn. eapply nth_error_In; exact Hj.
Qed.

Theorem bstep_ok BC a es BC' : GInv (bc BC) -> counters_fit (bc BC) -> counters_fit (bc BC') -> BInv BC -> bstep c BC a es BC' ->
  gsteps (bc BC) (plain es) (bc BC') /\ BInv BC'.
Proof.
  intros G F F' I St. destruct St as
   [C B e C' H Ho|C B u d x keys ts s Hu Hb L ND Hi b|C B u b Hu Hs Hk|C B u b first m i res t j thr e C' l' Hu Hs Hlt Hk Hy Hk'|C B u b first m res Hu Hs
   |C B u b first m i res t x v vs mk j e C' Hu Hs Hlt Hk Hy|C B u b first m i res t x mk Hu Hs Hlt Hk|C B u b first m res Hu Hs
   |C B u b first m i res t l j thr e C' Hu Hs Hlt Hk Nd Nt Hy|C B u b first m i res t r Hu Hs Hlt Hk|C B u b first m res Hu Hs Hlt
   |C B u b first m res rs Hu Hs Hge Hk|C B u b ls Hu Hs Hk|C B u b r rs Hu Hs Hk]; cbn [bc] in *.
  - (* another thread *)
    split; [rewrite plain_opt; apply steps_one; assumption|]. destruct I as [I1 I2]. cbn [bc bulks] in *. split; cbn [bc bulks]; [|exact I2].
    intros u b Hu. destruct (I1 u b Hu) as (L & ND & S). split; [exact L|]. split; [exact ND|]. eapply stok_same; [|exact S].
    intros t Ht. apply Ho. exists u, b. auto.
  - (* call *)
    split.
    + cbn [plain flat_map app]. fold (plain (map (fun y : nat * (K * ufun K V) => BPlain (ECall (fst y) (OnC d (key_op x (snd y))))) (combine ts keys))).
      rewrite (plain_map (fun y : nat * (K * ufun K V) => ECall (fst y) (OnC d (key_op x (snd y))))), <- flat_some.
      cbn [set_b bc]. apply place_steps; [exact F|exact ND| | |].
      * rewrite all_at_len; [symmetry; exact L|cbn; apply repeat_length].
      * rewrite map_length, combine_length. lia.
      * intros j t p e Ht Hp He. rewrite nth_error_map in He. destruct (nth_error (combine ts keys) j) as [[t1 kf]|] eqn:E; [|discriminate]. injection He as <-.
        apply combine_get' in E as [E1 E2]. assert (t1 = t) by congruence. subst t1. cbn [fst snd].
        rewrite (all_at_get b _ j kf LEnter E2) in Hp.
        2:{ cbn. assert (j < length keys)%nat by (apply nth_error_Some; congruence). clear - H. revert j H. induction (length keys) as [|n IH]; intros j H; [lia|]. destruct j as [|j]; [reflexivity|]. apply IH. lia. }
        injection Hp as <-. intros C' Fc Eb Et. apply (steps_one c C' (Some (ECall t (OnC d (key_op x kf))))); [exact Fc|apply fit_th; [exact Fc|exact Logic.I]|].
        eapply g_call; [rewrite Et; apply Hi; eapply nth_error_In; exact Ht|unfold box; rewrite Eb; exact Hb].
    + assert (nth_error B u <> None) as Nu by congruence. destruct I as [I1 I2]. cbn [bc bulks] in *.
      assert (forall u' b' t, nth_error B u' = Some (Some b') -> In t (b_ts b') -> ~ In t ts) as Dis.
      { intros u' b' t H1 H2 H3. destruct (I1 u' b' H1) as (L' & ND' & S'). destruct (stok_keys b' C S') as [ls Hls]. apply In_nth_error in H2 as [j Hj].
        assert (j < length (b_ts b'))%nat as Lj by (apply nth_error_Some; congruence). destruct (nth_error ls j) as [l|] eqn:El; [|apply nth_error_None in El; rewrite (keys_len _ _ _ Hls) in El; lia].
        destruct (proj2 Hls j l El) as (t1 & kf & T1 & T2 & T3). assert (t1 = t) by congruence. subst t1. rewrite (Hi t H3) in T3. discriminate. }
      split; cbn [set_b bc bulks].
      * intros u1 b1 H1. destruct (set_nth_cases _ _ _ Nu _ _ H1) as [[-> E]|[N E]].
        -- injection E as ->. split; [exact L|]. split; [exact ND|]. unfold StOK. subst b. cbn [b_st b_keys]. apply (keys_place (BCallOf d x keys ts BWaiting)); [apply repeat_length|exact L|exact ND|].
           intros t Ht. cbn in Ht. rewrite (Hi t Ht). discriminate.
        -- destruct (I1 u1 b1 E) as (L1 & ND1 & S1). split; [exact L1|]. split; [exact ND1|]. eapply stok_same; [|exact S1]. intros t Ht. apply place_out. eapply Dis; eassumption.
      * intros u1 b1 u2 b2 t H1 H2 T1 T2.
        destruct (set_nth_cases _ _ _ Nu _ _ H1) as [[-> E1]|[N1 E1]], (set_nth_cases _ _ _ Nu _ _ H2) as [[-> E2]|[N2 E2]]; auto.
        -- injection E1 as ->. destruct (Dis _ _ _ E2 T2 T1).
        -- injection E2 as ->. destruct (Dis _ _ _ E1 T1 T2).
        -- eapply I2; eassumption.
  - (* enter *)
    destruct (bi_ok _ I u b Hu) as (L & ND & S). cbn [bulks bc] in *. split.
    + cbn [plain flat_map set_b bc]. rewrite <- (flat_none (b_keys b)). eapply move_all; [exact G|exact F|exact L|exact ND|exact Hk|apply repeat_length|apply map_length|].
      intros j kf t l l' e _ _ El El' Ee. apply repeat_get in El, El'. subst. rewrite nth_error_map in Ee. destruct (nth_error (b_keys b) j); [|discriminate]. injection Ee as <-.
      intros C' s Fc Hb Ht. apply (quiet_steps c C' t (b_d b) _ _ s _ None Fc Ht Hb); [discriminate|]. exists O, false. reflexivity.
    + eapply (binv_set (BConf C B)); [exact I|exact Hu|reflexivity|reflexivity|intros t Ht; apply place_out, Ht|]. unfold StOK. cbn [upd b_st b_keys bc].
      exists [], [], (length (b_keys b)). cbn [map app]. split; [apply (keys_place b); [apply repeat_length|exact L|exact ND|eapply keys_ts_lt; eassumption]|].
      split; [constructor|]. split; [reflexivity|]. unfold ran. rewrite Nat.sub_0_r. split; [reflexivity|]. pose proof (chunk_le (length (b_keys b))).
      split; [lia|]. split; [lia|]. split; [reflexivity|]. repeat split; auto.
  - (* hash *)
    destruct (bi_ok _ I u b Hu) as (L & ND & S). cbn [bulks bc] in *. split; [rewrite plain_opt; apply steps_one; [exact F|exact F'|eapply by_thread_gstep; exact Hy]|].
    unfold StOK in S. rewrite Hs in S. destruct S as (rs & ys & k & Sk & Sn & Sr & R1 & R2 & R3 & R4 & R5 & R6 & R7).
    pose proof (keys_get _ _ _ _ _ _ Sk Hk) as Eg. assert (length (map LDone rs ++ ys) = first + i)%nat as Len by (rewrite app_length, map_length; lia).
    destruct k as [|k]; [lia|]. cbn [repeat] in Sk. rewrite app_assoc in Sk. rewrite <- Len in Hk, Hk'.
    pose proof (keys_set b C C' _ _ _ t l' Sk ND Hk (by_thread_others _ _ _ _ _ _ _ Hy) Hk') as Sk'.
    destruct (by_key c b C _ t _ _ _ _ _ Hk Hy) as (kf & s & ef & l1 & a1 & B1 & B2 & B3 & B4 & B5). destruct (key_unique _ _ _ _ _ _ _ Hk' B5) as [_ ->].
    assert (forall st, StOK (upd b st) C' -> BInv (set_b (BConf C B) C' u (Some (upd b st)))) as Go.
    { intros st. eapply (binv_set (BConf C B)); [exact I|exact Hu|reflexivity|reflexivity|]. destruct Hk as (kf' & Z1 & _). eapply ts_not; [eapply by_thread_others; exact Hy|exact Z1]. }
    destruct (hash_to _ _ _ _ _ _ _ _ _ _ B3) as [[-> ->]|[Sc ->]].
    + apply Go. unfold StOK. cbn [upd b_st b_keys]. exists rs, (ys ++ LDone RThrew :: repeat LHash k). rewrite app_assoc. split; [exact Sk'|]. split; [exact Sn|].
      apply Forall_app. split; [eapply Forall_impl; [|exact R7]; unfold stopped; auto|]. constructor; [left; reflexivity|]. apply Forall_forall. intros y Hy1. apply repeat_spec in Hy1. right. left. exact Hy1.
    + assert (match l' with LDone _ => BThrown | _ => BRun first m Hashing (S i) res end = BRun first m Hashing (S i) res) as -> by (destruct Sc as (? & ? & ? & ->); reflexivity).
      apply Go. unfold StOK. cbn [upd b_st b_keys]. exists rs, (ys ++ [l']), k. rewrite <- !app_assoc. rewrite <- app_assoc in Sk'. split; [exact Sk'|]. split; [exact Sn|]. split; [exact Sr|].
      unfold ran. rewrite app_length. cbn [length]. repeat split; try lia. apply Forall_app. split; [exact R7|]. constructor; [exact Sc|constructor].
  - (* end of hashing *)
    destruct (bi_ok _ I u b Hu) as (L & ND & S). cbn [bulks bc] in *. split; [apply st_nil; exact F|]. eapply (binv_set (BConf C B)); [exact I|exact Hu|reflexivity|reflexivity|reflexivity|].
    unfold StOK in S |- *. rewrite Hs in S. cbn [upd b_st b_keys]. destruct S as (rs & ys & k & Sk & Sn & Sr & R1 & R2 & R3 & R4 & R5 & R6 & R7).
    exists rs, ys, k. split; [exact Sk|]. split; [exact Sn|]. split; [exact Sr|]. unfold ran. repeat split; auto; lia.
  - (* matching *)
    destruct (bi_ok _ I u b Hu) as (L & ND & S). cbn [bulks bc] in *. split; [rewrite plain_opt; apply steps_one; [exact F|exact F'|eapply by_thread_gstep; exact Hy]|].
    eapply (binv_set (BConf C B)); [exact I|exact Hu|reflexivity|reflexivity|destruct Hk as (kf' & Z1 & _); eapply ts_not; [eapply by_thread_others; exact Hy|exact Z1]|].
    unfold StOK in S |- *. rewrite Hs in S |- *. destruct S as (rs & ys & k & Sk & Sn & Sr & R1 & R2 & R3 & R4 & R5 & R6 & R7).
    assert (i < length ys)%nat as Li by lia. destruct (nth_error ys i) as [y|] eqn:Ey; [|apply nth_error_None in Ey; lia]. destruct (nth_error_split _ _ Ey) as (Y1 & Y2 & EY & LY).
    assert (length (map LDone rs ++ Y1) = first + i)%nat as Len by (rewrite app_length, map_length; lia).
    assert (map LDone rs ++ ys ++ repeat LHash k = (map LDone rs ++ Y1) ++ y :: (Y2 ++ repeat LHash k)) as El by (rewrite EY, <- !app_assoc; reflexivity).
    rewrite El in Sk. rewrite <- Len in Hk. pose proof (keys_get _ _ _ _ _ _ Sk Hk) as Eg. rewrite nth_mid in Eg. injection Eg as ->.
    destruct (by_key c b C _ t _ _ _ _ _ Hk Hy) as (kf & s & ef & l1 & a1 & B1 & B2 & B3 & B4 & B5).
    pose proof (keys_set b C C' _ _ _ t l1 Sk ND Hk (by_thread_others _ _ _ _ _ _ _ Hy) B5) as Sk'.
    exists rs, (Y1 ++ l1 :: Y2), k. split; [rewrite <- !app_assoc in Sk' |- *; exact Sk'|]. split; [exact Sn|]. split; [exact Sr|].
    assert (Forall is_scan (Y1 ++ l1 :: Y2)) as FY.
    { rewrite EY in R7. apply Forall_app in R7 as [Q1 Q2]. inversion Q2; subst. apply Forall_app. split; [exact Q1|]. constructor; [|assumption]. eapply (proj1 (scan_to _ _ _ _ _ _ _ _ _ _ _ _ _ B3)). }
    assert (length (Y1 ++ l1 :: Y2) = length ys) as LL by (rewrite EY, !app_length; reflexivity). unfold ran. rewrite LL. repeat split; auto; lia.
  - (* next key *)
    destruct (bi_ok _ I u b Hu) as (L & ND & S). cbn [bulks bc] in *. split; [apply st_nil; exact F|]. eapply (binv_set (BConf C B)); [exact I|exact Hu|reflexivity|reflexivity|reflexivity|].
    unfold StOK in S |- *. rewrite Hs in S. cbn [upd b_st b_keys]. destruct S as (rs & ys & k & Sk & Sn & Sr & R1 & R2 & R3 & R4 & R5 & R6 & R7).
    exists rs, ys, k. split; [exact Sk|]. split; [exact Sn|]. split; [exact Sr|]. unfold ran. repeat split; auto; lia.
  - (* end of matching *)
    destruct (bi_ok _ I u b Hu) as (L & ND & S). cbn [bulks bc] in *. split; [apply st_nil; exact F|]. eapply (binv_set (BConf C B)); [exact I|exact Hu|reflexivity|reflexivity|reflexivity|].
    unfold StOK in S |- *. rewrite Hs in S. cbn [upd b_st b_keys]. destruct S as (rs & ys & k & Sk & Sn & Sr & R1 & R2 & R3 & R4 & R5 & R6 & R7).
    exists rs, ys, k. split; [exact Sk|]. split; [exact Sn|]. split; [exact Sr|]. unfold ran. repeat split; auto; try lia.
    destruct R7 as [|l zs (x & v & mk & ->) Hz]; [exact Logic.I|]. repeat split; [discriminate|exact Hz].
  - (* visiting *)
    destruct (bi_ok _ I u b Hu) as (L & ND & S). cbn [bulks bc] in *. split; [rewrite plain_opt; apply steps_one; [exact F|exact F'|eapply by_thread_gstep; exact Hy]|].
    eapply (binv_set (BConf C B)); [exact I|exact Hu|reflexivity|reflexivity|destruct Hk as (kf' & Z1 & _); eapply ts_not; [eapply by_thread_others; exact Hy|exact Z1]|].
    unfold StOK in S |- *. rewrite Hs in S |- *. destruct S as (rs & ys & k & Sk & Sn & Sr & R1 & R2 & R3 & R4 & R5 & R6 & R7).
    destruct ys as [|y zs]; [cbn [length] in R6; lia|]. cbn [app] in Sk. assert (length (map LDone rs) = first + i)%nat as Len by (rewrite map_length; lia).
    rewrite <- Len in Hk. pose proof (keys_get _ _ _ _ _ _ Sk Hk) as Eg. rewrite nth_mid in Eg. injection Eg as ->. destruct R7 as (O1 & O2 & O3).
    destruct (by_key c b C _ t _ _ _ _ _ Hk Hy) as (kf & s & ef & l1 & a1 & B1 & B2 & B3 & B4 & B5). destruct (key_wf _ _ _ _ _ G Hk) as (kf1 & W1 & W2 & _). assert (kf1 = kf) by congruence. subst kf1.
    pose proof (keys_set b C C' _ _ _ t l1 Sk ND Hk (by_thread_others _ _ _ _ _ _ _ Hy) B5) as Sk'.
    exists rs, (l1 :: zs), k. split; [exact Sk'|]. split; [exact Sn|]. split; [exact Sr|]. destruct (visit_to _ _ _ _ _ _ _ _ _ _ _ W2 B3 O1 O2 Nd) as [P1 P2].
    unfold ran. cbn [length] in *. repeat split; auto; lia.
  - (* next key *)
    destruct (bi_ok _ I u b Hu) as (L & ND & S). cbn [bulks bc] in *. split; [apply st_nil; exact F|]. eapply (binv_set (BConf C B)); [exact I|exact Hu|reflexivity|reflexivity|reflexivity|].
    unfold StOK in S |- *. rewrite Hs in S. cbn [upd b_st b_keys]. destruct S as (rs & ys & k & Sk & Sn & Sr & R1 & R2 & R3 & R4 & R5 & R6 & R7).
    destruct ys as [|y zs]; [cbn [length] in R6; lia|]. cbn [app] in Sk. assert (length (map LDone rs) = first + i)%nat as Len by (rewrite map_length; lia).
    rewrite <- Len in Hk. pose proof (keys_get _ _ _ _ _ _ Sk Hk) as Eg. rewrite nth_mid in Eg. injection Eg as ->. destruct R7 as (O1 & O2 & O3).
    destruct (key_wf _ _ _ _ _ G Hk) as (kf1 & W1 & W2 & W3). destruct (normal_of_wf c _ _ _ _ _ _ G W3) as [Nr| ->].
    + assert (match r with RThrew => BThrown | _ => BRun first m Visiting (S i) (res + count r) end = BRun first m Visiting (S i) (res + count r)) as -> by (destruct Nr as [->|[e ->]]; reflexivity).
      exists (rs ++ [r]), zs, k. rewrite map_app. cbn [map]. rewrite <- app_assoc. split; [exact Sk|]. split; [apply Forall_app; split; [exact Sn|constructor; [exact Nr|constructor]]|].
      split; [unfold total; rewrite map_app, list_sum_app; cbn [map list_sum fold_right]; rewrite Nat.add_0_r, Sr; reflexivity|].
      unfold ran. rewrite app_length. cbn [length] in *. repeat split; auto; try lia. destruct O3 as [|l1 z1 (x1 & u1 & k1 & ->) O3]; [exact Logic.I|]. repeat split; [discriminate|exact O3].
    + exists rs, (LDone RThrew :: zs ++ repeat LHash k). split; [exact Sk|]. split; [exact Sn|]. constructor; [left; reflexivity|]. apply Forall_app. split; [eapply Forall_impl; [|exact O3]; unfold stopped; auto|].
      apply Forall_forall. intros y Hy1. apply repeat_spec in Hy1. right. left. exact Hy1.
  - (* next chunk *)
    destruct (bi_ok _ I u b Hu) as (L & ND & S). cbn [bulks bc] in *. split; [apply st_nil; exact F|]. eapply (binv_set (BConf C B)); [exact I|exact Hu|reflexivity|reflexivity|reflexivity|].
    unfold StOK in S |- *. rewrite Hs in S. cbn [upd b_st b_keys]. destruct S as (rs & ys & k & Sk & Sn & Sr & R1 & R2 & R3 & R4 & R5 & R6 & R7).
    destruct ys as [|y zs]; [|cbn [length] in R6; lia].
    exists rs, [], k. split; [exact Sk|]. split; [exact Sn|]. split; [exact Sr|]. pose proof (chunk_le (length (b_keys b) - (first + m))). unfold ran. cbn [length] in *. repeat split; auto; lia.
  - (* end *)
    destruct (bi_ok _ I u b Hu) as (L & ND & S). cbn [bulks bc] in *. pose proof (keys_len _ _ _ Hk) as Lr. rewrite map_length in Lr. split.
    + cbn [plain flat_map set_b bc]. rewrite <- (flat_none (b_keys b)). eapply move_all; [exact G|exact F|exact L|exact ND|exact Hk|rewrite map_length; exact Lr|apply map_length|].
      intros j kf t l l' e _ _ El El' Ee. rewrite nth_error_map in El, El', Ee. destruct (nth_error (b_keys b) j); [|discriminate]. injection Ee as <-.
      destruct (nth_error rs j) as [r|]; [|discriminate]. injection El as <-. injection El' as <-.
      intros C' s Fc Hb Ht. apply (quiet_steps c C' t (b_d b) _ _ s _ None Fc Ht Hb); [discriminate|]. exists O, false. reflexivity.
    + eapply (binv_set (BConf C B)); [exact I|exact Hu|reflexivity|reflexivity|intros t Ht; apply place_out, Ht|]. unfold StOK in S |- *. cbn [upd b_st b_keys bc]. rewrite Hs in S.
      destruct S as (rs' & ys & k & Sk & Sn & Sr & R1 & R2 & R3 & R4 & R5 & R6 & R7). destruct ys as [|y zs]; [|cbn [length] in R6; lia].
      cbn [length app] in *. assert (k = O) by lia. subst k. cbn [repeat] in Sk. rewrite app_nil_r in Sk. pose proof (keys_uniq _ _ _ _ Sk Hk) as Er.
      assert (rs' = rs) as -> by (clear - Er; revert rs Er; induction rs' as [|r l IH]; intros [|r1 l1] E; try discriminate E; [reflexivity|cbn in E; injection E as -> E; f_equal; apply IH, E]).
      exists rs. split; [apply (keys_place b); [rewrite map_length; exact Lr|exact L|exact ND|eapply keys_ts_lt; eassumption]|]. split; [exact Sn|exact Sr].
  - (* exception *)
    destruct (bi_ok _ I u b Hu) as (L & ND & S). cbn [bulks bc] in *. pose proof (keys_len _ _ _ Hk) as Ll. unfold StOK in S. rewrite Hs in S. destruct S as (rs & ys & Sk & Sn & Sy).
    pose proof (keys_uniq _ _ _ _ Sk Hk) as <-. split.
    + cbn [set_b bc]. unfold give_up_events.
      replace (plain (flat_map _ _)) with (concat (map (fun x : nat * loc => match snd x with LDone _ => [] | _ => [ELin (K:=K) (V:=V) (fst x) (APoint RThrew)] end) (combine (b_ts b) (map LDone rs ++ ys)))).
      2:{ clear. induction (combine (b_ts b) (map LDone rs ++ ys)) as [|[t l] z IH]; [reflexivity|]. cbn [map flat_map concat fst snd]. rewrite plain_app, <- IH. destruct l; reflexivity. }
      eapply move_all; [exact G|exact F|exact L|exact ND|exact Hk|rewrite map_length; exact Ll|rewrite map_length, combine_length; lia|].
      intros j kf t l l' e Ek Et El El' Ee. rewrite nth_error_map in El', Ee. rewrite El in El'. injection El' as <-. rewrite (combine_get _ _ _ _ _ Et El) in Ee. injection Ee as <-.
      intros C' s Fc Hb Ht. cbn [fst snd].
      assert ((exists r, l = LDone r) \/ l = LHash \/ is_scan l) as Cs.
      { apply nth_error_In, in_app_or in El as [E|E]; [left; apply in_map_iff in E as (r & <- & _); eauto|]. rewrite Forall_forall in Sy. destruct (Sy _ E) as [->|[->|Sc]]; eauto. }
      assert (forall C1 r, counters_fit C1 -> box C1 (b_d b) = Some s -> nth_error (th C1) t = Some (ConcModel.At (b_d b) (key_op (b_x b) kf) (LDone r)) ->
        gsteps C1 [] (set_th C1 t (ConcModel.At (b_d b) (key_op (b_x b) kf) (LRet r)))) as Last.
      { intros C1 r F1 B1 T1. apply (quiet_steps c C1 t (b_d b) _ _ s _ None F1 T1 B1); [discriminate|]. exists O, false. reflexivity. }
      destruct Cs as [[r ->]|Cs]; [apply Last; assumption|].
      assert (gsteps C' [ELin t (APoint RThrew)] (set_th C' t (ConcModel.At (b_d b) (key_op (b_x b) kf) (LDone RThrew)))) as S1.
      { apply (quiet_steps c C' t (b_d b) _ _ s _ (Some (APoint RThrew)) Fc Ht Hb); [discriminate|]. exists O, true. destruct Cs as [->|(x & v & mk & ->)]; reflexivity. }
      assert (gsteps C' [ELin t (APoint RThrew)] (set_th C' t (ConcModel.At (b_d b) (key_op (b_x b) kf) (LRet RThrew)))) as S2.
      { rewrite <- (set_th_twice C' t (ConcModel.At (b_d b) (key_op (b_x b) kf) (LDone RThrew))). change [ELin (K:=K) (V:=V) t (APoint RThrew)] with ([ELin (K:=K) (V:=V) t (APoint RThrew)] ++ []).
        eapply steps_trans; [exact S1|]. apply Last; [destruct S1; assumption|exact Hb|]. eapply self_err; exact Ht. }
      destruct Cs as [->|(x & v & mk & ->)]; exact S2.
    + eapply (binv_set (BConf C B)); [exact I|exact Hu|reflexivity|reflexivity|intros t Ht; apply place_out, Ht|]. unfold StOK. cbn [upd b_st b_keys bc].
      exists rs, (length ys). split; [|exact Sn]. assert (map given_up (map LDone rs ++ ys) = map LRet (rs ++ repeat RThrew (length ys))) as Eg.
      { rewrite !map_app, map_map. f_equal. clear - Sy. induction Sy as [|y ys Hy Sy IH]; [reflexivity|]. cbn [map length repeat]. f_equal; [|exact IH]. destruct Hy as [->|[->|(? & ? & ? & ->)]]; reflexivity. }
      rewrite Eg. apply (keys_place b); [rewrite <- Eg, map_length; exact Ll|exact L|exact ND|eapply keys_ts_lt; eassumption].
  - (* return *)
    destruct (bi_ok _ I u b Hu) as (L & ND & S). cbn [bulks bc] in *. pose proof (keys_len _ _ _ Hk) as Ll. rewrite map_length in Ll. split.
    + cbn [plain flat_map app]. fold (plain (map (fun y : nat * cres => BPlain (ERet (K:=K) (V:=V) (fst y) (AnsC (snd y)))) (combine (b_ts b) rs))).
      rewrite (plain_map (fun y : nat * cres => ERet (fst y) (AnsC (snd y)))), <- flat_some. cbn [set_b bc].
      apply place_steps; [exact F|exact ND|rewrite map_length; lia|rewrite map_length, combine_length; lia|].
      intros j t p e Ht Hp He. rewrite nth_error_map in Hp, He. destruct (nth_error rs j) as [r1|] eqn:Er; [|discriminate]. injection Hp as <-. rewrite (combine_get _ _ _ _ _ Ht Er) in He. injection He as <-.
      intros C' Fc Eb Et. destruct (proj2 Hk j (LRet r1)) as (t1 & kf & T1 & T2 & T3); [rewrite nth_error_map, Er; reflexivity|]. assert (t1 = t) by congruence. subst t1.
      apply (steps_one c C' (Some (ERet t (AnsC r1)))); [exact Fc|apply fit_th; [exact Fc|exact Logic.I]|]. eapply g_ret. rewrite Et. exact T3.
    + assert (nth_error B u <> None) as Nu by congruence. destruct I as [I1 I2]. cbn [bc bulks] in *. split; cbn [set_b bc bulks].
      * intros u1 b1 H1. destruct (set_nth_cases _ _ _ Nu _ _ H1) as [[-> E]|[N E]]; [discriminate|].
        destruct (I1 u1 b1 E) as (L1 & ND1 & S1). split; [exact L1|]. split; [exact ND1|]. eapply stok_same; [|exact S1]. intros t Ht. apply place_out. intros Ht'. apply N. eapply I2; eassumption.
      * intros u1 b1 u2 b2 t H1 H2 T1 T2.
        destruct (set_nth_cases _ _ _ Nu _ _ H1) as [[-> E1]|[N1 E1]], (set_nth_cases _ _ _ Nu _ _ H2) as [[-> E2]|[N2 E2]]; try discriminate; auto.
        eapply I2; eassumption.
Qed.
End Bulk2.
