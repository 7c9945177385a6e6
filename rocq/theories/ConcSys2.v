(** Global invariant of programs over concurrent containers: every step preserves it. *)
From Coq Require Import NArith Bool List Arith Lia ZifyBool ZifyNat ZifyN Permutation.
From Verif Require Import FloatModel SizeModel SizeProofs GroupModel GroupSpec FoaModel FoaGroup FoaBase FoaFind FoaArr FoaInv FoaRehash FoaSpec FoaWorld FoaRun
  ConcSpec ConcModel ConcWhole ConcInv ConcStep ConcStep2 ConcStep3 ConcSys.
Import ListNotations.
Local Open Scope N_scope.
Notation set_nth := FoaModel.set_nth.

(** lists *)
Lemma set_nth_out {X} (l : list X) i x : (length l <= i)%nat -> set_nth l i x = l.
Proof. intros H. unfold FoaModel.set_nth. rewrite firstn_all2, skipn_all2, app_nil_r by lia. reflexivity. Qed.
Lemma set_nth_same {X} (l : list X) i x : nth_error l i = Some x -> set_nth l i x = l.
Proof.
  intros H. assert (i < length l)%nat as L by (apply nth_error_Some; congruence). apply list_ext. intros j. rewrite set_nth_err by exact L.
  destruct (Nat.eqb_spec j i) as [->|]; [symmetry; exact H|reflexivity].
Qed.
Lemma map_set_nth {X Y} (f : X -> Y) l i x : map f (set_nth l i x) = set_nth (map f l) i (f x).
Proof.
  destruct (Nat.lt_ge_cases i (length l)) as [L|L]; [|rewrite !set_nth_out by (rewrite ?map_length; exact L); reflexivity].
  apply list_ext. intros j. rewrite nth_error_map, !set_nth_err by (rewrite ?map_length; exact L). destruct (Nat.eqb j i); [reflexivity|].
  rewrite nth_error_map. reflexivity.
Qed.
Lemma nth_skipn {X} m (l : list X) n : nth_error (skipn m l) n = nth_error l (m + n).
Proof. revert l. induction m as [|m IH]; intros [|y l]; cbn; auto. destruct n; reflexivity. Qed.
Lemma nth_firstn {X} m (l : list X) n : (n < m)%nat -> nth_error (firstn m l) n = nth_error l n.
Proof. revert l n. induction m as [|m IH]; intros [|y l] [|n] H; cbn; auto; try lia. apply IH. lia. Qed.
Lemma in_others {X} (l : list X) t t' p : nth_error l t' = Some p -> t' <> t -> In p (others l t).
Proof.
  intros H N. unfold others. apply in_or_app. destruct (Nat.lt_ge_cases t' t) as [L|L].
  - left. apply nth_error_In with t'. rewrite nth_firstn by exact L. exact H.
  - right. apply nth_error_In with (t' - S t)%nat. rewrite nth_skipn. rewrite <- H. f_equal. lia.
Qed.

Section Sys2.
Context {K V : Type} (c : Cfg K V).
Hypothesis HC : good_cfg c.
Notation arrays := (arrays K V).
Notation table := (table K V).
Notation Sh := (@Sh K V).
Notation pop := (pop K V). Notation cop := (cop K V). Notation loc := (@loc K V). Notation cres := (cres K V).
Notation ent := (option (cop * loc)).
Notation CInv := (CInv c).
Notation conf := (@conf K V). Notation pc := (@pc K V).
Notation Inv := (Inv c).

Definition view (d : nat) (p : pc) : ent := match p with At d' o l => if Nat.eqb d' d then Some (o, l) else None | _ => None end.
Definition views (C : conf) (d : nat) : list ent := map (view d) (th C).
Record GInv (C : conf) : Prop := {
  gi_box : forall d s, box C d = Some s -> exists k, CInv k s (views C d);
  gi_at : forall t d o l, nth_error (th C) t = Some (At d o l) -> exists s, box C d = Some s }.

Lemma view_at C d t o l : nth_error (views C d) t = Some (Some (o, l)) <-> nth_error (th C) t = Some (At d o l).
Proof.
  unfold views. rewrite nth_error_map. destruct (nth_error (th C) t) as [[|d' o' l'|o'|r']|]; cbn; split; intros H; try discriminate.
  - destruct (Nat.eqb_spec d' d) as [->|]; [injection H as -> ->; reflexivity|discriminate].
  - injection H as -> -> ->. rewrite Nat.eqb_refl. reflexivity.
Qed.
Lemma free_ok C t d g x : free_for C t d g x = true -> frees (views C d) t g x.
Proof.
  intros H t' x' N (o & l & E1 & E2). apply view_at in E1. unfold free_for in H. rewrite forallb_forall in H.
  specialize (H _ (in_others _ _ _ _ E1 N)). cbn [allows] in H. rewrite E2, !Nat.eqb_refl in H. cbn in H. apply andb_true_iff in H as [H1 H2].
  rewrite !negb_true_iff in *. auto.
Qed.
Lemma views_th C t p d : views (set_th C t p) d = set_nth (views C d) t (view d p).
Proof. apply map_set_nth. Qed.
Lemma box_th (C : conf) t p d : box (set_th C t p) d = box C d. Proof. reflexivity. Qed.
Lemma box_lt (C : conf) d (s : Sh) : box C d = Some s -> (d < length (boxes C))%nat.
Proof. unfold box. intros H. apply nth_error_Some. destruct (nth_error (boxes C) d); [congruence|discriminate]. Qed.
Lemma box_set C d (s s0 : Sh) d' : box C d = Some s0 -> box (set_box C d s) d' = if Nat.eqb d' d then Some s else box C d'.
Proof. intros H. unfold box at 1. cbn [set_box boxes]. rewrite set_nth_err by (eapply box_lt; exact H). destruct (Nat.eqb d' d); reflexivity. Qed.

(** a step of a thread in container d *)
Lemma ginv_upd C t d o l s k l' s' : GInv C -> nth_error (th C) t = Some (At d o l) -> box C d = Some s ->
  CInv k s' (set_nth (views C d) t (Some (o, l'))) -> GInv (set_box (set_th C t (At d o l')) d s').
Proof.
  intros G Ht Hb Hk. assert (box (set_th C t (At d o l')) d = Some s) as Hb' by exact Hb. split.
  - intros d' s2 H. rewrite (box_set _ _ _ _ _ Hb') in H. change (views (set_box (set_th C t (At d o l')) d s') d') with (views (set_th C t (At d o l')) d').
    rewrite views_th. cbn [view]. destruct (Nat.eqb_spec d' d) as [->|N].
    + injection H as <-. rewrite Nat.eqb_refl. exists k. exact Hk.
    + rewrite box_th in H. destruct (gi_box _ G d' s2 H) as [k2 H2]. exists k2. destruct (Nat.eqb_spec d d') as [E|_]; [congruence|].
      rewrite set_nth_same; [exact H2|]. unfold views. rewrite nth_error_map, Ht. cbn. destruct (Nat.eqb_spec d d') as [E|_]; [congruence|reflexivity].
  - intros t2 d2 o2 l2 H. rewrite (box_set _ _ _ _ _ Hb'). destruct (Nat.eqb_spec d2 d) as [->|N]; [eauto|]. rewrite box_th.
    cbn [set_box set_th th] in H. destruct (set_cases _ _ _ _ _ _ Ht H) as [[_ E]|[_ E]]; [congruence|]. eapply (gi_at _ G); exact E.
Qed.
Lemma ginv_ent C t x p : GInv C -> nth_error (th C) t = Some x -> (forall d, quiet (view d x)) -> (forall d, quiet (view d p)) ->
  (forall d o l, p = At d o l -> exists s, box C d = Some s) -> GInv (set_th C t p).
Proof.
  intros G Ht Qx Qp Hp. split.
  - intros d s H. rewrite box_th in H. destruct (gi_box _ G d s H) as [k Hk]. exists k. rewrite views_th.
    eapply cinv_quiet_ent; [exact Hk| |apply Qx|apply Qp]. unfold views. rewrite nth_error_map, Ht. reflexivity.
  - intros t2 d o l H. rewrite box_th. cbn [set_th th] in H. destruct (set_cases _ _ _ _ _ _ Ht H) as [[_ E]|[_ E]]; [eapply Hp; eauto|]. eapply (gi_at _ G); exact E.
Qed.

(** whole-container operations *)
Lemma spec_frame (w : world K V) o r w' : spec (keqf c) (moves c) w o r w' ->
  (length w <= length w')%nat /\ forall d, (d < length w)%nat ->
    (nth_error w d = Some None -> nth_error w' d = Some None) /\
    (forall v, nth_error w d = Some (Some v) -> o <> Destroy d -> exists v', nth_error w' d = Some (Some v')).
Proof.
  assert (forall (w1 : world K V) d (v0 v : FoaSpec.view K V), nth_error w1 d = Some (Some v0) ->
    length (set w1 d (Some v)) = length w1 /\ forall j, (nth_error w1 j = Some None -> nth_error (set w1 d (Some v)) j = Some None) /\
      (forall x, nth_error w1 j = Some (Some x) -> exists x', nth_error (set w1 d (Some v)) j = Some (Some x'))) as Z.
  { intros w1 d v0 v Hd. assert (d < length w1)%nat as L by (apply nth_error_Some; congruence). split; [apply set_len, L|]. intros j. rewrite set_err by exact L.
    destruct (Nat.eqb_spec j d) as [->|N]; split; intros; eauto. congruence. }
  assert (forall (w1 : world K V) x j, (j < length w1)%nat -> nth_error (w1 ++ [x]) j = nth_error w1 j) as App by (intros; apply nth_error_app1; assumption).
  assert (forall w1 : world K V, (length w1 <= length w1)%nat /\ forall d, (d < length w1)%nat ->
    (nth_error w1 d = Some None -> nth_error w1 d = Some None) /\ (forall v, nth_error w1 d = Some (Some v) -> o <> Destroy d -> exists v', nth_error w1 d = Some (Some v'))) as Same
    by (intros; split; [lia|]; intros; split; eauto).
  intros S. destruct o as [i o|h p al m|j al|j|j al|i|i j|i j|i j|i j|i j eeq]; cbn [spec] in S.
  - destruct S as (v & l' & H1 & _ & ->). destruct (Z w i _ (View (v_hash v) (v_pred v) (v_alloc v) l') H1) as [Z1 Z2]. split; [lia|]. intros d L. split; intros; [apply (proj1 (Z2 d))|eapply (proj2 (Z2 d))]; eauto.
  - destruct r as [[]|]; try contradiction; [subst w'|destruct S as [_ ->]; apply Same]. rewrite app_length. split; [lia|]. intros d L. rewrite App by exact L. split; eauto.
  - destruct S as (x & H1 & S). destruct r as [[]|]; try contradiction; [destruct S as (l & _ & ->)|subst; apply Same]. rewrite app_length. split; [lia|]. intros d L. rewrite App by exact L. split; eauto.
  - destruct S as (x & H1 & -> & ->). destruct (Z w j _ (View (v_hash x) (v_pred x) (v_alloc x) []) H1) as [Z1 Z2]. rewrite app_length. split; [lia|]. intros d L.
    rewrite App by lia. split; intros; [apply (proj1 (Z2 d))|eapply (proj2 (Z2 d))]; eauto.
  - destruct S as (x & H1 & S). destruct (Z w j _ (View (v_hash x) (v_pred x) (v_alloc x) []) H1) as [Z1 Z2]. destruct r as [[]|]; try contradiction.
    + destruct S as (l & _ & ->). rewrite app_length. split; [lia|]. intros d L. rewrite App by lia. split; intros; [apply (proj1 (Z2 d))|eapply (proj2 (Z2 d))]; eauto.
    + destruct S as [->| ->]; [apply Same|]. split; [lia|]. intros d L. split; intros; [apply (proj1 (Z2 d))|eapply (proj2 (Z2 d))]; eauto.
  - destruct S as (v & H1 & _ & ->). assert (i < length w)%nat as Li by (apply nth_error_Some; congruence). rewrite set_len by exact Li. split; [lia|].
    intros d L. rewrite set_err by exact Li. destruct (Nat.eqb_spec d i) as [->|N]; split; eauto. intros v' _ C. destruct (C eq_refl).
  - destruct S as (t & x & al & l & H1 & H2 & -> & _). destruct (Z w i _ (View (v_hash x) (v_pred x) al l) H1) as [Z1 Z2]. split; [lia|]. intros d L. split; intros; [apply (proj1 (Z2 d))|eapply (proj2 (Z2 d))]; eauto.
  - destruct S as (t & x & al & l & lx & H1 & H2 & -> & _). destruct (Z w i _ (View (v_hash x) (v_pred x) al l) H1) as [Z1 Z2]. destruct (proj2 (Z2 j) _ H2) as [x' H3].
    destruct (Z _ j _ (View (v_hash t) (v_pred t) (v_alloc x) lx) H3) as [Z3 Z4]. split; [lia|]. intros d L. split.
    + intros E. apply Z4, Z2, E.
    + intros v E _. destruct (proj2 (Z2 d) _ E) as [y E']. apply (proj2 (Z4 d) _ E').
  - destruct S as (t & x & H1 & H2 & _ & ->). destruct (Z w i _ x H1) as [Z1 Z2]. destruct (proj2 (Z2 j) _ H2) as [x' H3].
    destruct (Z _ j _ t H3) as [Z3 Z4]. split; [lia|]. intros d L. split.
    + intros E. apply Z4, Z2, E.
    + intros v E _. destruct (proj2 (Z2 d) _ E) as [y E']. apply (proj2 (Z4 d) _ E').
  - destruct S as (t & x & l & lx & H1 & H2 & -> & _). destruct (Z w i _ (View (v_hash t) (v_pred t) (v_alloc t) l) H1) as [Z1 Z2]. destruct (proj2 (Z2 j) _ H2) as [x' H3].
    destruct (Z _ j _ (View (v_hash x) (v_pred x) (v_alloc x) lx) H3) as [Z3 Z4]. split; [lia|]. intros d L. split.
    + intros E. apply Z4, Z2, E.
    + intros v E _. destruct (proj2 (Z2 d) _ E) as [y E']. apply (proj2 (Z4 d) _ E').
  - destruct S as (x & y & _ & _ & -> & _). apply Same.
Qed.

Definition busy (o : op K V) (d : nat) (p : pc) : bool := match o with Destroy _ => on d p | _ => inside d p end.
Lemma idle_slot C o d : slot (idle_world C o) d = match box C d with Some s => if existsb (busy o d) (th C) then None else Some (tb s) | None => None end.
Proof.
  unfold slot, idle_world. rewrite nth_error_map. destruct (Nat.lt_ge_cases d (length (boxes C))) as [L|L].
  - rewrite (nth_error_nth' _ 0%nat) by (rewrite seq_length; exact L). rewrite seq_nth by exact L. cbn [option_map plus].
    destruct (box C d) as [s|]; [|reflexivity]. assert (existsb (match o with Destroy _ => on d | _ => inside d end) (th C) = existsb (busy o d) (th C)) as ->; [|reflexivity].
    unfold busy. destruct o; reflexivity.
  - rewrite (proj2 (nth_error_None (seq 0 (length (boxes C))) d)) by (rewrite seq_length; exact L). cbn.
    unfold box. rewrite (proj2 (nth_error_None _ _)) by exact L. reflexivity.
Qed.
Lemma idle_len (C : conf) o : length (idle_world C o) = length (boxes C).
Proof. unfold idle_world. rewrite map_length, seq_length. reflexivity. Qed.
Lemma not_busy (C : conf) o d : existsb (busy o d) (th C) = false -> Out (views C d).
Proof.
  intros H t o' l E. apply view_at in E. destruct (outside l) eqn:El; [reflexivity|exfalso].
  assert (existsb (busy o d) (th C) = true); [|congruence]. apply existsb_exists. exists (At d o' l). split; [eapply nth_error_In; exact E|].
  unfold busy, on, inside. rewrite Nat.eqb_refl, El. destruct o; reflexivity.
Qed.
Lemma idle_winv C o : GInv C -> WInv c (idle_world C o).
Proof.
  intros G d t H. rewrite idle_slot in H. destruct (box C d) as [s|] eqn:Eb; [|discriminate]. destruct (existsb _ _) eqn:Ex; [discriminate|]. injection H as <-.
  destruct (gi_box _ G d s Eb) as [k Hk]. eapply out_inv; [exact Hk|]. eapply not_busy; exact Ex.
Qed.
Lemma whole_ok C o n r w : GInv C -> wpre c o (idle_world C o) -> returned (wexec c o (idle_world C o) n) r w ->
  WInv c w /\ spec (keqf c) (moves c) (look_all c (idle_world C o)) o r (look_all c w).
Proof.
  intros G P E. pose proof (wexec_ok c HC o _ n (idle_winv C o G) P) as X. unfold OK in X.
  destruct (wexec c o (idle_world C o) n); cbn [FoaBase.outcome returned] in *; [| |destruct X]; destruct E as [-> ->]; split; apply X.
Qed.
Lemma look_nth (w : mworld (K:=K) (V:=V)) d : nth_error (look_all c w) d = option_map (option_map (look c)) (nth_error w d).
Proof. unfold look_all. apply nth_error_map. Qed.
Lemma slot_nth (w : mworld (K:=K) (V:=V)) d : (d < length w)%nat -> nth_error w d = Some (slot w d).
Proof. intros L. unfold slot. destruct (nth_error w d) eqn:E; [reflexivity|]. apply nth_error_None in E. lia. Qed.

(** what a whole-container operation does to each container *)
Lemma whole_cases C o n r w bs : GInv C -> wpre c o (idle_world C o) -> returned (wexec c o (idle_world C o) n) r w ->
  put_back C (idle_world C o) w bs -> let box' d := match nth_error bs d with Some x => x | None => None end in
  (length (boxes C) <= length bs)%nat /\
  forall d, (exists s, box C d = Some s /\ existsb (busy o d) (th C) = true /\ box' d = Some s) \/
            (Out (views C d) /\ (forall s', box' d = Some s' -> Inv (tb s') /\ length (cnt s') = length (a_groups (arr (tb s')))) /\
             (o <> Destroy d -> forall s, box C d = Some s -> exists s', box' d = Some s') /\
             (box C d = None -> (d < length (boxes C))%nat -> box' d = None)).
Proof.
  intros G P E [B1 B2] box'. destruct (whole_ok C o n r w G P E) as [Wi Sp]. destruct (spec_frame _ _ _ _ Sp) as [F1 F2].
  assert (forall x : mworld (K:=K) (V:=V), length (look_all c x) = length x) as Ll by (intros; apply map_length).
  rewrite !Ll, idle_len in F1. split; [lia|]. intros d.
  destruct (Nat.lt_ge_cases d (length w)) as [Lw|Lw].
  - specialize (B2 d Lw). destruct (slot (idle_world C o) d) as [t0|] eqn:Es.
    + right. rewrite idle_slot in Es. destruct (box C d) as [s|] eqn:Eb; [|discriminate]. destruct (existsb (busy o d) (th C)) eqn:Ex; [discriminate|]. injection Es as <-.
      pose proof (box_lt _ _ _ Eb) as Ld. split; [eapply not_busy; exact Ex|]. split; [|split; [|discriminate]].
      * intros s' H. unfold box' in H. destruct (slot w d) as [t|] eqn:Ew.
        -- destruct B2 as (m & B3 & B4). rewrite B3 in H. injection H as <-. cbn [tb cnt]. split; [eapply Wi; exact Ew|exact B4].
        -- rewrite B2 in H. discriminate.
      * intros No s2 [= <-]. destruct (F2 d ltac:(rewrite Ll, idle_len; exact Ld)) as [_ F3]. rewrite !look_nth in F3.
        rewrite (slot_nth (idle_world C o)) in F3 by (rewrite idle_len; exact Ld). rewrite idle_slot, Eb, Ex in F3. cbn [option_map] in F3. destruct (F3 _ eq_refl No) as [v' Hv].
        rewrite (slot_nth w d Lw) in Hv. cbn in Hv. destruct (slot w d) as [t|] eqn:Ew; [|discriminate].
        destruct B2 as (m & B3 & _). unfold box'. rewrite B3. eauto.
    + destruct (box C d) as [s|] eqn:Eb.
      * left. exists s. rewrite idle_slot, Eb in Es. destruct (existsb (busy o d) (th C)) eqn:Ex; [|discriminate]. split; [reflexivity|]. split; [reflexivity|].
        unfold box'. rewrite B2. reflexivity.
      * right. assert (Out (views C d)) as Ho.
        { intros t2 o2 l2 H. apply view_at in H. destruct (gi_at _ G _ _ _ _ H) as [s Hs]. congruence. }
        split; [exact Ho|]. split; [|split; [discriminate|]].
        -- intros s' H. unfold box' in H. destruct (slot w d) as [t|] eqn:Ew; [destruct B2 as (m & B3 & B4)|]; rewrite ?B3, ?B2 in H; [|discriminate].
           injection H as <-. split; [eapply Wi; exact Ew|exact B4].
        -- intros _ Ld. destruct (F2 d ltac:(rewrite Ll, idle_len; exact Ld)) as [F3 _]. rewrite !look_nth in F3.
           rewrite (slot_nth (idle_world C o)) in F3 by (rewrite idle_len; exact Ld). rewrite Es in F3. specialize (F3 eq_refl).
           rewrite (slot_nth w d Lw) in F3. cbn in F3. destruct (slot w d) as [t|]; [discriminate|]. unfold box'. rewrite B2. reflexivity.
  - right. assert (box C d = None) as Eb by (unfold box; rewrite (proj2 (nth_error_None _ _)) by lia; reflexivity).
    assert (box' d = None) as Eb' by (unfold box'; rewrite (proj2 (nth_error_None _ _)) by lia; reflexivity).
    split; [intros t2 o2 l2 H; apply view_at in H; destruct (gi_at _ G _ _ _ _ H) as [s Hs]; congruence|].
    rewrite Eb, Eb'. repeat split; try discriminate; congruence.
Qed.

Lemma ginv_step C e C' : GInv C -> counters_fit C -> gstep c C e C' -> GInv C'.
Proof.
  intros G NW St. destruct St as [C t d o s Ht Hb|C t d o l s i thr e l' a s' Ht Hb Hs Ha|C t d o s n t' n' cn Ht Hb Hal Hr Hc|
    C t d o s n kd t' n' cn Ht Hb Hal Hr Hc|C t d o r Ht|C t o Ht|C t o n r w bs Ht Hp He Hbk|C t r Ht].
  - (* call *) eapply ginv_ent; [exact G|exact Ht| | |].
    + intros d'. exact I.
    + intros d'. cbn. destruct (Nat.eqb d d'); cbn; [split; [reflexivity|destruct o; exact I]|exact I].
    + intros d' o' l' E. injection E as <- <- <-. eauto.
  - (* local *) destruct (gi_box _ G d s Hb) as [k Hk]. pose proof (proj2 (view_at C d t o l) Ht) as Hv.
    assert (l <> LFull) as Nf by (intros ->; destruct o; discriminate Hs).
    assert (forall r, l <> LRet r) as Nr by (intros r ->; destruct o; discriminate Hs).
    pose proof (lstep_ok c k s (views C d) t o l (free_for C t d) i thr Hk Hv (fun g x => free_ok C t d g x)) as X.
    assert (nowrap s l) as Hn.
    { destruct l; try exact I. cbn [nowrap]. intros m Hm. eapply NW; [exact Ht|exact Hb|exact Hm]. }
    specialize (X Hn Nf Nr). rewrite Hs in X. destruct X as (s2 & E1 & E2). assert (s2 = s') by congruence. subst s2.
    eapply ginv_upd; eassumption.
  - (* rehash *) destruct (gi_box _ G d s Hb) as [k Hk].
    assert (Out (views C d)) as Ho.
    { intros t2 o2 l2 H. apply view_at in H. destruct (Nat.eq_dec t2 t) as [->|N]; [rewrite Ht in H; injection H as _ <-; reflexivity|].
      unfold alone in Hal. rewrite forallb_forall in Hal. specialize (Hal _ (in_others _ _ _ _ H N)). cbn in Hal. rewrite Nat.eqb_refl in Hal.
      destruct (outside l2); [reflexivity|discriminate]. }
    pose proof (out_inv c k s _ Hk Ho) as Iv. pose proof (full_ok c HC (tb s) n Iv) as X. rewrite Hr in X. destruct X as (I' & _).
    pose proof (proj2 (view_at C d t o LFull) Ht) as Hv.
    assert (Out (set_nth (views C d) t (Some (o, LEnter)))) as Ho' by (intros t2 o2 l2 H; destruct (set_cases _ _ _ _ _ _ Hv H) as [[_ E]|[_ E]]; [injection E as -> ->; reflexivity|eapply Ho; exact E]).
    destruct (inv_out c t' cn (set_nth (views C d) t (Some (o, LEnter))) I' Hc Ho') as [k' Hk'].
    { intros t2 o2 l2 H. destruct (set_cases _ _ _ _ _ _ Hv H) as [[_ E]|[_ E]]; [injection E as -> ->; destruct o; exact I|apply (cb_ti _ _ _ _ (proj1 Hk) _ _ _ E)]. }
    eapply ginv_upd; eassumption.
  - destruct (gi_box _ G d s Hb) as [k Hk].
    assert (Out (views C d)) as Ho.
    { intros t2 o2 l2 H. apply view_at in H. destruct (Nat.eq_dec t2 t) as [->|N]; [rewrite Ht in H; injection H as _ <-; reflexivity|].
      unfold alone in Hal. rewrite forallb_forall in Hal. specialize (Hal _ (in_others _ _ _ _ H N)). cbn in Hal. rewrite Nat.eqb_refl in Hal.
      destruct (outside l2); [reflexivity|discriminate]. }
    pose proof (out_inv c k s _ Hk Ho) as Iv. pose proof (full_ok c HC (tb s) n Iv) as X. rewrite Hr in X. destruct X as (I' & _).
    pose proof (proj2 (view_at C d t o LFull) Ht) as Hv.
    assert (Out (set_nth (views C d) t (Some (o, LRet RThrew)))) as Ho' by (intros t2 o2 l2 H; destruct (set_cases _ _ _ _ _ _ Hv H) as [[_ E]|[_ E]]; [injection E as -> ->; reflexivity|eapply Ho; exact E]).
    destruct (inv_out c t' cn (set_nth (views C d) t (Some (o, LRet RThrew))) I' Hc Ho') as [k' Hk'].
    { intros t2 o2 l2 H. destruct (set_cases _ _ _ _ _ _ Hv H) as [[_ E]|[_ E]]; [|apply (cb_ti _ _ _ _ (proj1 Hk) _ _ _ E)]. injection E as -> ->.
      pose proof (proj1 (cb_ti _ _ _ _ (proj1 Hk) _ _ _ Hv)) as W. destruct o as [p| |]; try contradiction. destruct p; try discriminate W. exact I. }
    eapply ginv_upd; eassumption.
  - (* return *) eapply ginv_ent; [exact G|exact Ht| | |discriminate].
    + intros d'. cbn. destruct (Nat.eqb_spec d d') as [<-|]; cbn; [|exact I]. split; [reflexivity|].
      destruct (gi_at _ G _ _ _ _ Ht) as [s Hb]. destruct (gi_box _ G d s Hb) as [k Hk]. pose proof (proj2 (view_at C d t o _) Ht) as Hv.
      apply (cb_ti _ _ _ _ (proj1 Hk) _ _ _ Hv).
    + intros d'. exact I.
  - eapply ginv_ent; [exact G|exact Ht| | |discriminate]; intros d'; exact I.
  - (* whole *) destruct (whole_cases C o n r w bs G Hp He Hbk) as [Lb Hw]. set (C' := Conf bs (set_nth (th C) t (RetW r))).
    assert (forall d, views C' d = views C d) as Hvw.
    { intros d. unfold views, C'. cbn [th]. rewrite map_set_nth. apply set_nth_same. rewrite nth_error_map, Ht. reflexivity. }
    split.
    + intros d s' Hb'. rewrite Hvw. change (box C' d) with (match nth_error bs d with Some x => x | None => None end) in Hb'.
      destruct (Hw d) as [(s & H1 & H2 & H3)|(H1 & H2 & H3 & H4)].
      * rewrite H3 in Hb'. injection Hb' as <-. apply (gi_box _ G d s H1).
      * destruct (H2 s' Hb') as [Iv Lc]. destruct s' as [t' cn]. apply inv_out; [exact Iv|exact Lc|exact H1|].
        intros t2 o2 l2 E. apply view_at in E as E'. destruct (gi_at _ G _ _ _ _ E') as [s Hs]. destruct (gi_box _ G d s Hs) as [k Hk].
        apply (cb_ti _ _ _ _ (proj1 Hk) _ _ _ E).
    + intros t2 d o2 l2 H. unfold C' in H. cbn [th] in H. destruct (set_cases _ _ _ _ _ _ Ht H) as [[_ E]|[_ E]]; [discriminate|].
      destruct (gi_at _ G _ _ _ _ E) as [s Hs]. change (box C' d) with (match nth_error bs d with Some x => x | None => None end).
      destruct (Hw d) as [(s1 & H1 & H2 & H3)|(H1 & H2 & H3 & H4)]; [eauto|]. apply (H3) with s; [|exact Hs].
      intros ->. assert (existsb (busy (Destroy d) d) (th C) = true) as Ex.
      { apply existsb_exists. exists (At d o2 l2). split; [eapply nth_error_In; exact E|]. cbn. apply Nat.eqb_refl. }
      destruct Hp as [Hp _]. cbn [pre] in Hp. destruct Hp as [t0 Hp]. rewrite idle_slot, Hs, Ex in Hp. discriminate.
  - eapply ginv_ent; [exact G|exact Ht| | |discriminate]; intros d'; exact I.
Qed.
Lemma ginv_init n : GInv (Conf [] (repeat Idle n)).
Proof.
  split.
  - intros d s H. unfold box in H. cbn in H. destruct d; discriminate.
  - intros t d o l H. apply nth_error_In in H. apply repeat_spec in H. discriminate.
Qed.
Lemma reach_ginv (P : conf -> Prop) n es C : (forall C, P C -> counters_fit C) -> runs_with c P n es C -> GInv C.
Proof.
  intros HP H. induction H as [H|es C e C' H IH St HP']; [apply ginv_init|].
  eapply ginv_step; [exact IH| |exact St]. apply HP. destruct H; assumption.
Qed.
End Sys2.
