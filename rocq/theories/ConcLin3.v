(** The concurrent containers are linearizable: simulation of the atomic machine. *)
From Coq Require Import NArith Bool List Arith Lia ZifyBool ZifyNat ZifyN Permutation.
From Verif Require Import FloatModel SizeModel SizeProofs GroupModel GroupSpec FoaModel FoaGroup FoaBase FoaFind FoaArr FoaInv FoaRehash FoaSpec FoaWorld FoaRun
  ConcSpec ConcModel ConcInv ConcStep ConcStep2 ConcStep3 ConcSys ConcSys2 ConcLin1 ConcLin2.
Import ListNotations.
Local Open Scope N_scope.
Notation set_nth := FoaModel.set_nth.

Section Sim.
Context {K V : Type} (c : Cfg K V).
Hypothesis HC : good_cfg c.
Notation arrays := (arrays K V).
Notation table := (table K V).
Notation Sh := (@Sh K V).
Notation pop := (pop K V). Notation cop := (cop K V). Notation loc := (@loc K V). Notation cres := (cres K V).
Notation CInv := (CInv c).
Notation conf := (@conf K V). Notation pc := (@pc K V).
Notation Inv := (Inv c). Notation GInv := (GInv c).
Notation event := (event K V).
Notation astep := (@astep K V (keqf c) (moves c)). Notation aruns := (@aruns K V (keqf c) (moves c)).

Lemma ar_snoc s es s1 e s2 : aruns s es s1 -> astep s1 (Some e) s2 -> aruns s (es ++ [e]) s2.
Proof. intros H S. induction H; cbn; [eapply ar_cons; [exact S|constructor]|eapply ar_cons; eauto|eapply ar_tau; eauto]. Qed.
Lemma ar_snoc_tau s es s1 s2 : aruns s es s1 -> astep s1 None s2 -> aruns s es s2.
Proof. intros H S. induction H; [eapply ar_tau; [exact S|constructor]|eapply ar_cons; eauto|eapply ar_tau; eauto]. Qed.

Lemma wsum_count (vs : list (option (cop * loc))) : exists ts, NoDup ts /\
  (forall t, In t ts -> exists o l, nth_error vs t = Some (Some (o, l)) /\ wt l <> 0) /\ wsum wt vs <= N.of_nat (length ts).
Proof.
  induction vs as [|x vs (ts & N & H & L)]; [exists []; split; [constructor|]; split; [intros t []|reflexivity]|].
  assert (NoDup (map S ts)) as N1 by (apply FinFun.Injective_map_NoDup; [intros a b E; injection E; auto|exact N]).
  assert (forall t, In t (map S ts) -> exists o l, nth_error (x :: vs) t = Some (Some (o, l)) /\ wt l <> 0) as H1.
  { intros t Ht. apply in_map_iff in Ht as (t1 & <- & Ht). exact (H t1 Ht). }
  cbn [wsum]. destruct (N.eq_dec (went wt x) 0) as [E|E].
  - exists (map S ts). rewrite map_length. split; [exact N1|]. split; [exact H1|]. lia.
  - exists (O :: map S ts). cbn [length]. rewrite map_length. split; [|split].
    + constructor; [|exact N1]. intros C. apply in_map_iff in C as (t1 & C & _). discriminate.
    + intros t [<-|Ht]; [|exact (H1 t Ht)]. destruct x as [[o l]|]; [exists o, l; split; [reflexivity|exact E]|destruct (E eq_refl)].
    + assert (went wt x <= 1); [|lia]. destruct x as [[o l]|]; cbn [went]; [destruct l; cbn [wt]; lia|lia].
Qed.

(** *** what the atomic machine sees *)
Definition vw (s : Sh) : FoaSpec.view K V := View (hid (tb s)) (pid (tb s)) (aid (tb s)) (elems (A s)).
Definition absw (C : conf) : world K V := map (option_map vw) (boxes C).
Lemma absw_box (C : conf) d s : box C d = Some s -> nth_error (absw C) d = Some (Some (vw s)).
Proof. unfold box, absw. rewrite nth_error_map. destruct (nth_error (boxes C) d) as [[x|]|]; try discriminate. intros [= ->]. reflexivity. Qed.
Lemma set_set_nth {X} (l : list X) i x : (i < length l)%nat -> set_nth l i x = set l i x.
Proof. intros L. apply list_ext. intros j. rewrite set_nth_err, set_err by exact L. reflexivity. Qed.
Lemma absw_set (C : conf) d (s0 s : Sh) p t : box C d = Some s0 -> absw (set_box (set_th C t p) d s) = set (absw C) d (Some (vw s)).
Proof.
  intros H. pose proof (box_lt _ _ _ H) as L. unfold absw. cbn [set_box set_th boxes]. rewrite map_set_nth. apply set_set_nth. rewrite map_length. exact L.
Qed.
Lemma absw_same (C : conf) d (s0 s : Sh) p t : box C d = Some s0 -> vw s = vw s0 -> absw (set_box (set_th C t p) d s) = absw C.
Proof. intros H E. rewrite (absw_set C d s0) by exact H. rewrite E. apply set_same, absw_box, H. Qed.

(** a pending lookup may have been decided (found nothing) already *)
Definition rel (p : pc) (b : bool) (x : status K V) : Prop :=
  match p with
  | Idle => x = Free
  | At d o l => x = Pend (OnC d o) (if b then [APoint RNone] else lins o l)
  | AtW o => x = Pend (Whole o) []
  | RetW r => exists o, x = Pend (Whole o) [AWhole r]
  end.
Definition qualb (C : conf) (t : nat) : bool :=
  match nth_error (th C) t with
  | Some (At d (Point p) l) => negb (emplaces p) && match lins (Point p) l with [] => true | _ => false end
  | _ => false end.
Definition absentb (C : conf) (t : nat) : bool :=
  match nth_error (th C) t with
  | Some (At d (Point p) l) => match box C d with Some s => forallb (fun e => negb (keqf c (pid (tb s)) (pkey p) (fst e))) (elems (A s)) | None => false end
  | _ => false end.
Definition Can (C : conf) (ch : nat -> bool) (es : list event) : Prop := exists es' st,
  aruns (AS (fun _ => Free) []) es' (AS st (absw C)) /\ filter visible es' = filter visible es /\
  forall t p, nth_error (th C) t = Some p -> rel p (ch t) (st t).
(** the equivalent element, if any, is still ahead of an undecided lookup *)
Definition Cond (C : conf) (fl : nat -> bool) : Prop := forall t d p l s i e,
  nth_error (th C) t = Some (At d (Point p) l) -> emplaces p = false -> lins (Point p) l = [] -> fl t = false -> box C d = Some s ->
  nth_error (cells (A s)) i = Some (Live e) -> keqf c (pid (tb s)) (pkey p) (fst e) = true -> forall k, Fr c k (A s) -> Ahead k l i.
Definition leb_fl (a b : nat -> bool) : Prop := forall t, a t = true -> b t = true.
Definition Main (C : conf) (es : list event) : Prop := exists fl, leb_fl fl (qualb C) /\
  (forall t, qualb C t = true -> absentb C t = true -> fl t = true) /\ Cond C fl /\ forall ch, leb_fl ch fl -> Can C ch es.

Lemma qual_iff (C : conf) t : qualb C t = true <-> exists d p l, nth_error (th C) t = Some (At d (Point p) l) /\ emplaces p = false /\ lins (Point p) l = [].
Proof.
  unfold qualb. split.
  - destruct (nth_error (th C) t) as [[|d [p| |] l| |]|]; try discriminate. intros H. apply andb_true_iff in H as [H1 H2]. apply negb_true_iff in H1.
    exists d, p, l. split; [reflexivity|]. split; [exact H1|]. destruct (lins (Point p) l); [reflexivity|discriminate].
  - intros (d & p & l & -> & -> & ->). reflexivity.
Qed.

(** deciding the lookups whose key is absent now *)
Lemma can_decide C es fl t : leb_fl fl (qualb C) -> (forall ch, leb_fl ch fl -> Can C ch es) -> qualb C t = true -> absentb C t = true ->
  forall ch, leb_fl ch (fun t' => fl t' || Nat.eqb t' t) -> Can C ch es.
Proof.
  intros Lq Hc Hq Ha ch Hch. destruct (ch t) eqn:Et.
  2:{ apply Hc. intros t' H. specialize (Hch t' H). cbn in Hch. destruct (Nat.eqb_spec t' t) as [E|]; [rewrite E in H; congruence|]. rewrite orb_false_r in Hch. exact Hch. }
  set (ch1 := fun t' => ch t' && negb (Nat.eqb t' t)).
  destruct (Hc ch1) as (es' & st & R1 & R2 & R3).
  { intros t' H. unfold ch1 in H. apply andb_true_iff in H as [H1 H2]. specialize (Hch t' H1). cbn in Hch. destruct (Nat.eqb t' t); [discriminate|]. rewrite orb_false_r in Hch. exact Hch. }
  apply qual_iff in Hq as (d & p & l & Ht & Hp & Hl). unfold absentb in Ha. rewrite Ht in Ha. destruct (box C d) as [s|] eqn:Hb; [|discriminate].
  pose proof (R3 t _ Ht) as Rt. unfold ch1 in Rt. rewrite Nat.eqb_refl, andb_false_r in Rt. cbn [rel] in Rt. rewrite Hl in Rt.
  exists (es' ++ [ELin t (APoint RNone)]), (upd_st st t (Pend (OnC d (Point p)) ([] ++ [APoint RNone]))). split; [|split].
  - eapply ar_snoc; [exact R1|]. apply a_lin; [exact Rt|]. cbn [takes_effect]. split; [reflexivity|]. exists (vw s), (elems (A s)).
    split; [apply absw_box, Hb|]. split; [|symmetry; apply set_same, absw_box, Hb]. cbn [vw v_pred v_elems].
    assert (absent (keqf c) (pid (tb s)) (pkey p) (elems (A s))) as Hab.
    { intros e He. rewrite forallb_forall in Ha. specialize (Ha e He). apply negb_true_iff in Ha. exact Ha. }
    destruct p; try discriminate Hp; cbn [pspec pkey] in *; auto.
  - rewrite filter_app. cbn. rewrite app_nil_r. exact R2.
  - intros t' q Hq'. unfold upd_st. destruct (Nat.eqb_spec t' t) as [->|N].
    + rewrite Ht in Hq'. injection Hq' as <-. cbn [rel]. rewrite Et. reflexivity.
    + specialize (R3 t' q Hq'). unfold ch1 in R3. destruct (Nat.eqb_spec t' t); [contradiction|]. cbn in R3. rewrite andb_true_r in R3. exact R3.
Qed.
Lemma can_decide_all C es fl L : leb_fl fl (qualb C) -> (forall ch, leb_fl ch fl -> Can C ch es) ->
  let fl' := fun t => fl t || (existsb (Nat.eqb t) L && (qualb C t && absentb C t)) in
  leb_fl fl' (qualb C) /\ forall ch, leb_fl ch fl' -> Can C ch es.
Proof.
  intros Hq Hc. induction L as [|t L IH]; cbn [existsb].
  - split; intros t H; [|apply Hc; intros t' Ht'; specialize (H t' Ht'); cbn in H; rewrite orb_false_r in H; exact H].
    cbn in H. rewrite orb_false_r in H. apply Hq, H.
  - cbv zeta in IH. destruct IH as [IH1 IH2]. cbv zeta. split.
    + intros t' H. apply orb_true_iff in H as [H|H]; [apply Hq, H|]. rewrite !andb_true_iff in H. apply H.
    + intros ch Hch. destruct (qualb C t && absentb C t) eqn:E.
      * apply andb_true_iff in E as [E1 E2]. eapply can_decide; [exact IH1|exact IH2|exact E1|exact E2|].
        intros t' H. specialize (Hch t' H). cbn in Hch |- *. destruct (Nat.eqb_spec t' t) as [Et|N]; [rewrite orb_true_r; reflexivity|]. rewrite orb_false_r. exact Hch.
      * apply IH2. intros t' H. specialize (Hch t' H). cbn in Hch |- *. destruct (Nat.eqb_spec t' t) as [Et|N]; [|exact Hch]. rewrite Et in Hch |- *. rewrite E in *. rewrite andb_false_r in *. exact Hch.
Qed.
Lemma main_build C es fl : leb_fl fl (qualb C) -> (forall ch, leb_fl ch fl -> Can C ch es) -> Cond C fl -> Main C es.
Proof.
  intros Hq Hc Hd. destruct (can_decide_all C es fl (seq 0 (length (th C))) Hq Hc) as [H1 H2]. eexists. split; [exact H1|]. split; [|split; [|exact H2]].
  - intros t E1 E2. cbn. rewrite E1, E2, andb_true_r. apply orb_true_iff. right. apply existsb_exists. exists t. split; [|apply Nat.eqb_refl].
    apply in_seq. apply qual_iff in E1 as (d & p & l & Ht & _). pose proof (nth_error_Some_lt _ _ _ Ht). lia.
  - intros t d p l s i e Ht Hp Hl Hf. cbn in Hf. apply orb_false_iff in Hf as [Hf _]. eapply Hd; eassumption.
Qed.

(** an undecided lookup has an equivalent element, ahead of it *)
Lemma undecided C es fl t d p l s : GInv C -> (forall t, qualb C t = true -> absentb C t = true -> fl t = true) -> Cond C fl -> Main C es ->
  nth_error (th C) t = Some (At d (Point p) l) -> emplaces p = false -> lins (Point p) l = [] -> fl t = false -> box C d = Some s ->
  exists i e, nth_error (cells (A s)) i = Some (Live e) /\ keqf c (pid (tb s)) (pkey p) (fst e) = true /\ forall k, Fr c k (A s) -> Ahead k l i.
Proof.
  intros G Hab Hc _ Ht Hp Hl Hf Hb. assert (qualb C t = true) as Hq by (apply qual_iff; eauto 8).
  destruct (absentb C t) eqn:Ea; [rewrite (Hab t Hq Ea) in Hf; discriminate|]. unfold absentb in Ea. rewrite Ht, Hb in Ea.
  assert (exists e, In e (elems (A s)) /\ keqf c (pid (tb s)) (pkey p) (fst e) = true) as (e & He & Ek).
  { clear - Ea. induction (elems (A s)) as [|e l IH]; [discriminate|]. cbn [forallb] in Ea. destruct (keqf c (pid (tb s)) (pkey p) (fst e)) eqn:E.
    - exists e. split; [now left|exact E].
    - cbn in Ea. destruct (IH Ea) as (e' & H1 & H2). exists e'. split; [now right|exact H2]. }
  apply in_elems in He as [i Hi]. exists i, e. split; [exact Hi|]. split; [exact Ek|]. intros k Hk. eapply Hc; eassumption.
Qed.
Lemma fr_inj k k' (a a' : arrays) : Fr c k a -> Fr c k' a' -> a_gsi a' = a_gsi a -> k' = k.
Proof. intros H H' E. apply fr_geo in H. apply fr_geo in H'. pose proof (ge_gsi _ _ H). pose proof (ge_gsi _ _ H'). pose proof (ge_k _ _ H). pose proof (ge_k _ _ H'). lia. Qed.
Lemma ap_gsi e (s s' : Sh) : apply e s = Some s' -> a_gsi (A s') = a_gsi (A s).
Proof.
  destruct e; cbn [apply]; unfold on_groups, put_group, put_cell, A; intros H;
  repeat match type of H with context [match ?x with _ => _ end] => lazymatch x with context [match _ with _ => _ end] => fail | _ => destruct x; try discriminate end end;
  injection H as <-; reflexivity.
Qed.
Lemma equiv_same p k0 q q' : equivalence c p -> keqf c p k0 q = true -> keqf c p k0 q' = true -> keqf c p q q' = true.
Proof. intros (_ & Sy & Tr) H1 H2. apply (Tr q k0 q'); [rewrite Sy; exact H1|exact H2]. Qed.
(** at an outside position an undecided lookup has not started *)
Lemma out_ahead p (l : loc) k i0 : wf (Point p) l -> emplaces p = false -> lins (Point p) l = [] -> outside l = true ->
  (exists k0, Ahead k0 l i0) -> forall i, Ahead k l i.
Proof.
  intros W Hp Hl Ho (k0 & H) i. destruct l; try discriminate Ho; cbn [wf] in W; try (rewrite W in Hp; discriminate Hp); cbn in *; auto.
Qed.

Lemma cond_out C es fl C' fl' : GInv C -> (forall t, qualb C t = true -> absentb C t = true -> fl t = true) -> Cond C fl -> Main C es ->
  (forall t d p l, nth_error (th C') t = Some (At d (Point p) l) -> emplaces p = false -> lins (Point p) l = [] -> fl' t = false ->
     nth_error (th C) t = Some (At d (Point p) l) /\ fl t = false) ->
  (forall d, box C' d = box C d \/ Out (views C d)) -> Cond C' fl'.
Proof.
  intros G Fa Fc HM Ht Hd t d p l s i e H Hp Hl Hf Hb Hi Hq k Hk. destruct (Ht t d p l H Hp Hl Hf) as [H0 Hf0].
  destruct (Hd d) as [E|E].
  - rewrite E in Hb. eapply Fc; eassumption.
  - destruct (gi_at _ _ G _ _ _ _ H0) as [s0 Hb0]. destruct (gi_box _ _ G d s0 Hb0) as [k0 [B U]]. pose proof (proj2 (view_at C d t (Point p) l) H0) as Hv.
    destruct (undecided C es fl t d p l s0 G Fa Fc HM H0 Hp Hl Hf0 Hb0) as (i0 & e0 & U1 & U2 & U3).
    apply (out_ahead p l k i0); [apply (cb_ti _ _ _ _ B _ _ _ Hv)|exact Hp|exact Hl|eapply E; exact Hv|].
    exists k0. apply U3. exact (cb_fr _ _ _ _ B).
Qed.
Lemma alone_out (C : conf) t d o l : nth_error (th C) t = Some (At d o l) -> outside l = true -> alone C t d = true -> Out (views C d).
Proof.
  intros Ht Ho Hal t2 o2 l2 H. apply view_at in H. destruct (Nat.eq_dec t2 t) as [->|N]; [rewrite Ht in H; injection H as _ <-; exact Ho|].
  unfold alone in Hal. rewrite forallb_forall in Hal. specialize (Hal _ (in_others _ _ _ _ H N)). cbn in Hal. rewrite Nat.eqb_refl in Hal.
  destruct (outside l2); [reflexivity|discriminate].
Qed.
Lemma same_view_refl (v : FoaSpec.view K V) : same_view v v.
Proof. repeat split; reflexivity. Qed.
Lemma same_world_set (w : world K V) d v v' : nth_error w d = Some (Some v) -> same_view v v' -> same_world w (set w d (Some v')).
Proof.
  intros H S. unfold same_world. revert d H. induction w as [|x w IH]; intros [|d] H; cbn in *; try discriminate.
  - injection H as ->. constructor; [exact S|]. clear. induction w as [|y w IH]; constructor; [destruct y; [apply same_view_refl|exact I]|exact IH].
  - constructor; [destruct x; [apply same_view_refl|exact I]|]. apply (IH d H).
Qed.
Lemma mask_idle C o : GInv C -> Mask (absw C) (look_all c (idle_world C o)).
Proof.
  intros G. unfold Mask, absw. rewrite map_length. unfold look_all at 1. rewrite map_length, idle_len. split; [reflexivity|]. intros d.
  rewrite look_nth, nth_error_map. destruct (Nat.lt_ge_cases d (length (boxes C))) as [L|L].
  - rewrite (slot_nth (idle_world C o)) by (rewrite idle_len; exact L). rewrite idle_slot. unfold box.
    destruct (nth_error (boxes C) d) as [[s|]|] eqn:E; cbn [option_map]; [|auto|apply nth_error_None in E; lia].
    destruct (existsb (busy o d) (th C)) eqn:Ex; [right; reflexivity|left]. cbn [option_map]. unfold vw. rewrite (look_eq c); [reflexivity|].
    apply (idle_winv c C o G d). rewrite idle_slot. unfold box. rewrite E, Ex. reflexivity.
  - left. rewrite (proj2 (nth_error_None (idle_world C o) d)) by (rewrite idle_len; exact L). rewrite (proj2 (nth_error_None (boxes C) d)) by exact L. reflexivity.
Qed.
Lemma over_back C o w bs : GInv C -> WInv c w -> put_back C (idle_world C o) w bs -> (length (boxes C) <= length w)%nat -> forall ths,
  over (absw C) (look_all c (idle_world C o)) (look_all c w) = absw (Conf bs ths).
Proof.
  intros G Wi [B1 B2] Lw ths. apply list_ext. intros d. unfold absw at 2. cbn [boxes]. rewrite nth_error_map.
  assert (length (look_all c w) = length w) as Ll by apply map_length.
  destruct (Nat.lt_ge_cases d (length w)) as [L|L].
  2:{ rewrite over_out by (rewrite Ll; exact L). rewrite (proj2 (nth_error_None bs d)) by lia. reflexivity. }
  rewrite over_err by (rewrite Ll; exact L). specialize (B2 d L). unfold at_. rewrite !look_nth, (slot_nth w d L).
  assert (match slot w d with
      | Some t => exists n : list N, nth_error bs d = Some (Some {| tb := t; cnt := n |}) /\ length n = length (a_groups (arr t))
      | None => nth_error bs d = Some None end -> Some (option_map (look c) (slot w d)) = option_map (option_map vw) (nth_error bs d)) as Z.
  { destruct (slot w d) as [t|] eqn:Es; [intros (n & -> & _)|intros ->]; [|reflexivity]. cbn. rewrite (look_eq c) by (eapply Wi; exact Es). reflexivity. }
  cbn [option_map] in *. destruct (Nat.lt_ge_cases d (length (boxes C))) as [Lb|Lb].
  - rewrite (slot_nth (idle_world C o)) by (rewrite idle_len; exact Lb). destruct (slot (idle_world C o) d) as [t0|] eqn:E0; cbn [option_map].
    + apply Z. exact B2.
    + destruct (box C d) as [s|] eqn:Eb.
      * rewrite (absw_box _ _ _ Eb), B2. reflexivity.
      * assert (nth_error (absw C) d = Some None) as ->; [|apply Z; exact B2]. unfold absw. rewrite nth_error_map. unfold box in Eb.
        destruct (nth_error (boxes C) d) as [[s|]|] eqn:En; [discriminate|reflexivity|]. apply nth_error_None in En. lia.
  - rewrite (proj2 (nth_error_None (idle_world C o) d)) by (rewrite idle_len; exact Lb). cbn [option_map]. apply Z.
    assert (box C d = None) as Eb by (unfold box; rewrite (proj2 (nth_error_None (boxes C) d)) by exact Lb; reflexivity).
    rewrite Eb in B2. destruct (slot (idle_world C o) d); exact B2.
Qed.

Lemma main_step C es e C' : GInv C -> counters_fit C -> gstep c C e C' -> Main C es -> Main C' (es ++ match e with Some x => [x] | None => [] end).
Proof.
  intros G NW St HM. pose proof (ginv_step c HC C e C' G NW St) as G'. pose proof HM as (fl & Fq & Fa & Fc & Hcan).
  (* lookups of other threads, in containers that did not change *)
  assert (forall t d p l s i e0 k, nth_error (th C) t = Some (At d (Point p) l) -> emplaces p = false -> lins (Point p) l = [] -> fl t = false -> box C d = Some s ->
    nth_error (cells (A s)) i = Some (Live e0) -> keqf c (pid (tb s)) (pkey p) (fst e0) = true -> Fr c k (A s) -> Ahead k l i) as Keep by (intros; eapply Fc; eassumption).
  destruct St as [C t d o s Ht Hb|C t d o l s i thr e l' a s' Ht Hb Hs Ha|C t d o s n t' n' cn Ht Hb Hal Hr Hc|
    C t d o s n kd t' n' cn Ht Hb Hal Hr Hc|C t d o r Ht|C t o Ht|C t o n r w bs Ht Hp He Hbk|C t r Ht].
  - (* call *)
    assert (fl t = false) as Ft by (destruct (fl t) eqn:E; [|reflexivity]; specialize (Fq t E); unfold qualb in Fq; rewrite Ht in Fq; discriminate).
    apply (main_build _ _ fl).
    + intros t1 H1. assert (t1 <> t) as N by congruence. specialize (Fq t1 H1). unfold qualb in *. cbn [set_th th]. rewrite others_err by exact N. exact Fq.
    + intros ch Hch. destruct (Hcan ch Hch) as (es' & st & R1 & R2 & R3). pose proof (R3 t _ Ht) as Rt. cbn [rel] in Rt.
      exists (es' ++ [ECall t (OnC d o)]), (upd_st st t (Pend (OnC d o) [])). split; [|split].
      * eapply ar_snoc; [exact R1|]. apply a_inv. exact Rt.
      * rewrite !filter_app, R2. reflexivity.
      * intros t1 p H. cbn [set_th th] in H. unfold upd_st. destruct (set_cases _ _ _ _ _ _ Ht H) as [[-> ->]|[N E]].
        -- rewrite Nat.eqb_refl. cbn [rel]. assert (ch t = false) as -> by (destruct (ch t) eqn:E; [apply Hch in E; congruence|reflexivity]). destruct o; reflexivity.
        -- destruct (Nat.eqb_spec t1 t); [contradiction|]. apply R3, E.
    + intros t1 d1 p1 l1 s1 i1 e1 H Hp Hl Hf Hb1 Hi Hk k Hfr. cbn [set_th th] in H. destruct (set_cases _ _ _ _ _ _ Ht H) as [[-> E]|[N E]].
      * injection E as _ _ E. rewrite E. exact I.
      * rewrite box_th in Hb1. eapply Fc; eassumption.
  - (* local step *)
    destruct (gi_box _ _ G d s Hb) as [k Hk]. pose proof (proj2 (view_at C d t o l) Ht) as Hv.
    pose proof (lin_ok c k s (views C d) t o l (free_for C t d) i thr Hk Hv) as X. rewrite Hs in X. cbn [lin_good] in X. destruct X as (X1 & X2 & X3).
    specialize (X2 s' Ha). specialize (X3 s' Ha). destruct (ap_ids _ _ _ Ha) as (I1 & I2 & I3). pose proof Hk as [B U].
    set (C' := set_box (set_th C t (At d o l')) d s') in *.
    assert (nth_error (th C') t = Some (At d o l')) as Ht' by (apply (self_err _ _ _ _ Ht)).
    assert (forall t1, t1 <> t -> nth_error (th C') t1 = nth_error (th C) t1) as Hto by (intros; apply others_err; assumption).
    apply (main_build _ _ (fun t1 => fl t1 && qualb C' t1)).
    + intros t1 H1. cbn in H1. apply andb_true_iff in H1. apply H1.
    + intros ch Hch. assert (leb_fl ch fl) as Hch1 by (intros t1 H1; specialize (Hch t1 H1); cbn in Hch; apply andb_true_iff in Hch; apply Hch).
      destruct (Hcan ch Hch1) as (es' & st & R1 & R2 & R3). pose proof (R3 t _ Ht) as Rt. cbn [rel] in Rt. destruct a as [x|]; cbn [option_map].
      * assert (ch t = false) as Ect.
        { destruct (ch t) eqn:E; [|reflexivity]. apply Hch in E. cbn in E. apply andb_true_iff in E as [_ E]. apply qual_iff in E as (d1 & p1 & l1 & E1 & _ & E2).
          rewrite Ht' in E1. injection E1 as -> -> ->. rewrite X1 in E2. destruct (lins (Point p1) l); discriminate. }
        rewrite Ect in Rt. exists (es' ++ [ELin t x]), (upd_st st t (Pend (OnC d o) (lins o l ++ [x]))). split; [|split].
        -- eapply ar_snoc; [exact R1|]. apply a_lin; [exact Rt|]. unfold C'. rewrite (absw_set C d s) by exact Hb.
           destruct o as [q|bx md f|], x as [r|e1 b|n|r]; cbn [effect] in X2; try contradiction; cbn [takes_effect].
           ++ destruct X2 as [E0 X2]. split; [destruct (lins (Point q) l); [reflexivity|discriminate]|]. exists (vw s), (elems (A s')).
              split; [apply absw_box, Hb|]. split; [exact X2|]. unfold vw. cbn. congruence.
           ++ exists (vw s), (elems (A s')). split; [apply absw_box, Hb|]. split; [exact X2|]. unfold vw. cbn. congruence.
           ++ destruct X2 as (E0 & E1 & E2). destruct (wsum_count (views C d)) as (ts & T1 & T2 & T3).
              split; [destruct (lins SizeOf l); [reflexivity|discriminate]|]. split; [unfold vw; rewrite I1, I2, I3, E1; apply set_same, absw_box, Hb|].
              exists (vw s), ts. split; [apply absw_box, Hb|]. split; [|cbn; lia]. split; [exact T1|]. split.
              ** intros Hin. destruct (T2 t Hin) as (o2 & l2 & Z1 & Z2). rewrite Hv in Z1. injection Z1 as <- <-.
                 destruct (cb_ti _ _ _ _ B _ _ _ Hv) as [W _]. destruct l; cbn [wf] in W; try contradiction; apply Z2; reflexivity.
              ** intros t1 Hin. destruct (T2 t1 Hin) as (o2 & l2 & Z1 & _). apply view_at in Z1. specialize (R3 t1 _ Z1). cbn [rel] in R3. eauto.
        -- rewrite !filter_app, R2. reflexivity.
        -- intros t1 p H. unfold upd_st. destruct (Nat.eqb_spec t1 t) as [->|N].
           ++ rewrite Ht' in H. injection H as <-. cbn [rel]. rewrite Ect, X1. reflexivity.
           ++ rewrite Hto in H by exact N. apply R3, H.
      * rewrite app_nil_r. exists es', st. split; [|split; [exact R2|]].
        -- unfold C'. rewrite (absw_same C d s); [exact R1|exact Hb|]. unfold vw. rewrite I1, I2, I3, (cells_elems s s') by exact X2. reflexivity.
        -- intros t1 p H. destruct (Nat.eq_dec t1 t) as [->|N].
           ++ rewrite Ht' in H. injection H as <-. cbn [rel]. rewrite X1. cbn [opt]. rewrite app_nil_r. exact Rt.
           ++ rewrite Hto in H by exact N. apply R3, H.
    + intros t1 d1 p1 l1 s1 i1 e1 H Hp Hl Hf Hb1 Hi Hq k1 Hfr.
      assert (fl t1 = false) as Hf1.
      { cbn in Hf. assert (qualb C' t1 = true) as E by (apply qual_iff; eauto 8). rewrite E, andb_true_r in Hf. exact Hf. }
      assert (box C' d1 = if Nat.eqb d1 d then Some s' else box C d1) as Eb by (apply (box_set (set_th C t (At d o l')) d s' s); exact Hb).
      rewrite Eb in Hb1. destruct (Nat.eqb_spec d1 d) as [->|Nd].
      2:{ assert (t1 <> t) as N by (intros ->; congruence). rewrite Hto in H by exact N. eapply Keep; eassumption. }
      injection Hb1 as <-. assert (k1 = k) as -> by (eapply fr_inj; [exact (cb_fr _ _ _ _ B)|exact Hfr|eapply ap_gsi; exact Ha]).
      rewrite I2 in Hq.
      assert (Pk s (views C d) i1 (fst e1)) as Pi.
      { destruct (X3 i1 e1 Hi) as [(e2 & E1 & E2)|(p2 & x2 & n2 & -> & -> & E1 & E2)].
        - left. exists e2. auto.
        - right. exists t, p2, x2, n2. auto. }
      assert (forall i0 e0, nth_error (cells (A s)) i0 = Some (Live e0) -> keqf c (pid (tb s)) (pkey p1) (fst e0) = true -> i0 = i1) as Same.
      { intros i0 e0 H0 Hq0. apply (cu_uniq _ _ _ _ U i0 i1 (fst e0) (fst e1)); [left; eauto|exact Pi|].
        eapply equiv_same; [apply (cb_compat _ _ _ _ B)|exact Hq0|exact Hq]. }
      destruct (Nat.eq_dec t1 t) as [->|N].
      * rewrite Ht' in H. injection H as -> ->. rewrite Hl in X1. symmetry in X1. apply app_eq_nil in X1 as [X1 _].
        destruct (undecided C es fl t d p1 l s G Fa Fc HM Ht Hp X1 Hf1 Hb) as (i0 & e0 & U1 & U2 & U3).
        rewrite <- (Same i0 e0 U1 U2). eapply (ahead_ok c k s (views C d) t p1 l); [exact B|exact Hv|exact Hs|left; eauto|exact U2|].
        apply U3. exact (cb_fr _ _ _ _ B).
      * rewrite Hto in H by exact N. destruct (undecided C es fl t1 d p1 l1 s G Fa Fc HM H Hp Hl Hf1 Hb) as (i0 & e0 & U1 & U2 & U3).
        rewrite <- (Same i0 e0 U1 U2). apply U3. exact (cb_fr _ _ _ _ B).
  - (* rehash *)
    destruct (gi_box _ _ G d s Hb) as [k Hk]. pose proof (alone_out C t d o LFull Ht eq_refl Hal) as Ho.
    pose proof (out_inv c k s _ Hk Ho) as Iv. pose proof (full_ok c HC (tb s) n Iv) as X. rewrite Hr in X. destruct X as (I' & [J1 J2 J3] & P').
    pose proof (proj2 (view_at C d t o LFull) Ht) as Hv. pose proof (proj1 (cb_ti _ _ _ _ (proj1 Hk) _ _ _ Hv)) as W.
    destruct o as [p| |]; try contradiction. cbn [wf] in W. rewrite app_nil_r.
    set (C' := set_box (set_th C t (At d (Point p) LEnter)) d (MkSh t' cn)) in *.
    assert (nth_error (th C') t = Some (At d (Point p) LEnter)) as Ht' by (apply (self_err _ _ _ _ Ht)).
    assert (forall t1, t1 <> t -> nth_error (th C') t1 = nth_error (th C) t1) as Hto by (intros; apply others_err; assumption).
    assert (fl t = false) as Ft.
    { destruct (fl t) eqn:E; [|reflexivity]. apply Fq, qual_iff in E as (d1 & p1 & l1 & E1 & E2 & _). rewrite Ht in E1. injection E1 as <- <- <-. congruence. }
    apply (main_build _ _ fl).
    + intros t1 H1. assert (t1 <> t) as N by congruence. specialize (Fq t1 H1). unfold qualb in *. rewrite Hto by exact N. exact Fq.
    + intros ch Hch. destruct (Hcan ch Hch) as (es' & st & R1 & R2 & R3). exists es', st. split; [|split; [exact R2|]].
      * eapply ar_snoc_tau; [exact R1|]. apply a_order. unfold C'. rewrite (absw_set C d s) by exact Hb.
        apply same_world_set with (vw s); [apply absw_box, Hb|]. unfold same_view, vw, A. cbn. symmetry in P'. auto.
      * intros t1 q H. destruct (Nat.eq_dec t1 t) as [->|N].
        -- rewrite Ht' in H. injection H as <-. apply (R3 t _ Ht).
        -- rewrite Hto in H by exact N. apply R3, H.
    + apply (cond_out C es fl); try assumption.
      * intros t1 d1 p1 l1 H Hp Hl Hf. assert (t1 <> t) as N by (intros ->; rewrite Ht' in H; injection H as <- <- <-; congruence).
        rewrite Hto in H by exact N. auto.
      * intros d1. unfold C'. rewrite (box_set (set_th C t (At d (Point p) LEnter)) d _ s) by exact Hb. destruct (Nat.eqb_spec d1 d) as [->|]; [right; exact Ho|left; reflexivity].
  - (* rehash, exception *)
    destruct (gi_box _ _ G d s Hb) as [k Hk]. pose proof (alone_out C t d o LFull Ht eq_refl Hal) as Ho.
    pose proof (out_inv c k s _ Hk Ho) as Iv. pose proof (full_ok c HC (tb s) n Iv) as X. rewrite Hr in X. destruct X as (I' & [J1 J2 J3] & lost & P' & Hm).
    pose proof (proj2 (view_at C d t o LFull) Ht) as Hv. pose proof (proj1 (cb_ti _ _ _ _ (proj1 Hk) _ _ _ Hv)) as W.
    destruct o as [p| |]; try contradiction. cbn [wf] in W.
    set (C' := set_box (set_th C t (At d (Point p) (LRet RThrew))) d (MkSh t' cn)) in *.
    assert (nth_error (th C') t = Some (At d (Point p) (LRet RThrew))) as Ht' by (apply (self_err _ _ _ _ Ht)).
    assert (forall t1, t1 <> t -> nth_error (th C') t1 = nth_error (th C) t1) as Hto by (intros; apply others_err; assumption).
    assert (fl t = false) as Ft.
    { destruct (fl t) eqn:E; [|reflexivity]. apply Fq, qual_iff in E as (d1 & p1 & l1 & E1 & E2 & _). rewrite Ht in E1. injection E1 as <- <- <-. congruence. }
    apply (main_build _ _ fl).
    + intros t1 H1. assert (t1 <> t) as N by congruence. specialize (Fq t1 H1). unfold qualb in *. rewrite Hto by exact N. exact Fq.
    + intros ch Hch. destruct (Hcan ch Hch) as (es' & st & R1 & R2 & R3). pose proof (R3 t _ Ht) as Rt. cbn [rel lins] in Rt.
      assert (ch t = false) as Ect by (destruct (ch t) eqn:E; [apply Hch in E; congruence|reflexivity]). rewrite Ect in Rt.
      exists (es' ++ [ELin t (APoint RThrew)]), (upd_st st t (Pend (OnC d (Point p)) ([] ++ [APoint RThrew]))). split; [|split].
      * eapply ar_snoc; [exact R1|]. apply a_lin; [exact Rt|]. cbn [takes_effect]. split; [reflexivity|]. exists (vw s), (elems (arr t')).
        split; [apply absw_box, Hb|]. split.
        -- destruct p as [| |bx k0 v0 f1 f2]; try discriminate W. cbn [pspec]. destruct (moves c) eqn:Em.
           ++ right. right. right. exists lost. split; [reflexivity|exact P'].
           ++ left. rewrite (Hm eq_refl) in P'. symmetry. exact P'.
        -- unfold C'. rewrite (absw_set C d s) by exact Hb. unfold vw, A. cbn. congruence.
      * rewrite !filter_app, R2. reflexivity.
      * intros t1 q H. unfold upd_st. destruct (Nat.eqb_spec t1 t) as [->|N].
        -- rewrite Ht' in H. injection H as <-. cbn [rel lins]. rewrite Ect. reflexivity.
        -- rewrite Hto in H by exact N. apply R3, H.
    + apply (cond_out C es fl); try assumption.
      * intros t1 d1 p1 l1 H Hp Hl Hf. assert (t1 <> t) as N by (intros ->; rewrite Ht' in H; injection H as <- <- <-; congruence).
        rewrite Hto in H by exact N. auto.
      * intros d1. unfold C'. rewrite (box_set (set_th C t (At d (Point p) (LRet RThrew))) d _ s) by exact Hb. destruct (Nat.eqb_spec d1 d) as [->|]; [right; exact Ho|left; reflexivity].
  - (* return *)
    destruct (gi_at _ _ G _ _ _ _ Ht) as [s Hb]. destruct (gi_box _ _ G d s Hb) as [k Hk].
    pose proof (proj2 (view_at C d t o (LRet r)) Ht) as Hv. pose proof (proj1 (cb_ti _ _ _ _ (proj1 Hk) _ _ _ Hv)) as W.
    set (C' := set_th C t Idle) in *.
    assert (nth_error (th C') t = Some Idle) as Ht' by (apply (self_err _ _ _ _ Ht)).
    assert (forall t1, t1 <> t -> nth_error (th C') t1 = nth_error (th C) t1) as Hto by (intros; apply others_err; assumption).
    assert (exists b, (b = true -> fl t = true) /\ answers (OnC d o) (if b then [APoint RNone] else lins o (LRet r)) (AnsC r)) as (b & Hbf & Hans).
    { destruct o as [p|bx md f|].
      - cbn [wf] in W. destruct r eqn:Er; try (exists false; split; [discriminate|reflexivity]).
        + exists true. split; [|reflexivity]. intros _. destruct (fl t) eqn:Ef; [reflexivity|].
          assert (emplaces p = false) as Hp by (destruct p; [reflexivity|reflexivity|contradiction]).
          destruct (undecided C es fl t d p (LRet RNone) s G Fa Fc HM Ht Hp eq_refl Ef Hb) as (i0 & e0 & _ & _ & U3).
          destruct (U3 k (cb_fr _ _ _ _ (proj1 Hk))).
      - cbn [wf] in W. destruct r; try contradiction. exists false. split; [discriminate|]. cbn [answers lins]. auto.
      - cbn [wf] in W. destruct r; try contradiction. exists false. split; [discriminate|]. reflexivity. }
    apply (main_build _ _ (fun t1 => fl t1 && negb (Nat.eqb t1 t))).
    + intros t1 H1. cbn in H1. apply andb_true_iff in H1 as [H1 H2]. destruct (Nat.eqb_spec t1 t) as [|N]; [discriminate|].
      specialize (Fq t1 H1). unfold qualb in *. rewrite Hto by exact N. exact Fq.
    + intros ch Hch. destruct (Hcan (fun t1 => if Nat.eqb t1 t then b else ch t1)) as (es' & st & R1 & R2 & R3).
      { intros t1 H1. cbn in H1. destruct (Nat.eqb_spec t1 t) as [E|N]; [rewrite E; auto|]. specialize (Hch t1 H1). cbn in Hch. apply andb_true_iff in Hch. apply Hch. }
      pose proof (R3 t _ Ht) as Rt. cbn [rel] in Rt. rewrite Nat.eqb_refl in Rt.
      exists (es' ++ [ERet t (AnsC r)]), (upd_st st t Free). split; [|split].
      * eapply ar_snoc; [exact R1|]. eapply a_res; [exact Rt|exact Hans].
      * rewrite !filter_app, R2. reflexivity.
      * intros t1 q H. unfold upd_st. destruct (Nat.eqb_spec t1 t) as [->|N].
        -- rewrite Ht' in H. injection H as <-. reflexivity.
        -- rewrite Hto in H by exact N. specialize (R3 t1 q H). destruct (Nat.eqb_spec t1 t); [contradiction|exact R3].
    + apply (cond_out C es fl); try assumption.
      * intros t1 d1 p1 l1 H Hp Hl Hf. assert (t1 <> t) as N by (intros ->; rewrite Ht' in H; discriminate).
        rewrite Hto in H by exact N. split; [exact H|]. cbn in Hf. destruct (Nat.eqb_spec t1 t); [contradiction|]. rewrite andb_true_r in Hf. exact Hf.
      * intros d1. left. reflexivity.
  - (* call of a whole operation *)
    set (C' := set_th C t (AtW o)) in *.
    assert (nth_error (th C') t = Some (AtW o)) as Ht' by (apply (self_err _ _ _ _ Ht)).
    assert (forall t1, t1 <> t -> nth_error (th C') t1 = nth_error (th C) t1) as Hto by (intros; apply others_err; assumption).
    assert (fl t = false) as Ft by (destruct (fl t) eqn:E; [|reflexivity]; apply Fq, qual_iff in E as (d1 & p1 & l1 & E1 & _); congruence).
    apply (main_build _ _ fl).
    + intros t1 H1. assert (t1 <> t) as N by congruence. specialize (Fq t1 H1). unfold qualb in *. rewrite Hto by exact N. exact Fq.
    + intros ch Hch. destruct (Hcan ch Hch) as (es' & st & R1 & R2 & R3). pose proof (R3 t _ Ht) as Rt. cbn [rel] in Rt.
      exists (es' ++ [ECall t (Whole o)]), (upd_st st t (Pend (Whole o) [])). split; [|split].
      * eapply ar_snoc; [exact R1|]. apply a_inv. exact Rt.
      * rewrite !filter_app, R2. reflexivity.
      * intros t1 q H. unfold upd_st. destruct (Nat.eqb_spec t1 t) as [->|N].
        -- rewrite Ht' in H. injection H as <-. reflexivity.
        -- rewrite Hto in H by exact N. apply R3, H.
    + apply (cond_out C es fl); try assumption; [|intros d1; left; reflexivity].
      intros t1 d1 p1 l1 H Hp Hl Hf. assert (t1 <> t) as N by (intros ->; rewrite Ht' in H; discriminate). rewrite Hto in H by exact N. auto.
  - (* whole operation *)
    destruct (whole_cases c HC C o n r w bs G Hp He Hbk) as [Lb Hw]. destruct (whole_ok c HC C o n r w G Hp He) as [Wi Sp].
    set (C' := Conf bs (set_nth (th C) t (RetW r))) in *.
    assert (nth_error (th C') t = Some (RetW r)) as Ht' by (apply (self_err _ _ _ _ Ht)).
    assert (forall t1, t1 <> t -> nth_error (th C') t1 = nth_error (th C) t1) as Hto by (intros; apply others_err; assumption).
    assert (fl t = false) as Ft by (destruct (fl t) eqn:E; [|reflexivity]; apply Fq, qual_iff in E as (d1 & p1 & l1 & E1 & _); congruence).
    apply (main_build _ _ fl).
    + intros t1 H1. assert (t1 <> t) as N by congruence. specialize (Fq t1 H1). unfold qualb in *. rewrite Hto by exact N. exact Fq.
    + intros ch Hch. destruct (Hcan ch Hch) as (es' & st & R1 & R2 & R3). pose proof (R3 t _ Ht) as Rt. cbn [rel] in Rt.
      exists (es' ++ [ELin t (AWhole r)]), (upd_st st t (Pend (Whole o) ([] ++ [AWhole r]))). split; [|split].
      * eapply ar_snoc; [exact R1|]. apply a_lin; [exact Rt|]. cbn [takes_effect]. split; [reflexivity|].
        unfold C'. rewrite <- (over_back C o w bs G Wi Hbk); [|destruct Hbk as [Z _]; lia].
        apply unmask; [apply mask_idle, G|exact Sp].
      * rewrite !filter_app, R2. reflexivity.
      * intros t1 q H. unfold upd_st. destruct (Nat.eqb_spec t1 t) as [->|N].
        -- rewrite Ht' in H. injection H as <-. exists o. reflexivity.
        -- rewrite Hto in H by exact N. apply R3, H.
    + apply (cond_out C es fl); try assumption.
      * intros t1 d1 p1 l1 H Hp1 Hl Hf. assert (t1 <> t) as N by (intros ->; rewrite Ht' in H; discriminate). rewrite Hto in H by exact N. auto.
      * intros d1. destruct (Hw d1) as [(s1 & E1 & _ & E2)|(E & _)]; [left; unfold C', box at 1; cbn [boxes]; congruence|right; exact E].
  - (* return *)
    set (C' := set_th C t Idle) in *.
    assert (nth_error (th C') t = Some Idle) as Ht' by (apply (self_err _ _ _ _ Ht)).
    assert (forall t1, t1 <> t -> nth_error (th C') t1 = nth_error (th C) t1) as Hto by (intros; apply others_err; assumption).
    assert (fl t = false) as Ft by (destruct (fl t) eqn:E; [|reflexivity]; apply Fq, qual_iff in E as (d1 & p1 & l1 & E1 & _); congruence).
    apply (main_build _ _ fl).
    + intros t1 H1. assert (t1 <> t) as N by congruence. specialize (Fq t1 H1). unfold qualb in *. rewrite Hto by exact N. exact Fq.
    + intros ch Hch. destruct (Hcan ch Hch) as (es' & st & R1 & R2 & R3). destruct (R3 t _ Ht) as [o Rt].
      exists (es' ++ [ERet t (AnsW r)]), (upd_st st t Free). split; [|split].
      * eapply ar_snoc; [exact R1|]. eapply a_res; [exact Rt|]. reflexivity.
      * rewrite !filter_app, R2. reflexivity.
      * intros t1 q H. unfold upd_st. destruct (Nat.eqb_spec t1 t) as [->|N].
        -- rewrite Ht' in H. injection H as <-. reflexivity.
        -- rewrite Hto in H by exact N. apply R3, H.
    + apply (cond_out C es fl); try assumption; [|intros d1; left; reflexivity].
      intros t1 d1 p1 l1 H Hp Hl Hf. assert (t1 <> t) as N by (intros ->; rewrite Ht' in H; discriminate). rewrite Hto in H by exact N. auto.
Qed.

Lemma main_init n : Main (Conf [] (repeat Idle n)) [].
Proof.
  assert (forall t p, nth_error (repeat (@Idle K V) n) t = Some p -> p = Idle) as H by (intros t p H; apply nth_error_In, repeat_spec in H; exact H).
  apply (main_build _ _ (fun _ => false)).
  - intros t E. discriminate.
  - intros ch Hch. exists [], (fun _ => Free). split; [constructor|]. split; [reflexivity|]. intros t p E. apply H in E. subst p. reflexivity.
  - intros t d p l s i e E. cbn [th] in E. apply H in E. discriminate.
Qed.
Lemma reach_main n es C : runs_with c counters_fit n es C -> Main C es.
Proof.
  intros R. induction R as [_|es C e C' R IH St Hf']; [apply main_init|].
  apply (main_step C es e C'); [eapply reach_ginv; [exact HC| |exact R]; auto| |exact St|exact IH]. destruct R; assumption.
Qed.
Theorem linearizable n es C : runs_with c counters_fit n es C -> atomic_history (keqf c) (moves c) (filter visible es).
Proof.
  intros R. destruct (reach_main _ _ _ R) as (fl & _ & _ & _ & H). destruct (H (fun _ => false)) as (es' & st & R1 & R2 & _); [intros t E; discriminate|].
  exists es', (AS st (absw C)). split; [exact R1|]. symmetry. exact R2.
Qed.
End Sim.
