(** Saving and loading concurrent containers: the result is a container of a run. *)
From Coq Require Import NArith Bool List Arith Lia Permutation.
From Verif Require Import SizeModel GroupModel FoaModel FoaBase FoaArr FoaInv FoaIterModel FoaSpec FoaWorld FoaRun FoaProps FoaProps2 FoaApi ConcSpec ConcModel ConcInv ConcSys ConcSys2 ConcProps ConcConv SerialSpec SerialModel FoaSerial.
Import ListNotations.
Local Open Scope N_scope.

Section S.
Context {K V : Type} (c : Cfg K V).
Hypothesis HC : good_cfg c.
Notation table := (table K V).
Notation conf := (@conf K V).
Notation run := (runs_with c counters_fit).

(** [becomes n es C d t']: the run can be continued so that container d is t', and nothing else is different *)
Definition becomes n es (C : conf) (d : nat) (t' : table) : Prop :=
  exists es' C' s', run n (es ++ es') C' /\ nth_error (boxes C') d = Some (Some s') /\ tb s' = t' /\ th C' = th C /\ forall d', d' <> d -> nth_error (boxes C') d' = nth_error (boxes C) d'.
Lemma idle_inv n es (C : conf) d s : run n es C -> box C d = Some s -> existsb (inside d) (th C) = false -> Inv c (tb s).
Proof.
  intros R Hb Hi. assert (GInv c C) as G by (eapply (reach_ginv c HC counters_fit); [auto|exact R]). destruct (gi_box _ _ G d s Hb) as [k0 Hk]. eapply out_inv; [exact Hk|]. apply (not_busy C (MoveConstruct d)). exact Hi.
Qed.
Lemma becomes_inv n es C d t' : existsb (inside d) (th C) = false -> becomes n es C d t' -> Inv c t'.
Proof.
  intros Hi (es' & C' & s' & R & Hb & <- & Et & _). eapply (idle_inv n _ C' d s'); [exact R|unfold box; rewrite Hb; reflexivity|rewrite Et; exact Hi].
Qed.
Lemma set_nth_twice {X} (l : list X) i a b : set_nth (set_nth l i a) i b = set_nth l i b.
Proof.
  unfold FoaModel.set_nth. revert i. induction l as [|x l IH]; intros i; [destruct i; reflexivity|]. destruct i as [|i]; [reflexivity|]. cbn [firstn skipn app]. f_equal. apply IH.
Qed.
Lemma existsb_set {X} (f : X -> bool) l i x y : nth_error l i = Some x -> f x = f y -> existsb f (set_nth l i y) = existsb f l.
Proof.
  unfold FoaModel.set_nth. revert i. induction l as [|z l IH]; intros i E F; [destruct i; discriminate E|]. destruct i as [|i]; cbn [nth_error firstn skipn app existsb] in *.
  - injection E as ->. rewrite F. reflexivity.
  - f_equal. apply IH; assumption.
Qed.
Lemma becomes_op n es (C : conf) u d : nth_error (th C) u = Some Idle -> existsb (inside d) (th C) = false ->
  forall (t : table) o k v t' k', becomes n es C d t -> pre1 c o t -> (forall l, o <> AssignList l) -> exec1 c o t k = Ret v t' k' \/ (exists kd, exec1 c o t k = Exn kd t' k') -> becomes n es C d t'.
Proof.
  intros Hu Hi t o k v t' k' (es' & C' & s & R & Hb & <- & Et & Ho) P Na E.
  assert (box C' d = Some s) as Hbx by (unfold box; rewrite Hb; reflexivity). pose proof (box_lt _ _ _ Hbx) as Ld.
  assert (GInv c C') as G by (eapply (reach_ginv c HC counters_fit); [auto|exact R]). assert (counters_fit C') as Fit by (destruct R; assumption).
  assert (nth_error (th C') u = Some Idle) as Hu' by (rewrite Et; exact Hu). assert (existsb (inside d) (th C') = false) as Hi' by (rewrite Et; exact Hi).
  set (C1 := set_th C' u (AtW (On d o))). assert (nth_error (th C1) u = Some (AtW (On d o))) as Hu1 by (cbn [C1 set_th th]; eapply self_err; exact Hu').
  assert (existsb (inside d) (th C1) = false) as Hi1 by (cbn [C1 set_th th]; rewrite <- Hi'; eapply existsb_set; [exact Hu'|reflexivity]).
  assert (counters_fit C1) as Fit1.
  { intros t1 d1 o1 x i s1 m Ht1 Hb1 Hm. cbn [C1 set_th th] in Ht1. destruct (Nat.eq_dec t1 u) as [->|N]; [erewrite self_err in Ht1 by exact Hu'; discriminate|]. rewrite others_err in Ht1 by exact N. eapply Fit; [exact Ht1|exact Hb1|exact Hm]. }
  assert (run n ((es ++ es') ++ [ECall u (Whole (On d o))]) C1) as R1 by (eapply (r_snoc c counters_fit n _ C' (Some _)); [exact R|apply g_wcall; exact Hu'|exact Fit1]).
  assert (exists r, returned (wexec c (On d o) (idle_world C1 (On d o)) k) r (set (idle_world C1 (On d o)) d (Some t'))) as [r Hr].
  { assert (wexec c (On d o) = exec c (On d o)) as -> by (destruct o; try reflexivity; exfalso; eapply Na; reflexivity). cbn [exec]. unfold run1.
    rewrite idle_slot. change (box C1 d) with (box C' d). rewrite Hbx. change (busy (On d o) d) with (@inside K V d). rewrite Hi1. destruct E as [-> | [kd ->]]; [exists (Done v)|exists (Threw kd)]; split; reflexivity. }
  set (s2 := MkSh t' (map (fun _ => 0) (a_groups (arr t')))). set (C2 := Conf (set (boxes C') d (Some s2)) (set_nth (th C1) u (RetW r))).
  assert (slot (idle_world C1 (On d o)) d = Some (tb s)) as Sl by (rewrite idle_slot; change (box C1 d) with (box C' d); rewrite Hbx; change (busy (On d o) d) with (@inside K V d); rewrite Hi1; reflexivity).
  assert (length (boxes C1) = length (boxes C')) as Lb by reflexivity.
  assert (gstep c C1 (Some (ELin u (AWhole r))) C2) as St.
  { eapply (g_whole c C1 u (On d o) k r _ (set (boxes C') d (Some s2))); [exact Hu1| |exact Hr|].
    - split; [exists (tb s); split; [exact Sl|exact P]|]. destruct o; try exact I. exfalso. eapply Na; reflexivity.
    - split; [rewrite !set_len, idle_len by (rewrite ?idle_len; exact Ld); exact Lb|]. intros d' L. rewrite set_len, idle_len in L by (rewrite idle_len; exact Ld). rewrite slot_set by (rewrite idle_len; exact Ld). rewrite set_err by exact Ld.
      destruct (Nat.eqb_spec d' d) as [->|N].
      + rewrite Sl. exists (map (fun _ => 0) (a_groups (arr t'))). split; [reflexivity|apply map_length].
      + rewrite idle_slot. change (box C1 d') with (box C' d'). destruct (box C' d') as [s'|] eqn:Eb.
        * assert (nth_error (boxes C') d' = Some (Some s')) as En by (unfold box in Eb; destruct (nth_error (boxes C') d'); congruence).
          destruct (existsb (busy (On d o) d') (th C1)); [exact En|]. exists (cnt s'). split; [destruct s'; exact En|]. destruct (gi_box _ _ G d' s' Eb) as [k2 Hk]. apply (cb_cnt _ _ _ _ (proj1 Hk)).
        * unfold box in Eb. destruct (nth_error (boxes C') d') eqn:En; [congruence|]. apply nth_error_None in En. rewrite Lb in L. lia. }
  assert (forall C3, boxes C3 = boxes C2 -> (forall t1 d1 o1 l1, nth_error (th C3) t1 = Some (ConcModel.At d1 o1 l1) -> nth_error (th C') t1 = Some (ConcModel.At d1 o1 l1)) -> counters_fit C3) as Fit3.
  { intros C3 B3 T3 t1 d1 o1 x i s1 m Ht1 Hb1 Hm. apply T3 in Ht1. destruct (gi_at _ _ G _ _ _ _ Ht1) as [s0 Hb0].
    assert (d1 <> d) as Nd. { intros ->. assert (existsb (inside d) (th C') = true); [|congruence]. apply existsb_exists. eexists. split; [eapply nth_error_In; exact Ht1|]. cbn [inside outside]. rewrite Nat.eqb_refl. reflexivity. }
    eapply Fit; [exact Ht1| |exact Hm]. unfold box in Hb1 |- *. rewrite B3 in Hb1. cbn [C2 boxes] in Hb1. rewrite set_err in Hb1 by exact Ld. destruct (Nat.eqb_spec d1 d); [contradiction|exact Hb1]. }
  assert (counters_fit C2) as Fit2.
  { apply Fit3; [reflexivity|]. intros t1 d1 o1 l1 H1. cbn [C2 th C1 set_th] in H1. rewrite set_nth_twice in H1. destruct (Nat.eq_dec t1 u) as [->|N]; [erewrite self_err in H1 by exact Hu'; discriminate|]. rewrite others_err in H1 by exact N. exact H1. }
  pose proof (r_snoc c counters_fit n _ C1 (Some _) C2 R1 St Fit2) as R2.
  assert (nth_error (th C2) u = Some (RetW r)) as Hu2 by (cbn [C2 th]; eapply self_err; exact Hu1).
  pose proof (g_wret c C2 u r Hu2) as St3.
  assert (th (set_th C2 u Idle) = th C') as Et2.
  { cbn [set_th th C2 C1]. rewrite !set_nth_twice. apply set_nth_same. exact Hu'. }
  assert (counters_fit (set_th C2 u Idle)) as Fit4 by (apply Fit3; [reflexivity|]; intros t1 d1 o1 l1 H1; rewrite Et2 in H1; exact H1).
  pose proof (r_snoc c counters_fit n _ C2 (Some _) _ R2 St3 Fit4) as R3. rewrite <- !app_assoc in R3. eexists. exists (set_th C2 u Idle), s2. split; [exact R3|].
  cbn [set_th boxes C2]. split; [rewrite set_err by exact Ld; rewrite Nat.eqb_refl; reflexivity|]. split; [reflexivity|]. split; [rewrite <- Et; exact Et2|].
  intros d' N. rewrite set_err by exact Ld. destruct (Nat.eqb_spec d' d); [contradiction|]. apply Ho. exact N.
Qed.
Lemma becomes_load n es (C : conf) u d s a k : run n es C -> box C d = Some s -> nth_error (th C) u = Some Idle -> existsb (inside d) (th C) = false -> size_ok c (ceil_div_mlf (count a)) ->
  match c_load c a (tb s) k with Ret _ t' _ | Exn _ t' _ => becomes n es C d t' | Undef => True end.
Proof.
  intros R Hb Hu Hi Hs. rewrite (c_load_eq c HC (tb s) a k (idle_inv n es C d s R Hb Hi) Hs).
  pose proof (closed_load c HC (becomes n es C d) (fun t => becomes_inv n es C d t Hi) (becomes_op n es C u d Hu Hi) (tb s) a k) as X.
  assert (becomes n es C d (tb s)) as B.
  { exists [], C, s. rewrite app_nil_r. split; [exact R|]. split; [unfold box in Hb; destruct (nth_error (boxes C) d); congruence|]. auto. }
  specialize (X B Hs). destruct (m_load c a (tb s) k); exact X.
Qed.
End S.
