(** Rehash as a whole, insertion, reserve, clear. *)
From Coq Require Import NArith ZArith Bool List Arith Lia ZifyBool ZifyNat ZifyN Permutation.
From Verif Require Import FloatModel SizeModel SizeProofs GroupModel GroupSpec FoaModel FoaGroup FoaBase FoaFind FoaArr FoaInv.
Import ListNotations.
Local Open Scope N_scope.

Section Rehash.
Context {K V : Type} (c : Cfg K V).
Notation arrays := (arrays K V).
Notation table := (table K V).
Notation cell := (cell K V).
Notation RS := (@RS K V).

Record resetted (k : N) (D : list nat) (a a' : arrays) : Prop := {
  re_shape : Shape k a'; re_owner : a_owner a' = a_owner a; re_cells : cells a' = cells a;
  re_in : forall i, In i D -> ctrl a' i = 0;
  re_out : forall i, ~ In i D -> ctrl a' i = ctrl a i;
  re_ovf : forall g, ovf a' g = ovf a g;
  re_grp : forall g, (forall i, In i D -> (i / 15)%nat <> g) -> grp a' g = grp a g
}.
Lemma resetted_nil k (a : arrays) : Shape k a -> resetted k [] a a.
Proof. intros H. constructor; auto; intros i []. Qed.
Lemma resetted_step k D a a' i : resetted k D a a' -> (i < length (cells a))%nat -> resetted k (D ++ [i]) a (reset1 a' i).
Proof.
  intros R Hi. destruct (reset1_facts k a' i (re_shape _ _ _ _ R)) as (F1 & F2 & F3 & F4 & F5 & F6).
  { rewrite (re_cells _ _ _ _ R). exact Hi. }
  destruct R. constructor; auto; try congruence.
  - intros j Hj. rewrite F2. destruct (Nat.eqb_spec j i) as [->|]; [reflexivity|]. apply re_in0.
    apply in_app_or in Hj as [|[|[]]]; [assumption|congruence].
  - intros j Hj. rewrite F2. destruct (Nat.eqb_spec j i) as [->|]; [exfalso; apply Hj, in_or_app; right; now left|].
    apply re_out0. intros C. apply Hj, in_or_app. now left.
  - intros g Hg. rewrite F6; [apply re_grp0|].
    + intros j Hj. apply Hg, in_or_app. now left.
    + apply Hg, in_or_app. right. now left.
Qed.
Lemma wiped_nil_eq k (a a' : arrays) : Shape k a -> wiped [] a a' -> a' = a.
Proof.
  intros HS W. pose proof (sh_elems _ _ HS) as E. destruct W.
  assert (cells a' = cells a) as Ec by (apply list_ext; intros i; apply wi_out; intros []).
  destruct a, a'. cbn in *. congruence.
Qed.
Lemma wiped_resetted k D a a1 a' : Shape k a -> wiped D a a1 -> resetted k D a1 a' -> erased k D a a'.
Proof.
  intros HS W R. destruct R. constructor; auto.
  - rewrite re_owner0. apply W.
  - rewrite re_cells0. apply W.
  - intros i Hi. rewrite re_cells0. split; [apply (wi_in _ _ _ W i Hi)|auto].
  - intros i Hi. rewrite re_cells0, re_out0, (wiped_ctrl _ _ _ _ W) by exact Hi. split; [apply (wi_out _ _ _ W i Hi)|reflexivity].
  - intros g. rewrite re_ovf0. apply (wiped_ovf _ _ _ _ W).
  - intros g Hg. rewrite re_grp0 by exact Hg. apply (wiped_grp _ _ _ _ W).
Qed.

(** the table after a rehash interrupted by an exception *)
Definition RehashFailed (t t' : table) : Prop :=
  if moves c then exists D D', D ++ D' = occ (arr t) /\ (D = [] /\ t' = t \/ ErasedT t t' D)
  else t' = t.

Definition recover_step (g n : nat) : M RS bool :=
  bind (on_tab (recover_slot g n)) (fun _ =>
  bind (modify (fun s => (fst s, Nat.pred (snd s)))) (fun _ =>
  bind get (fun s => ret (negb (Nat.eqb (snd s) 0))))).

Lemma recover_loop k1 t D D' a1 na n : GoodA c (hid t) k1 (arr t) -> sz t = N.of_nat (length (elems (arr t))) ->
  sz t <= ml t -> ml t < 2 ^ 64 ->
  D ++ D' = occ (arr t) -> D <> [] -> wiped D (arr t) a1 ->
  outcome (for_all_while (fun s => arr (rs_tab s)) recover_step (set_arr t a1, na, length D) n)
    (fun _ s' => exists t', s' = (t', na, O) /\ ErasedT t t' D) (fun _ _ => False).
Proof.
  intros HG Hsz Hml H64 Ho HD W. pose proof HG as [HS _].
  assert (Shape k1 a1) as HS1 by (eapply wiped_shape; eauto).
  assert (occ a1 = occ (arr t)) as Eo1.
  { unfold occ. rewrite (wi_len _ _ _ W). apply filter_ext. intros i. rewrite (wiped_ctrl _ _ _ _ W). reflexivity. }
  assert (length (occ (arr t)) = length (elems (arr t))) as Locc by (eapply occ_length; eauto).
  set (J := fun (done : list nat) (s : RS) => exists a' m',
     s = (Tab (hid t) (pid t) (aid t) a' m' (sz t - N.of_nat (length done)), na, (length D - length done)%nat) /\
     resetted k1 done a1 a' /\ ml t - N.of_nat (length done) <= m' <= ml t).
  eapply outcome_weaken.
  - apply (for_all_while_ok _ recover_step k1 a1
      (fun done todo s => (length done < length D)%nat /\ J done s)
      (fun s => J D s) (fun _ _ => False) HS1).
    + intros done i todo s' n' Ho' [Hl (a' & m' & -> & R & Hm)].
      rewrite Eo1, <- Ho in Ho'.
      assert (In i (occ (arr t))) as Hi by (rewrite <- Ho, <- Ho'; apply in_or_app; right; now left).
      apply (occ_in k1) in Hi as [Hi _]; [|exact HS].
      unfold recover_step. unfold bind at 1, on_tab at 1, lens at 1. cbn [rs_tab rs_new fst snd].
      set (tt' := Tab _ _ _ _ _ _).
      destruct (recover_slot_eq k1 tt' i n') as (d & Hd & E).
      { apply (re_shape _ _ _ _ R). }
      { cbn [tt' arr]. rewrite (re_cells _ _ _ _ R), (wi_len _ _ _ W). exact Hi. }
      rewrite E. rewrite bind_modify, bind_get. cbn [fst snd ret outcome tt' arr hid pid aid ml sz].
      assert (firstn (length done + 1) (D ++ D') = done ++ [i]) as Ef.
      { rewrite <- Ho'. replace (done ++ i :: todo) with ((done ++ [i]) ++ todo) by (rewrite <- app_assoc; reflexivity).
        rewrite firstn_app, app_length. cbn [length]. rewrite Nat.sub_diag. cbn [firstn]. rewrite app_nil_r.
        apply firstn_all2. rewrite app_length. cbn [length]. lia. }
      assert (N.of_nat (length done) + 1 <= sz t) as Hdone.
      { rewrite Hsz, <- Locc, <- Ho, app_length. lia. }
      assert (J (done ++ [i]) (Tab (hid t) (pid t) (aid t) (reset1 a' i) (usub m' d) (usub (sz t - N.of_nat (length done)) 1), na, Nat.pred (length D - length done))) as HJ.
      { exists (reset1 a' i), (usub m' d). rewrite !usub_ok by lia. rewrite app_length. cbn [length]. split; [|split].
        - f_equal; [|lia]. f_equal. f_equal. lia.
        - apply resetted_step; [exact R|]. rewrite (wi_len _ _ _ W). exact Hi.
        - lia. }
      destruct (Nat.eqb_spec (Nat.pred (length D - length done)) 0) as [Ez|Ez]; cbn [negb].
      * assert (done ++ [i] = D) as <-; [|exact HJ].
        rewrite <- Ef. replace (length done + 1)%nat with (length D) by lia.
        rewrite firstn_app, Nat.sub_diag. cbn [firstn]. rewrite app_nil_r. apply firstn_all.
      * split; [rewrite app_length; cbn [length]; lia|exact HJ].
    + intros done todo s' g Ho' [Hl (a' & m' & -> & R & Hm)] Hg Hd. cbn [rs_tab fst arr].
      rewrite (shape_get_group k1) by (auto; apply (re_shape _ _ _ _ R)).
      rewrite (re_grp _ _ _ _ R); [reflexivity|]. intros i Hi. specialize (Hd i Hi). lia.
    + cbn [rs_tab fst set_arr arr]. apply (sh_elems _ _ HS1).
    + cbn [rs_tab fst set_arr arr]. apply (sh_mask _ _ HS1).
    + split; [cbn; destruct D; [congruence|cbn; lia]|].
      exists a1, (ml t). cbn [length]. split; [|split].
      * unfold set_arr. rewrite N.sub_0_r, Nat.sub_0_r. reflexivity.
      * apply resetted_nil. exact HS1.
      * lia.
  - intros b s' Hb. assert (J D s') as (a' & m' & -> & R & Hm).
    { destruct b; [|exact Hb]. destruct Hb as [Hl _]. exfalso. rewrite Eo1, <- Ho, app_length in Hl. lia. }
    rewrite Nat.sub_diag. eexists. split; [reflexivity|].
    constructor; cbn [hid pid aid ml sz arr]; auto.
    + constructor; reflexivity.
    + exists k1. split; [|exact HS]. eapply wiped_resetted; eauto.
  - auto.
Qed.

Lemma on_new_lens (m : M arrays unit) s n : on_new m s n = lens (@rs_new K V) (fun s a => (rs_tab s, a, snd s)) m s n.
Proof. reflexivity. Qed.
Lemma destroy_new k2 (s : RS) n : GoodW k2 (rs_new s) ->
  outcome (for_all (@rs_new K V) (fun g m => on_new (destroy_element (slot_index g m))) s n)
    (fun _ s' => exists a', s' = (rs_tab s, a', snd s) /\ forallb is_raw (cells a') = true /\ a_owner a' = a_owner (rs_new s))
    (fun _ _ => False).
Proof.
  intros HG. eapply outcome_weaken.
  - apply (destroy_all (@rs_new K V) (fun s a => (rs_tab s, a, snd s)) _ k2 s n); auto.
    intros [[t0 a0] d0]. reflexivity.
  - intros _ s' (a' & -> & W). exists a'. split; [reflexivity|]. split; [eapply wiped_all; eauto|apply W].
  - auto.
Qed.
Lemma destroy_old k1 (s : RS) n : GoodW k1 (arr (rs_tab s)) ->
  outcome (for_all (fun s => arr (rs_tab s)) (fun g m => on_tab (on_arr (destroy_element (slot_index g m)))) s n)
    (fun _ s' => exists a', s' = (set_arr (rs_tab s) a', rs_new s, snd s) /\ forallb is_raw (cells a') = true /\ a_owner a' = a_owner (arr (rs_tab s)))
    (fun _ _ => False).
Proof.
  intros HG. eapply outcome_weaken.
  - apply (destroy_all (fun s : RS => arr (rs_tab s)) (fun s a => (set_arr (rs_tab s) a, rs_new s, snd s)) _ k1 s n); auto.
    + intros [[t0 a0] d0]. unfold rs_tab, rs_new. cbn [fst snd]. rewrite set_arr_id. reflexivity.
    + intros g m [[t0 a0] d0] n0. unfold on_tab, on_arr, lens. cbn [rs_tab rs_new fst snd].
      destruct (destroy_element (slot_index g m) (arr t0) n0); reflexivity.
  - intros _ s' (a' & -> & W). exists a'. split; [reflexivity|]. split; [eapply wiped_all; eauto|apply W].
  - auto.
Qed.

Record Pre (t : table) : Prop := {
  p_owner : a_owner (arr t) = aid t; p_arr : ArrOK c (hid t) (arr t);
  p_sz : sz t = N.of_nat (length (elems (arr t))); p_szml : sz t <= ml t; p_64 : ml t < 2 ^ 64 }.
Lemma inv_pre t : Inv c t -> Pre t.
Proof.
  intros H. pose proof (inv_bounds c t H) as (B1 & B2 & B3). destruct H. constructor; auto. lia.
Qed.

Lemma rehash_loop_ok t k2 na0 n : Pre t -> GoodA c (hid t) k2 na0 -> a_owner na0 = aid t ->
  (length (elems na0) + length (elems (arr t)) <= length (cells na0))%nat ->
  outcome (rehash_loop c (t, na0, O) n)
    (fun _ s' => if moves c then Moving c t k2 na0 (occ (arr t)) s' \/ (occ (arr t) = [] /\ s' = (t, na0, O)) else Moving c t k2 na0 (occ (arr t)) s')
    (fun kd s' => (kd = KHash \/ kd = KTransfer) /\ raised c kd /\ RehashFailed t (rs_tab s')).
Proof.
  intros [P1 P2 P3 P4 P5] HG Hown Hroom. unfold rehash_loop, on_exn.
  pose proof (transfer_all c t k2 na0 n P2 HG Hroom) as T.
  destruct (for_all (fun s => arr (rs_tab s)) (transfer_element c) (t, na0, O) n) as [u s' n'|kd s' n'|]; cbn [outcome] in T; [exact T| |destruct T].
  destruct T as (Hkd & Hr & [(D & D' & Ho & Old) (k1 & HG1) MG MO]).
  destruct s' as [[t1 na1] d]. cbn [rs_tab rs_new fst snd] in *.
  rewrite bind_get. cbn [fst snd].
  assert (outcome ((bind (if Nat.eqb d 0 then ret tt else
      bind (for_all_while (fun s => arr (rs_tab s)) recover_step) (fun _ => ret tt)) (fun _ =>
      bind (for_all (@rs_new K V) (fun g m => on_new (destroy_element (slot_index g m)))) (fun _ =>
      bind get (fun s => delete_arrays (aid (rs_tab s)) (rs_new s))))) (t1, na1, d) n')
     (fun _ s' => RehashFailed t (rs_tab s')) (fun _ _ => False)) as X.
  2:{ match type of X with outcome ?m' _ _ =>
        match goal with |- outcome (match ?m with _ => _ end) _ _ => change m with m' end; destruct m' end.
      - cbn [outcome] in *. auto.
      - destruct X.
      - destruct X. }
  eapply outcome_bind with (Q' := fun _ s1 => rs_new s1 = na1 /\ RehashFailed t (rs_tab s1) /\ aid (rs_tab s1) = aid t).
  - destruct (Nat.eqb_spec d 0) as [->|Hd].
    + cbn [ret outcome rs_tab rs_new fst snd]. split; [reflexivity|]. unfold OldSide, RehashFailed in *.
      destruct (moves c); [|destruct Old as [-> _]; auto].
      destruct Old as (a' & -> & W & El). split; [|reflexivity]. exists D, D'. split; [exact Ho|]. left.
      destruct D; [|discriminate]. split; [reflexivity|].
      rewrite (wiped_nil_eq k1 (arr t) a'); [apply set_arr_id|apply HG1|exact W].
    + unfold OldSide in Old. unfold RehashFailed. destruct (moves c) eqn:Em; [|destruct Old; congruence].
      destruct Old as (a' & -> & W & ->).
      assert (D <> []) as HDn by (intros ->; apply Hd; reflexivity).
      eapply outcome_bind; [eapply outcome_weaken; [apply (recover_loop k1 t D D' a' na1 n'); auto| |]|].
      * intros b s1 Hs. exact Hs.
      * cbn beta. intros kd' s1 C. exact C.
      * intros b s1 n1 (t' & -> & ET). cbn [ret outcome rs_tab rs_new fst snd]. split; [reflexivity|]. split.
        -- exists D, D'. split; [exact Ho|]. right. exact ET.
        -- destruct ET as [[_ _ E] _ _ _]. exact E.
  - intros _ s1 n1 (E1 & F & Ea).
    eapply outcome_bind; [apply (destroy_new k2 s1 n1); rewrite E1; eapply good_w; eauto|].
    intros _ s2 n2 (a2 & -> & Hraw & Ho2). rewrite bind_get. cbn [rs_tab rs_new fst snd].
    rewrite delete_ok; [exact F|]. right. split; [exact Hraw|]. congruence.
Qed.

Lemma rehash_body_ok t k2 na0 n : Pre t -> GoodA c (hid t) k2 na0 -> a_owner na0 = aid t ->
  (length (elems na0) + length (elems (arr t)) <= length (cells na0))%nat ->
  outcome (unchecked_rehash_body c (t, na0, O) n)
    (fun _ s' => exists na', rs_tab s' = set_ml (set_arr t na') (init_ml na') /\ GoodA c (hid t) k2 na' /\
        a_owner na' = aid t /\ Permutation (elems na') (elems (arr t) ++ elems na0) /\ keeps na0 na' /\
        length (cells na') = length (cells na0))
    (fun kd s' => (kd = KHash \/ kd = KTransfer) /\ raised c kd /\ RehashFailed t (rs_tab s')).
Proof.
  intros HP HG Hown Hroom. unfold unchecked_rehash_body.
  pose proof HP as [P1 P2 P3 P4 P5].
  eapply outcome_bind; [apply (rehash_loop_ok t k2 na0 n HP HG Hown Hroom)|].
  intros u s n1 Hs. cbv beta in Hs. rewrite bind_get.
  assert (exists na' , rs_new s = na' /\ GoodA c (hid t) k2 na' /\ a_owner na' = aid t /\
     Permutation (elems na') (elems (arr t) ++ elems na0) /\ keeps na0 na' /\ length (cells na') = length (cells na0) /\
     exists a1, rs_tab s = set_arr t a1 /\ a_owner a1 = aid t /\
       ((N.of_nat (snd s) = sz t /\ (a_elems a1 = None \/ forallb is_raw (cells a1) = true)) \/
        (N.of_nat (snd s) <> sz t /\ exists k1, GoodW k1 a1))) as (na' & En & Q1 & Q2 & Q3 & Q4 & Q5 & a1 & Et & Ho1 & Hd).
  { assert (at_slots (arr t) (occ (arr t)) = elems (arr t)) as EA.
    { destruct P2 as [E | (k1 & HG1 & _)]; [rewrite E; reflexivity|]. symmetry. eapply elems_occ; eauto. }
    destruct (moves c) eqn:Em.
    - destruct Hs as [[Mo Mg Mp Mk Ml Mw] | [Eo ->]].
      + exists (rs_new s). rewrite EA in Mp. unfold OldSide in Mo. rewrite Em in Mo.
        destruct Mo as (a1 & Et & W & El). do 5 (split; [solve [auto | congruence]|]). split; [exact Ml|].
        exists a1. split; [exact Et|]. split; [rewrite (wi_owner _ _ _ W); exact P1|].
        destruct P2 as [E | (k1 & HG1 & _)].
        * left. rewrite El, P3, E. cbn. split; [reflexivity|]. right.
          assert (length (cells a1) = O) as L0 by (rewrite (wi_len _ _ _ W), E; reflexivity).
          destruct (cells a1); [reflexivity|discriminate].
        * left. split; [rewrite El, P3, <- (occ_length c (hid t) k1); auto|]. right.
          eapply wiped_all; [eapply good_w; exact HG1|exact W].
      + exists na0. cbn [rs_new rs_tab fst snd]. rewrite Eo in EA. cbn in EA. rewrite <- EA. cbn [app].
        split; [reflexivity|]. split; [exact HG|]. split; [exact Hown|]. split; [reflexivity|].
        split; [intros i e H; exact H|]. split; [reflexivity|]. exists (arr t). rewrite set_arr_id.
        split; [reflexivity|]. split; [exact P1|]. left. rewrite P3, <- EA. split; [reflexivity|].
        destruct P2 as [E | (k1 & HG1 & _)]; [left; rewrite E; reflexivity|]. right.
        apply (wiped_all k1 (arr t)); [eapply good_w; eauto|]. rewrite Eo. eapply wiped_nil. apply HG1.
    - destruct Hs as [Mo Mg Mp Mk Ml Mw].
      exists (rs_new s). rewrite EA in Mp. unfold OldSide in Mo. rewrite Em in Mo. destruct Mo as (Et & El).
      do 5 (split; [solve [auto | congruence]|]). split; [exact Ml|]. exists (arr t). rewrite set_arr_id.
      split; [exact Et|]. split; [exact P1|]. rewrite El. destruct (N.eq_dec (sz t) 0) as [E0|N0].
      + left. split; [rewrite E0; reflexivity|].
        destruct P2 as [E | (k1 & HG1 & _)]; [left; rewrite E; reflexivity|]. right.
        apply (wiped_all k1 (arr t)); [eapply good_w; eauto|].
        assert (occ (arr t) = []) as ->; [|eapply wiped_nil; apply HG1].
        pose proof (occ_length c (hid t) k1 (arr t) HG1). destruct (occ (arr t)); [reflexivity|cbn in *; lia].
      + right. split; [lia|]. destruct P2 as [E | (k1 & HG1 & _)]; [|exists k1; eapply good_w; eauto].
        exfalso. rewrite E in P3. cbn in P3. lia. }
  eapply outcome_bind with (Q' := fun _ s2 => exists a2, s2 = (set_arr t a2, na', snd s) /\ a_owner a2 = aid t /\
      (a_elems a2 = None \/ forallb is_raw (cells a2) = true)).
  - rewrite Et. cbn [set_arr sz]. destruct (N.eqb_spec (N.of_nat (snd s)) (sz t)) as [E|Ne]; cbn [negb].
    + cbn [ret outcome]. exists a1. destruct Hd as [[_ Hd] | [Hd _]]; [|contradiction].
      destruct s as [[x y] z]. cbn [rs_tab rs_new fst snd] in *. subst. auto.
    + destruct Hd as [[Hd _] | [_ (k1 & Hd)]]; [contradiction|].
      eapply outcome_weaken; [apply (destroy_old k1 s n1); rewrite Et; exact Hd| |intros kd s2 []].
      intros _ s2 (a2 & -> & Hraw & Ho2). exists a2. rewrite En, Et. split; [reflexivity|].
      rewrite Et in Ho2. cbn [set_arr arr] in Ho2. split; [congruence|right; exact Hraw].
  - intros _ s2 n2 (a2 & -> & Ho2 & Hraw). rewrite bind_get. cbn [rs_tab rs_new fst snd].
    unfold bind at 1. rewrite delete_ok.
    2:{ destruct Hraw as [|Hraw]; [left; assumption|right]. split; [exact Hraw|exact Ho2]. }
    cbn [modify outcome rs_tab rs_new fst snd]. exists na'. repeat (split; [solve [auto]|]). exact Q5.
Qed.


Lemma pre_empty_raw t : Pre t -> elems (arr t) = [] ->
  occ (arr t) = [] /\ (a_elems (arr t) = None \/ forallb is_raw (cells (arr t)) = true).
Proof.
  intros [P1 P2 P3 P4 P5] Ee. destruct P2 as [E | (k1 & HG1 & _)]; [rewrite E; cbn; auto|].
  assert (occ (arr t) = []) as Eo.
  { pose proof (occ_length c (hid t) k1 (arr t) HG1) as L. rewrite Ee in L. destruct (occ (arr t)); [reflexivity|discriminate]. }
  split; [exact Eo|]. right. apply (wiped_all k1 (arr t)); [eapply good_w; eauto|]. rewrite Eo. eapply wiped_nil. apply HG1.
Qed.
Lemma rehash_body_empty t na0 n : Pre t -> elems (arr t) = [] ->
  outcome (unchecked_rehash_body c (t, na0, O) n)
    (fun _ s' => rs_tab s' = set_ml (set_arr t na0) (init_ml na0)) (fun _ _ => False).
Proof.
  intros HP Ee. destruct (pre_empty_raw t HP Ee) as [Eo Hraw]. destruct HP as [P1 P2 P3 P4 P5].
  assert (sz t = 0) as Ez by (rewrite P3, Ee; reflexivity).
  unfold unchecked_rehash_body.
  eapply outcome_bind with (Q' := fun _ s => s = (t, na0, O)).
  - unfold rehash_loop, on_exn.
    assert (outcome (for_all (fun s : RS => arr (rs_tab s)) (transfer_element c) (t, na0, O) n)
             (fun _ s => s = (t, na0, O)) (fun _ _ => False)) as X.
    { destruct P2 as [E | (k1 & HG1 & _)].
      - rewrite for_all_none; [reflexivity|]. cbn [rs_tab fst]. rewrite E. reflexivity.
      - pose proof HG1 as [HS _].
        apply (for_all_ok _ _ k1 (arr t) (fun done todo s => s = (t, na0, O))); auto.
        + intros done i todo s n' C. rewrite Eo in C. destruct done; discriminate.
        + intros done todo s g _ -> Hg _. apply (shape_get_group k1); auto.
        + apply (sh_elems _ _ HS).
        + apply (sh_mask _ _ HS). }
    destruct (for_all (fun s : RS => arr (rs_tab s)) (transfer_element c) (t, na0, O) n); [exact X|destruct X|destruct X].
  - intros _ s n1 ->. rewrite bind_get. cbn [snd rs_tab rs_new fst]. rewrite Ez. cbn [N.of_nat N.eqb negb].
    rewrite bind_ret, bind_get. cbn [snd rs_tab rs_new fst]. unfold bind at 1. rewrite delete_ok.
    + reflexivity.
    + destruct Hraw as [|Hraw]; [left; assumption|right; auto].
Qed.

Lemma arr_cap h (a : arrays) : ArrOK c h a -> capacity a = N.of_nat (length (cells a)).
Proof. intros [-> | (k & [HS _] & _)]; [reflexivity|]. apply (cap_shape k a HS). Qed.

Lemma fresh_inv t k na : Inv c t -> elems (arr t) = [] -> 2 ^ k <= gmax c -> Fresh (aid t) k na ->
  Inv c (set_ml (set_arr t na) (init_ml na)).
Proof.
  intros H Ee Hk FR. pose proof (fresh_elems _ _ _ FR) as Ef. destruct (init_ml_shape _ _ (fr_shape _ _ _ FR)) as [_ B].
  destruct H. constructor; cbn [set_ml set_arr arr hid pid aid ml sz]; rewrite ?Ef; auto.
  - apply FR.
  - right. exists k. split; [eapply fresh_good; eauto|exact Hk].
  - constructor.
  - rewrite i_sz, Ee. reflexivity.
  - rewrite i_sz, Ee. cbn. lia.
  - lia.
Qed.

Lemma unchecked_rehash_ok t m n : good_cfg c -> Inv c t -> m < 2 ^ 64 -> buffer_fits (esz c) (groups_for m) = true ->
  (m = 0 -> sz t = 0) -> (0 < m -> sz t <= initial_max_load (groups_for m * GN - 1)) ->
  outcome (unchecked_rehash c m t n)
    (fun _ t' => Inv c t' /\ Ids t t' /\ Permutation (elems (arr t')) (elems (arr t)) /\ sz t' = sz t /\
        ml t' = init_ml (arr t') /\ capacity (arr t') = (if m =? 0 then 0 else groups_for m * GN - 1))
    (fun kd t' => (kd = KAlloc /\ t' = t /\ alloc_fail c m) \/
        ((kd = KHash \/ kd = KTransfer) /\ raised c kd /\ RehashFailed t t')).
Proof.
  intros HC H Hm Hb H0 Hml. unfold unchecked_rehash. rewrite bind_get.
  eapply outcome_bind; [eapply outcome_weaken; [apply (new_arrays_ok c (aid t) m t n HC Hm Hb)| |]|].
  - intros a s' X. exact X.
  - intros kd s' (-> & -> & F). left. auto.
  - intros na t0 n1 (-> & X). pose proof (inv_pre t H) as HP. unfold with_new.
    destruct X as [[-> ->] | (Hpos & k & Eg & Hk & Lt & FR)].
    + rewrite N.eqb_refl. specialize (H0 eq_refl).
      assert (elems (arr t) = []) as Ee by (pose proof (i_sz _ _ H); destruct (elems (arr t)); [reflexivity|cbn in *; lia]).
      pose proof (rehash_body_empty t (dummy_arrays (aid t)) n1 HP Ee) as X.
      destruct (unchecked_rehash_body c (t, dummy_arrays (aid t), O) n1) as [u s n2|kd s n2|]; cbn [outcome] in *; [|destruct X|destruct X].
      rewrite X. cbn [set_ml set_arr arr ml sz]. rewrite dummy_elems, Ee.
      split; [|split; [constructor; reflexivity|split; [constructor|split; [reflexivity|split; reflexivity]]]].
      destruct H. constructor; cbn [set_ml set_arr arr hid pid aid ml sz]; rewrite ?dummy_elems; auto.
      * left. reflexivity.
      * constructor.
      * cbn. lia.
      * reflexivity.
    + specialize (Hml Hpos). assert (m =? 0 = false) as -> by lia.
      pose proof (fresh_good c (hid t) _ _ _ FR) as HG. pose proof (fresh_elems _ _ _ FR) as Ef.
      pose proof (fr_shape _ _ _ FR) as HS.
      destruct (init_ml_shape _ _ HS) as [Ei Bi]. destruct (cap_shape _ _ HS) as [Ec1 Ec2].
      rewrite Eg in *. assert (2 ^ k * GN - 1 = 15 * 2 ^ k - 1) as Egn by (unfold GN; lia). rewrite Egn in *.
      pose proof (i_sz _ _ H) as Es.
      pose proof (rehash_body_ok t k na n1 HP HG (fr_owner _ _ _ FR)) as X.
      destruct (unchecked_rehash_body c (t, na, O) n1) as [u s n2|kd s n2|]; cbn [outcome] in *.
      * destruct X as (na' & -> & G' & O' & P' & Kp & Lc); [rewrite Ef; cbn; lia|]. rewrite Ef, app_nil_r in P'.
        cbn [set_ml set_arr arr ml sz]. pose proof G' as [HS' _].
        destruct (init_ml_shape _ _ HS') as [Ei' Bi']. destruct (cap_shape _ _ HS') as [Ec1' _].
        split; [|split; [constructor; reflexivity|split; [exact P'|split; [reflexivity|split; [reflexivity|exact Ec1']]]]].
        destruct H. constructor; cbn [set_ml set_arr arr hid pid aid ml sz]; auto.
        -- right. exists k. auto.
        -- eapply uniq_perm; [apply i_compat|symmetry; exact P'|assumption].
        -- rewrite (Permutation_length P'). assumption.
        -- congruence.
        -- lia.
      * right. apply X. rewrite Ef. cbn. lia.
      * apply X. rewrite Ef. cbn. lia.
Qed.

Lemma failed_inv t t' : Inv c t -> RehashFailed t t' ->
  Inv c t' /\ Ids t t' /\ capacity (arr t') = capacity (arr t) /\
  exists lost, Permutation (elems (arr t)) (lost ++ elems (arr t')) /\ (moves c = false -> lost = []) /\
    (forall i e, nth_error (cells (arr t')) i = Some (Live e) -> nth_error (cells (arr t)) i = Some (Live e)).
Proof.
  intros H F. unfold RehashFailed in F. destruct (moves c) eqn:Em.
  - destruct F as (D & D' & Ho & [[-> ->] | ET]).
    + split; [exact H|]. split; [apply Ids_refl|]. split; [reflexivity|]. exists []. auto.
    + pose proof (occ_nodup (arr t)) as ND.
      destruct (erased_t_inv c t t' D H ET) as (I & P & C).
      * rewrite <- Ho in ND. revert ND. clear. induction D as [|x D IH]; cbn; intros ND; [constructor|].
        inversion ND as [|? ? H1 H2]; subst. constructor; [intros C; apply H1, in_or_app; now left|auto].
      * intros i Hi. rewrite <- Ho. apply in_or_app. now left.
      * split; [exact I|]. split; [apply (et_ids _ _ _ ET)|]. split; [exact C|].
        exists (at_slots (arr t) D). split; [exact P|]. split; [discriminate|].
        intros i e Hi. destruct ET as [_ _ _ (k & W & _)].
        destruct (in_dec Nat.eq_dec i D) as [I'|I'].
        -- destruct (er_in _ _ _ _ W i I') as [E _]. congruence.
        -- destruct (er_out _ _ _ _ W i I') as [E _]. congruence.
  - subst t'. split; [exact H|]. split; [apply Ids_refl|]. split; [reflexivity|]. exists []. auto.
Qed.

(** ** insertion with growth *)
Lemma growth_ok t : good_cfg c -> Inv c t -> let m := growth_request (sz t) in
  0 < m /\ m < 2 ^ 64 /\ buffer_fits (esz c) (groups_for m) = true /\
  (groups_for m <= gmax c -> sz t + 1 <= initial_max_load (groups_for m * GN - 1)).
Proof.
  intros HC H m. pose proof (inv_bounds c t H) as (B1 & B2 & B3).
  unfold growth_request in m.
  assert (0 < m) as Hpos.
  { unfold m. pose proof (ceil_div_mlf_mono 1 (sz t + sz t / 61 + 1) ltac:(lia)) as X.
    change (ceil_div_mlf 1) with 2 in X. lia. }
  assert (exists k, 1 <= k <= 57 /\ sz t + sz t / 61 + 1 <= 16 * 2 ^ k /\ (2 ^ k <= gmax c \/ k = 1 /\ sz t = 0)) as (k & Hk & Hn & Hg).
  { destruct (i_arr _ _ H) as [E | (k & [HS _] & Hk)].
    - exists 1. assert (sz t = 0) as -> by (rewrite E in B2; cbn in B2; lia).
      split; [lia|]. split; [vm_compute; congruence|right; auto].
    - exists k. pose proof (sh_k _ _ HS). pose proof (k_bound c k HC Hk). rewrite (sh_cells _ _ HS) in B2.
      assert (sz t / 61 <= sz t / 15) by (apply N.div_le_compat_l; lia).
      assert (sz t / 15 < 2 ^ k) by (apply N.div_lt_upper_bound; lia).
      pose proof (pow2_pos k). split; [lia|]. split; [lia|left; exact Hk]. }
  destruct (ceil_groups _ k Hk Hn) as [C1 C2]. fold m in C1, C2.
  assert (buffer_fits (esz c) (groups_for m) = true) as Hb.
  { destruct Hg as [Hg|[-> Hz]].
    - apply buffer_fits_mono with (g' := 8 * gmax c); [|lia|apply HC].
      destruct (groups_for_pow m C1) as (k' & _ & _ & -> & _). apply pow2_pos.
    - assert (m = 2) as Em by (unfold m; rewrite Hz; reflexivity). rewrite Em.
      change (groups_for 2) with 2. apply buffer_fits_mono with (g' := 8 * gmax c); [lia| |apply HC].
      pose proof (gc_gmax _ HC). lia. }
  split; [exact Hpos|]. split; [exact C1|]. split; [exact Hb|]. intros Hgm.
  pose proof (gmax_bound c HC) as GB.
  assert (2 ^ 57 <= 2 ^ 60) by (apply N.pow_le_mono_r; lia).
  pose proof (groups_for_max_load (sz t + sz t / 61 + 1) (groups_for m) C1 eq_refl ltac:(lia)). lia.
Qed.

Definition Absent (t : table) (k : K) : Prop := forall x, In x (elems (arr t)) -> keqf c (pid t) k (fst x) = false.

Lemma with_rehash_ok kd t e n : good_cfg c -> Inv c t -> Absent t (fst e) ->
  outcome (unchecked_emplace_with_rehash c kd (hash_of c (hid t) (fst e)) e t n)
    (fun l t' => Inv c t' /\ Ids t t' /\ (snd l < 15)%nat /\ sz t' = sz t + 1 /\ (ml t' = init_ml (arr t') /\ capacity (arr t') = capacity_for (growth_request (sz t))) /\
       nth_error (cells (arr t')) (slot_index (fst l) (snd l)) = Some (Live e) /\
       Permutation (elems (arr t')) (e :: elems (arr t)))
    (fun kd' t' => (t' = t /\ ((kd' = kd /\ raised c kd) \/ (kd' = KAlloc /\ alloc_fail c (growth_request (sz t))))) \/
       ((kd' = KHash \/ kd' = KTransfer) /\ raised c kd' /\ RehashFailed t t')).
Proof.
  intros HC H HA. unfold unchecked_emplace_with_rehash. rewrite bind_get.
  destruct (growth_ok t HC H) as (Hpos & Hm & Hb & Hroom). set (m := growth_request (sz t)) in *.
  pose proof (inv_bounds c t H) as (B1 & B2 & B3).
  eapply outcome_bind; [eapply outcome_weaken; [apply (new_arrays_ok c (aid t) m t n HC Hm Hb)| |]|].
  - intros a s' X. exact X.
  - intros kd' s' (-> & -> & F). left. auto.
  - intros na t0 n1 (-> & [[C _] | (_ & k & Eg & Hk & Lt & FR)]); [lia|].
    rewrite Eg in Hroom. specialize (Hroom Hk). assert (2 ^ k * GN - 1 = 15 * 2 ^ k - 1) as Egn by (unfold GN; lia).
    rewrite Egn in Hroom. pose proof (fr_shape _ _ _ FR) as HS.
    destruct (cap_shape _ _ HS) as [Ec1 Ec2]. destruct (init_ml_shape _ _ HS) as [Ei Bi].
    pose proof (fresh_good c (hid t) _ _ _ FR) as HG. pose proof (fresh_elems _ _ _ FR) as Ef.
    pose proof (i_sz _ _ H) as Es.
    eapply outcome_bind with (Q' := fun l t1 => (snd l < 15)%nat /\ exists na', t1 = set_ml (set_arr t na') (init_ml na') /\
       GoodA c (hid t) k na' /\ a_owner na' = aid t /\ Permutation (elems na') (e :: elems (arr t)) /\
       nth_error (cells na') (slot_index (fst l) (snd l)) = Some (Live e)).
    + unfold with_new. rewrite (sh_gsi _ _ HS).
      pose proof (emplace_good c kd (hid t) k na e n1 HG ltac:(rewrite Ef; cbn; lia)) as EM.
      unfold bind at 1, on_exn at 1, on_new at 1, lens at 1. cbn [rs_tab rs_new fst snd].
      destruct (nosize_unchecked_emplace_at c kd (position (hash_of c (hid t) (fst e)) (64 - k)) (hash_of c (hid t) (fst e)) e na n1)
        as [l na1 n2|kd1 na1 n2|]; cbn [outcome] in EM; [| |destruct EM].
      * destruct EM as (L15 & P1 & P2 & P3). unfold bind at 1.
        rewrite Ef in P3.
        pose proof (rehash_body_ok t k na1 n2 (inv_pre t H) P2) as X.
        assert (a_owner na1 = aid t) as Ow by (destruct P1; rewrite pl_owner; apply FR).
        assert (length (cells na1) = length (cells na)) as Ln by (destruct P1; rewrite pl_cells, set_nth_len; reflexivity).
        specialize (X Ow). rewrite Ln, (Permutation_length P3) in X. cbn [length] in X. specialize (X ltac:(lia)).
        destruct (unchecked_rehash_body c (t, na1, O) n2) as [u s n3|kd3 s n3|]; cbn [outcome ret] in *; [|right; exact X|destruct X].
        destruct X as (na' & -> & G' & O' & P' & Kp & Lc). split; [exact L15|]. exists na'. split; [reflexivity|].
        split; [exact G'|]. split; [exact O'|]. split.
        -- rewrite P', P3, Permutation_app_comm. reflexivity.
        -- apply Kp. destruct P1. rewrite pl_cells, set_nth_err, Nat.eqb_refl by exact pl_lt. reflexivity.
      * destruct EM as (-> & R & P2 & P3). rewrite bind_get. cbn [rs_tab rs_new fst snd].
        pose proof (fr_raw _ _ _ FR) as Fr. destruct P3 as (X1 & X2 & X3 & X4 & X5 & X6).
        rewrite delete_ok; [cbn [outcome rs_tab fst]; left; auto|]. right. split; [|rewrite X1; apply FR].
        apply forallb_forall. intros x Hx. rewrite X4 in Hx. apply In_nth_error in Hx as [i Hi].
        assert (i < length (cells na))%nat as Li by (apply nth_error_Some; congruence).
        destruct (Fr i Li) as [E _]. rewrite E in Hi. injection Hi as <-. reflexivity.
    + intros l t1 n2 (L15 & na' & -> & G' & O' & P' & Hc'). rewrite bind_modify. cbn [ret outcome set_sz set_ml set_arr arr hid pid aid ml sz].
      pose proof G' as [HS' _]. destruct (init_ml_shape _ _ HS') as [Ei' Bi'].
      destruct (init_ml_le c na (hid t)) as [_ B4]; [right; exists k; auto|].
      assert (capacity na' = capacity_for m) as Cap by (destruct (cap_shape _ _ HS') as [-> _]; unfold capacity_for; rewrite Eg; unfold GN; lia).
      rewrite uadd_ok by lia.
      split; [|split; [constructor; reflexivity|split; [exact L15|split; [reflexivity|split; [split; [reflexivity|exact Cap]|split; [exact Hc'|exact P']]]]]].
      destruct H. constructor; cbn [set_sz set_ml set_arr arr hid pid aid ml sz]; auto.
      * right. exists k. auto.
      * eapply uniq_perm; [apply i_compat|symmetry; exact P'|]. apply uniq_cons; assumption.
      * rewrite (Permutation_length P'). cbn [length]. lia.
      * congruence.
      * lia.
Qed.

Record Emplaced (t t' : table) (e : K * V) (l : nat * nat) (ins : bool) : Prop := {
  em_inv : Inv c t'; em_ids : Ids t t'; em_15 : (snd l < 15)%nat;
  em_false : ins = false -> t' = t /\ exists e', nth_error (cells (arr t)) (slot_index (fst l) (snd l)) = Some (Live e') /\ keqf c (pid t) (fst e) (fst e') = true;
  em_true : ins = true -> Absent t (fst e) /\ Permutation (elems (arr t')) (e :: elems (arr t)) /\ sz t' = sz t + 1 /\
     nth_error (cells (arr t')) (slot_index (fst l) (snd l)) = Some (Live e);
  em_below : ins = true -> sz t < ml t -> Inserted t t' e (slot_index (fst l) (snd l));
  em_above : ins = true -> ml t <= sz t -> ml t' = init_ml (arr t') /\ capacity (arr t') = capacity_for (growth_request (sz t))
}.
(** the ways an insertion may fail *)
Definition EmplaceFailed (kd : kind) (t : table) (kd' : kind) (t' : table) : Prop :=
  Inv c t' /\ Ids t t' /\
  ((Same t t' /\ ((kd' = KHash \/ kd' = KEq \/ kd' = kd) /\ raised c kd' \/ kd' = KAlloc /\ alloc_fail c (growth_request (sz t)))) \/
   ((kd' = KHash \/ kd' = KTransfer) /\ raised c kd' /\ sz t = ml t /\ RehashFailed t t')).

Lemma emplace_impl_ok kd t e n : good_cfg c -> Inv c t ->
  outcome (emplace_impl c kd e t n) (fun r t' => Emplaced t t' e (fst r) (snd r)) (EmplaceFailed kd t).
Proof.
  intros HC H. unfold emplace_impl. rewrite bind_get. unfold hash_for. rewrite bind_bind.
  assert (forall k0, (k0 = KHash \/ k0 = KEq \/ k0 = kd) -> raised c k0 -> EmplaceFailed kd t k0 t) as F0.
  { intros k0 Hk0 R. split; [exact H|]. split; [apply Ids_refl|]. left. split; [apply Same_refl|]. left. auto. }
  apply tick_bind; [|intros R; apply F0; auto].
  intros n'. rewrite bind_ret. cbv zeta.
  eapply outcome_bind; [eapply outcome_weaken; [apply (find_at_ok c t (fst e) t n' H)| |]|].
  - intros r s' X. exact X.
  - intros kd' s' (-> & -> & R). apply F0; auto.
  - intros r t0 n1 (-> & Hf). destruct r as [[g m]|]; cbn [found] in Hf.
    + destruct Hf as (L15 & e' & He & Ek). cbn [ret outcome fst snd]. constructor; auto; try discriminate.
      * apply Ids_refl.
      * intros _. split; [reflexivity|]. eauto.
    + assert (Absent t (fst e)) as HA by exact Hf.
      destruct (N.ltb_spec (sz t) (ml t)) as [Lt|Ge].
      * eapply outcome_bind; [eapply outcome_weaken; [apply (unchecked_emplace_at_ok c kd t e n1 H Lt HA)| |]|].
        -- intros l t' X. exact X.
        -- intros kd' t' (-> & R & I & S). split; [exact I|]. split; [apply same_ids; exact S|]. left. split; [exact S|]. left. auto.
        -- intros l t' n2 (I & L15 & Ins & P). cbn [ret outcome fst snd]. constructor; auto; try discriminate.
           ++ apply Ins.
           ++ intros _. split; [exact HA|]. split; [exact P|]. split; [apply Ins|]. eapply inserted_cell; eauto.
           ++ intros _ C. lia.
      * eapply outcome_bind; [eapply outcome_weaken; [apply (with_rehash_ok kd t e n1 HC H HA)| |]|].
        -- intros l t' X. exact X.
        -- intros kd' t' [(-> & [[-> R] | [-> A]]) | (Hk & R & F)].
           ++ apply F0; auto.
           ++ split; [exact H|]. split; [apply Ids_refl|]. left. split; [apply Same_refl|]. right. auto.
           ++ destruct (failed_inv t t' H F) as (I & Id & _). split; [exact I|]. split; [exact Id|]. right.
              split; [exact Hk|]. split; [exact R|]. split; [pose proof (i_szml _ _ H); lia|exact F].
        -- intros l t' n2 (I & Id & L15 & Es & Em & Hc & P). cbn [ret outcome fst snd]. constructor; auto; try discriminate.
           intros _ C. lia.
Qed.
End Rehash.
