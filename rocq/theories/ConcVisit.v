(** visit_all, visit_while, erase_if(pred): an element present during the whole traversal is visited exactly once. *)
From Coq Require Import NArith Bool List Arith Lia ZifyBool ZifyNat ZifyN Permutation.
From Verif Require Import FloatModel SizeModel SizeProofs GroupModel GroupSpec FoaModel FoaGroup FoaBase FoaFind FoaArr FoaInv FoaRehash FoaSpec FoaWorld FoaRun
  ConcSpec ConcModel ConcInv ConcStep ConcStep2 ConcStep3 ConcSys ConcSys2 ConcLin1 ConcLin2 ConcLin3 ConcProps ConcLog.
Import ListNotations.
Local Open Scope N_scope.
Notation set_nth := FoaModel.set_nth.

Section Visit.
Context {K V : Type} (c : Cfg K V).
Hypothesis HC : good_cfg c.
Notation Sh := (@Sh K V).
Notation pop := (pop K V). Notation cop := (cop K V). Notation loc := (@loc K V). Notation cres := (cres K V).
Notation CInv := (CInv c).
Notation conf := (@conf K V). Notation pc := (@pc K V).
Notation GInv := (GInv c).
Notation event := (event K V).

(** executions from C, all of whose states satisfy [P] *)
Inductive steps (P : conf -> Prop) (C : conf) : list event -> conf -> Prop :=
| st_nil : P C -> steps P C [] C
| st_snoc es C1 e C2 : steps P C es C1 -> gstep c C1 e C2 -> P C2 -> steps P C (es ++ match e with Some x => [x] | None => [] end) C2.

(** number of calls of f on elements equivalent to q *)
Definition visits (p : N) (q : K) (l : list ((K * V) * bool)) : nat := length (filter (fun eb => keqf c p q (fst (fst eb))) l).
Definition VC (p : N) (q : K) (i : nat) (l : loc) : Prop :=
  match l with
  | BGrp g acc | BMask g acc => visits p q acc = if (i / 15 <? g)%nat then 1%nat else 0%nat
  | BElem g ms acc | LMl g _ (KB ms acc) | LReset g _ (KB ms acc) | LDec g (KB ms acc) =>
      visits p q acc = if (i / 15 <? g)%nat || ((i / 15 =? g)%nat && negb (memb (i mod 15) ms)) then 1%nat else 0%nat
  | LUnl _ _ (RBulk acc st) | LDone (RBulk acc st) | LRet (RBulk acc st) => (visits p q acc <= 1)%nat /\ (st = BDone -> visits p q acc = 1%nat)
  | _ => True
  end.
Lemma memb_in n l : memb n l = true <-> In n l.
Proof. unfold memb. rewrite existsb_exists. split; [intros (x & H & E); apply Nat.eqb_eq in E; subst; exact H|intros H; exists n; split; [exact H|apply Nat.eqb_refl]]. Qed.
Lemma visits_snoc p q acc e b : visits p q (acc ++ [(e, b)]) = (visits p q acc + if keqf c p q (fst e) then 1 else 0)%nat.
Proof. unfold visits. rewrite filter_app, app_length. cbn. destruct (keqf c p q (fst e)); reflexivity. Qed.

Lemma visit_step k s vs t x md f l free e l' a q i e0 : CInv k s vs -> nth_error vs t = Some (Some (Bulk x md f, l)) ->
  bstep free s (writes x md) md f l = Step e l' a -> nth_error (cells (A s)) i = Some (Live e0) -> keqf c (pid (tb s)) q (fst e0) = true ->
  VC (pid (tb s)) q i l -> VC (pid (tb s)) q i l'.
Proof.
  intros [B U] Ht Hs Hi Hq Hv. set (p := pid (tb s)) in *. destruct (cb_ti _ _ _ _ B _ _ _ Ht) as [W T]. pose proof (cb_fr _ _ _ _ B) as Fk. pose proof (fr_geo _ _ _ Fk) as G.
  pose proof (nth_error_Some_lt _ _ _ Hi) as Li. pose proof (cell_group c k s i Fk Li) as Gi.
  destruct l; cbn [ConcInv.TI wf] in W, T; try contradiction; cbn [bstep] in Hs; change (arr (tb s)) with (A s) in Hs.
  - injection Hs as <- <- <-. reflexivity.
  - destruct (get_group _ _); [|discriminate]. injection Hs as <- <- <-. destruct kt; exact Hv.
  - injection Hs as <- <- <-. destruct kt; exact Hv.
  - destruct kt; [discriminate|]. injection Hs as <- <- <-. exact Hv.
  - (* BGrp *) cbn [VC] in Hv. assert (a_elems (A s) <> None) as Ne by (unfold cells in Li; destruct (a_elems (A s)); [discriminate|cbn in Li; lia]).
    destruct (a_elems (A s)); [|destruct (Ne eq_refl)]. rewrite (ge_mask _ _ G) in Hs. pose proof (pow_nat_pos k) as P2.
    replace (2 ^ k - 1 + 1) with (2 ^ k) in Hs by lia.
    destruct (Nat.eqb_spec g (N.to_nat (2 ^ k))) as [E|E].
    + injection Hs as <- <- <-. cbn [VC]. destruct (Nat.ltb_spec (i / 15) g); lia.
    + destruct (free g _); [|discriminate]. injection Hs as <- <- <-. exact Hv.
  - (* BMask *) destruct T as [T1 T2]. rewrite (geo_get k) in Hs by assumption. pose proof (geo_len _ _ _ G T1) as Lb. rewrite really_occupied_bits in Hs by exact Lb.
    injection Hs as <- <- <-. cbn [VC] in *. pose proof (fr_shape _ _ _ Fk T2) as HS. rewrite (ge_mask _ _ G). pose proof (pow_nat_pos k) as P2.
    replace (2 ^ k - 1 + 1) with (2 ^ k) by lia. rewrite Hv. destruct (Nat.ltb_spec (i / 15) g) as [L|L]; [reflexivity|]. cbn [orb].
    destruct (Nat.eqb_spec (i / 15) g) as [E|E]; [|reflexivity]. cbn [andb].
    match goal with |- context [occ_bits ?b ?lst] => change (occ_bits b lst) with (occ_bits b (Nat.eqb (S g) (N.to_nat (2 ^ k)))) end.
    assert (memb (i mod 15) (occ_bits (grp (A s) g) (Nat.eqb (S g) (N.to_nat (2 ^ k)))) = true) as ->; [|reflexivity].
    apply memb_in, occ_in. pose proof (mod15 i). split; [assumption|]. destruct (cb_live _ _ _ _ B i e0 Hi) as [E1 _]. unfold ctrl in E1. rewrite E in E1. rewrite E1.
    split; [pose proof (low_class_ge2 (hash_of c (hid (tb s)) (fst e0))); lia|]. intros El. apply Nat.eqb_eq in El. rewrite (sh_cells _ _ HS) in Li.
    pose proof (Nat.div_mod i 15 ltac:(lia)). lia.
  - (* BElem *) destruct T as (T1 & T2 & T3 & T4). cbn [VC] in Hv. destruct ms as [|n ms].
    + injection Hs as <- <- <-. cbn [VC]. rewrite Hv. cbn [memb existsb negb]. rewrite andb_true_r.
      destruct (Nat.ltb_spec (i / 15) g), (Nat.eqb_spec (i / 15) g), (Nat.ltb_spec (i / 15) (S g)); cbn; lia.
    + destruct (T4 n ltac:(now left)) as [Ln (e1 & E1)]. pose proof (fr_shape _ _ _ Fk T2) as HS. rewrite (get_cell_eq k) in Hs by exact HS. rewrite E1 in Hs.
      destruct (f (length acc) e1) as [v ob] eqn:Ef. inversion T3 as [|? ? Nin Nd]; subst.
      set (d := erases md ob) in *. set (acc' := acc ++ [(e1, d)]) in *.
      assert (visits p q acc' = if (i / 15 <? g)%nat || ((i / 15 =? g)%nat && negb (memb (i mod 15) ms)) then 1%nat else 0%nat) as Z.
      { unfold acc'. rewrite visits_snoc, Hv. cbn [memb existsb]. destruct (Nat.eq_dec i (slot_index g n)) as [E|N].
        - rewrite E, slot_div, slot_mod by exact Ln. rewrite Nat.ltb_irrefl, !Nat.eqb_refl. cbn [orb andb negb].
          assert (e1 = e0) as -> by congruence. unfold p in Hq |- *. rewrite Hq. fold (memb n ms). destruct (memb n ms) eqn:Em; [apply memb_in in Em; contradiction|reflexivity].
        - assert (keqf c p q (fst e1) = false) as Hn.
          { destruct (keqf c p q (fst e1)) eqn:E; [exfalso|reflexivity]. apply N. apply (cu_uniq _ _ _ _ U i (slot_index g n) (fst e0) (fst e1)); [left; eauto|left; eauto|].
            eapply equiv_same; [apply (cb_compat _ _ _ _ B)|exact Hq|exact E]. }
          rewrite Hn, Nat.add_0_r. fold (memb (i mod 15) ms). destruct (Nat.eqb_spec (i mod 15) n) as [Em|Em]; [|reflexivity].
          destruct (Nat.eqb_spec (i / 15) g) as [Eg|Eg]; [|reflexivity]. destruct N. unfold slot_index. pose proof (Nat.div_mod i 15 ltac:(lia)). lia. }
      assert (visits p q acc' <= 1)%nat as Z1 by (rewrite Z; match goal with |- context [if ?b then _ else _] => destruct b end; auto).
      injection Hs as <- <- <-. destruct d; [exact Z|]. destruct ob as [b|].
      * destruct (goes_on md (Some b)); [exact Z|]. cbn [VC]. split; [exact Z1|discriminate].
      * cbn [VC]. split; [exact Z1|discriminate].
  - destruct r; try contradiction. injection Hs as <- <- <-. exact Hv.
  - destruct r; try contradiction. injection Hs as <- <- <-. exact Hv.
  - discriminate.
Qed.

(** the container has predicate object p and an element equivalent to q *)
Definition present (C : conf) (d : nat) (p : N) (q : K) : Prop := exists s i e,
  box C d = Some s /\ pid (tb s) = p /\ get_cell (arr (tb s)) i = Some (Live e) /\ keqf c p q (fst e) = true.
Definition VInv (C : conf) (t d : nat) (o : cop) (p : N) (q : K) : Prop := exists l, nth_error (th C) t = Some (At d o l) /\
  forall s i e, box C d = Some s -> nth_error (cells (A s)) i = Some (Live e) -> keqf c p q (fst e) = true -> VC p q i l.
Lemma vinv_other C C' t d x md f p q : VInv C t d (Bulk x md f) p q -> nth_error (th C') t = nth_error (th C) t ->
  (box C' d = box C d) -> VInv C' t d (Bulk x md f) p q.
Proof. intros (l & H1 & H2) Et Eb. exists l. rewrite Et, Eb. auto. Qed.
Lemma vinv_out k s C C' t d x md f p q : VInv C t d (Bulk x md f) p q -> box C d = Some s -> CInv k s (views C d) -> present C d p q ->
  nth_error (th C') t = nth_error (th C) t -> Out (views C d) -> VInv C' t d (Bulk x md f) p q.
Proof.
  intros (l & H1 & H2) Hb Hk (s0 & i0 & e0 & Hb0 & Hp & Hi & Hq) Et Ho. exists l. rewrite Et. split; [exact H1|]. intros s1 i e _ _ _.
  pose proof (proj2 (view_at C d t _ l) H1) as Hv. specialize (Ho _ _ _ Hv). rewrite Hb in Hb0. injection Hb0 as <-.
  assert (nth_error (cells (A s)) i0 = Some (Live e0)) as Hi' by (unfold get_cell in Hi; unfold cells, A; destruct (a_elems (arr (tb s))); [exact Hi|discriminate]).
  specialize (H2 s i0 e0 Hb Hi' Hq). pose proof (proj1 (cb_ti _ _ _ _ (proj1 Hk) _ _ _ Hv)) as W. destruct l; try discriminate Ho; cbn [wf] in W; try contradiction; exact H2.
Qed.
Lemma vinv_step C e C' t d x md f p q : GInv C -> gstep c C e C' -> (forall a, e <> Some (ERet t a)) -> present C d p q ->
  VInv C t d (Bulk x md f) p q -> VInv C' t d (Bulk x md f) p q.
Proof.
  intros G St Ne Hpr HV. pose proof HV as (l0 & Ht0 & H0).
  destruct St as [C t1 d1 o s Ht Hb|C t1 d1 o l s i thr e l' a s' Ht Hb Hs Ha|C t1 d1 o s n t' n' cn Ht Hb Hal Hr Hc|
    C t1 d1 o s n kd t' n' cn Ht Hb Hal Hr Hc|C t1 d1 o r Ht|C t1 o Ht|C t1 o n r w bs Ht Hp He Hbk|C t1 r Ht].
  - assert (t <> t1) as N by (intros ->; congruence). eapply vinv_other; [exact HV|apply others_err, N|reflexivity].
  - assert (box (set_box (set_th C t1 (At d1 o l')) d1 s') d = if Nat.eqb d d1 then Some s' else box C d) as Eb by (apply (box_set (set_th C t1 (At d1 o l')) d1 s' s); exact Hb).
    destruct (Nat.eqb_spec d d1) as [<-|Nd].
    2:{ assert (t <> t1) as N by (intros ->; congruence). eapply vinv_other; [exact HV|apply others_err, N|exact Eb]. }
    destruct Hpr as (s0 & i0 & e0 & Hb0 & Hp0 & Hi0 & Hq0). assert (s0 = s) by congruence. subst s0.
    assert (nth_error (cells (A s)) i0 = Some (Live e0)) as Hi0' by (unfold get_cell in Hi0; unfold cells, A; destruct (a_elems (arr (tb s))); [exact Hi0|discriminate]).
    destruct (gi_box _ _ G d s Hb) as [k Hk]. pose proof Hk as [B U]. pose proof (proj2 (view_at C d t1 o l) Ht) as Hv.
    pose proof (lin_ok c k s (views C d) t1 o l (free_for C t1 d) i thr Hk Hv) as X. rewrite Hs in X. cbn [lin_good] in X. destruct X as (_ & _ & X3). specialize (X3 s' Ha).
    assert (forall i1 e1, nth_error (cells (A s')) i1 = Some (Live e1) -> keqf c p q (fst e1) = true -> i0 = i1) as Same.
    { intros i1 e1 H1 Hq1. apply (cu_uniq _ _ _ _ U i0 i1 (fst e0) (fst e1)); [left; eauto| |].
      - destruct (X3 i1 e1 H1) as [(e2 & E1 & E2)|(p2 & x2 & n2 & -> & -> & E1 & E2)]; [left; exists e2; auto|right; exists t1, p2, x2, n2; auto].
      - rewrite Hp0. apply (equiv_same c p q); [rewrite <- Hp0; apply (cb_compat _ _ _ _ B)|exact Hq0|exact Hq1]. }
    destruct (Nat.eq_dec t t1) as [<-|N].
    + rewrite Ht0 in Ht. injection Ht as <- <-. exists l'. split; [apply (self_err _ _ _ _ Ht0)|]. intros s1 i1 e1 Hb1 Hi1 Hq1. rewrite Eb in Hb1. injection Hb1 as <-.
      rewrite <- (Same i1 e1 Hi1 Hq1). rewrite <- Hp0. eapply visit_step; [exact Hk|exact Hv|exact Hs|exact Hi0'|rewrite Hp0; exact Hq0|].
      rewrite Hp0. eapply H0; eassumption.
    + exists l0. split; [cbn [set_box set_th th]; rewrite others_err by exact N; exact Ht0|]. intros s1 i1 e1 Hb1 Hi1 Hq1. rewrite Eb in Hb1. injection Hb1 as <-.
      rewrite <- (Same i1 e1 Hi1 Hq1). eapply H0; eassumption.
  - assert (t <> t1) as N.
    { intros <-. destruct (gi_box _ _ G d1 s Hb) as [k Hk]. pose proof (proj2 (view_at C d1 t o _) Ht) as Hv. pose proof (proj1 (cb_ti _ _ _ _ (proj1 Hk) _ _ _ Hv)) as W.
      rewrite Ht0 in Ht. injection Ht as _ <- _. exact W. }
    destruct (Nat.eq_dec d d1) as [<-|Nd].
    + destruct (gi_box _ _ G d s Hb) as [k Hk]. eapply vinv_out; [exact HV|exact Hb|exact Hk|exact Hpr|apply others_err, N|].
      exact (alone_out C t1 d o LFull Ht eq_refl Hal).
    + eapply vinv_other; [exact HV|apply others_err, N|]. rewrite (box_set (set_th C t1 (At d1 o LEnter)) d1 _ s) by exact Hb. destruct (Nat.eqb_spec d d1); [contradiction|reflexivity].
  - assert (t <> t1) as N.
    { intros <-. destruct (gi_box _ _ G d1 s Hb) as [k Hk]. pose proof (proj2 (view_at C d1 t o _) Ht) as Hv. pose proof (proj1 (cb_ti _ _ _ _ (proj1 Hk) _ _ _ Hv)) as W.
      rewrite Ht0 in Ht. injection Ht as _ <- _. exact W. }
    destruct (Nat.eq_dec d d1) as [<-|Nd].
    + destruct (gi_box _ _ G d s Hb) as [k Hk]. eapply vinv_out; [exact HV|exact Hb|exact Hk|exact Hpr|apply others_err, N|].
      exact (alone_out C t1 d o LFull Ht eq_refl Hal).
    + eapply vinv_other; [exact HV|apply others_err, N|]. rewrite (box_set (set_th C t1 (At d1 o (LRet RThrew))) d1 _ s) by exact Hb. destruct (Nat.eqb_spec d d1); [contradiction|reflexivity].
  - assert (t <> t1) as N by (intros <-; exact (Ne _ eq_refl)). eapply vinv_other; [exact HV|apply others_err, N|reflexivity].
  - assert (t <> t1) as N by (intros ->; congruence). eapply vinv_other; [exact HV|apply others_err, N|reflexivity].
  - assert (t <> t1) as N by (intros ->; congruence). destruct (whole_cases c HC C o n r w bs G Hp He Hbk) as [_ Hw].
    destruct (Hw d) as [(s1 & E1 & _ & E2)|(E & _)].
    + eapply vinv_other; [exact HV|apply others_err, N|]. unfold box at 1. cbn [boxes]. congruence.
    + destruct (gi_at _ _ G _ _ _ _ Ht0) as [s Hb]. destruct (gi_box _ _ G d s Hb) as [k Hk]. eapply vinv_out; [exact HV|exact Hb|exact Hk|exact Hpr|apply others_err, N|exact E].
  - assert (t <> t1) as N by (intros ->; congruence). eapply vinv_other; [exact HV|apply others_err, N|reflexivity].
Qed.
Lemma steps_run n es0 C0 (P : conf -> Prop) es C : runs_with c counters_fit n es0 C0 -> (forall C, P C -> counters_fit C) -> steps P C0 es C -> runs_with c counters_fit n (es0 ++ es) C.
Proof.
  intros R HP H. induction H as [H|es C1 e C2 H IH St H2]; [rewrite app_nil_r; exact R|]. rewrite app_assoc. eapply r_snoc; [exact IH|exact St|auto].
Qed.
Lemma visited_once n es0 C0 t d x md f p q es C l st : runs_with c counters_fit n es0 C0 -> nth_error (th C0) t = Some (At d (Bulk x md f) LEnter) ->
  steps (fun C => counters_fit C /\ present C d p q) C0 es C -> (forall a, ~ In (ERet t a) es) ->
  nth_error (th C) t = Some (At d (Bulk x md f) (LRet (RBulk l st))) ->
  (visits p q l <= 1)%nat /\ (st = BDone -> visits p q l = 1%nat).
Proof.
  intros R Ht0 H Ne Ht.
  assert (VInv C t d (Bulk x md f) p q /\ present C d p q) as [(l0 & E & HV) (s & i & e & Hb & Hp & Hi & Hq)].
  { clear l st Ht. induction H as [[_ H]|es C1 e C2 H IH St [H2 H3]].
    - split; [|exact H]. exists LEnter. split; [exact Ht0|]. intros; exact I.
    - split; [|exact H3]. destruct IH as [IH1 IH2]; [intros a Ha; apply (Ne a), in_or_app; left; exact Ha|].
      eapply vinv_step; [|exact St| |exact IH2|exact IH1].
      + eapply reach_ginv; [exact HC| |eapply steps_run; [exact R| |exact H]]; [auto|]. intros C [X _]. exact X.
      + intros a ->. apply (Ne a), in_or_app. right. now left. }
  rewrite Ht in E. injection E as <-.
  assert (nth_error (cells (A s)) i = Some (Live e)) as Hi' by (unfold get_cell in Hi; unfold cells, A; destruct (a_elems (arr (tb s))); [exact Hi|discriminate]).
  exact (HV s i e Hb Hi' Hq).
Qed.
End Visit.
