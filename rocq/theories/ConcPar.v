(** Traversals with an execution policy: each execution is one of the machine of ConcModel in which traversals may also skip groups. *)
From Coq Require Import NArith Bool List Arith Lia Permutation.
From Verif Require Import FloatModel SizeModel SizeProofs GroupModel GroupSpec FoaModel FoaGroup FoaBase FoaFind FoaArr FoaInv FoaRehash FoaSpec FoaWorld FoaRun
  ConcSpec ConcModel ConcInv ConcStep ConcStep2 ConcStep3 ConcSys ConcSys2 ConcLin1 ConcLin2 ConcLin3 ConcVisit ConcProps ConcLog ConcProgress.
Import ListNotations.
Notation set_nth := FoaModel.set_nth.

Section Par.
Context {K V : Type} (c : Cfg K V).
Hypothesis HC : good_cfg c.
Notation Sh := (@Sh K V).
Notation pop := (pop K V). Notation cop := (cop K V). Notation loc := (@loc K V). Notation cres := (cres K V).
Notation conf := (@conf K V). Notation pc := (@pc K V).
Notation GInv := (GInv c).
Notation event := (event K V).
Notation At := ConcModel.At.
Notation calls := (list ((K * V) * bool)).

(** a traversal that is between two groups goes to another group, or ends *)
Definition skips (s : Sh) (acc : calls) (l' : loc) : Prop :=
  l' = LDone (RBulk acc BDone) \/ exists g', l' = BGrp g' acc /\ (g' <= N.to_nat (a_mask (arr (tb s)) + 1))%nat.
Inductive xstep : conf -> option event -> conf -> Prop :=
| x_gstep C e C' : gstep c C e C' -> xstep C e C'
| x_skip C t d x md f g acc s l' : nth_error (th C) t = Some (At d (Bulk x md f) (BGrp g acc)) -> box C d = Some s -> skips s acc l' ->
    xstep C None (set_th C t (At d (Bulk x md f) l')).

Lemma ginv_skip C t d x md f g acc s l' : GInv C -> nth_error (th C) t = Some (At d (Bulk x md f) (BGrp g acc)) -> box C d = Some s -> skips s acc l' ->
  GInv (set_th C t (At d (Bulk x md f) l')).
Proof.
  intros G Ht Hb Hs. destruct (gi_box _ _ G d s Hb) as [k [B U]]. pose proof (proj2 (view_at C d t _ _) Ht) as Hv.
  destruct (cb_ti _ _ _ _ B _ _ _ Hv) as [W T]. cbn [wf] in W.
  assert (set_box (set_th C t (At d (Bulk x md f) l')) d s = set_th C t (At d (Bulk x md f) l')) as <-.
  { unfold set_box. cbn [set_th boxes th]. unfold set_th. f_equal. apply set_nth_same. unfold box in Hb. destruct (nth_error (boxes C) d); congruence. }
  eapply ginv_upd; [exact G|exact Ht|exact Hb|].
  assert (lock_of (Bulk x md f) l' = None /\ wt l' = 0%N /\ (forall m, adm m l' = 0%N) /\ infl l' = None /\ wf (Bulk x md f) l' /\ TI c k s (Bulk x md f) l') as (Z1 & Z2 & Z3 & Z4 & Z5 & Z6).
  { destruct Hs as [->|(g' & -> & Lg)]; cbn [lock_of wt adm infl wf ConcInv.TI]; (split; [reflexivity|]); (split; [reflexivity|]); (split; [reflexivity|]); (split; [reflexivity|]).
    { split; [apply acc_ends, W|exact I]. }
    split; [exact W|]. change (arr (tb s)) with (A s) in Lg. rewrite (ge_mask _ _ (fr_geo _ _ _ (cb_fr _ _ _ _ B))) in Lg. pose proof (pow_nat_pos k). replace (2 ^ k - 1 + 1)%N with (2 ^ k)%N in Lg by lia. exact Lg. }
  split.
  - eapply cbase_step; [exact B|exact Hv|apply foreign_refl|apply (cb_fr _ _ _ _ B)| |rewrite Z1; right; left; reflexivity|rewrite Z2; reflexivity| | | ].
    + intros i E. discriminate E.
    + left. rewrite Z3. cbn [adm]. lia.
    + exact Z5.
    + exact Z6.
  - eapply cuniq_step; [exact U|exact Hv|apply (foreign_refl s None)| |exact I].
    intros i q [H|(t1 & p1 & x1 & n1 & E & H)]; [left; exact H|right]. exists t1, p1, x1, n1. split; [|exact H].
    destruct (set_cases _ _ _ _ _ _ Hv E) as [[_ E']|[_ E']]; [discriminate|exact E'].
Qed.

Lemma main_skip C es t d x md f g acc s l' : nth_error (th C) t = Some (At d (Bulk x md f) (BGrp g acc)) -> box C d = Some s -> skips s acc l' ->
  Main c C es -> Main c (set_th C t (At d (Bulk x md f) l')) es.
Proof.
  intros Ht Hb Hs (fl & Fq & Fa & Fc & Hcan). set (C' := set_th C t (At d (Bulk x md f) l')).
  assert (nth_error (th C') t = Some (At d (Bulk x md f) l')) as Ht' by (apply (self_err _ _ _ _ Ht)).
  assert (forall t1, t1 <> t -> nth_error (th C') t1 = nth_error (th C) t1) as Hto by (intros; apply others_err; assumption).
  assert (forall t1, qualb C' t1 = qualb C t1) as Eq.
  { intros t1. unfold qualb. destruct (Nat.eq_dec t1 t) as [->|N]; [rewrite Ht', Ht; reflexivity|rewrite Hto by exact N; reflexivity]. }
  assert (forall t1, absentb c C' t1 = absentb c C t1) as Ea.
  { intros t1. unfold absentb. destruct (Nat.eq_dec t1 t) as [->|N]; [rewrite Ht', Ht; reflexivity|rewrite Hto by exact N; reflexivity]. }
  exists fl. split; [intros t1 H; rewrite Eq; apply Fq, H|]. split; [intros t1; rewrite Eq, Ea; apply Fa|]. split.
  - intros t1 d1 p1 l1 s1 i1 e1 H. destruct (Nat.eq_dec t1 t) as [->|N]; [rewrite Ht' in H; discriminate|]. rewrite Hto in H by exact N. exact (Fc t1 d1 p1 l1 s1 i1 e1 H).
  - intros ch Hch. destruct (Hcan ch Hch) as (es' & st & R1 & R2 & R3). exists es', st. split; [exact R1|]. split; [exact R2|].
    intros t1 q H. destruct (Nat.eq_dec t1 t) as [->|N]; [|rewrite Hto in H by exact N; apply R3, H].
    rewrite Ht' in H. injection H as <-. specialize (R3 t _ Ht). cbn [rel] in *. rewrite R3. f_equal. destruct (ch t) eqn:Ec; [reflexivity|].
    destruct Hs as [->|(g' & -> & _)]; reflexivity.
Qed.
Lemma ginv_xstep C e C' : GInv C -> counters_fit C -> xstep C e C' -> GInv C'.
Proof.
  intros G F St. destruct St as [C0 e0 C1 H|C0 t d x md f g acc s l' Ht Hb Hs]; [exact (ginv_step c HC _ _ _ G F H)|exact (ginv_skip _ _ _ _ _ _ _ _ _ _ G Ht Hb Hs)].
Qed.
Definition ev_opt (e : option event) : list event := match e with Some x => [x] | None => [] end.
Lemma main_xstep C es e C' : GInv C -> counters_fit C -> xstep C e C' -> Main c C es -> Main c C' (es ++ ev_opt e).
Proof.
  intros G F St M. destruct St as [C0 e0 C1 H|C0 t d x md f g acc s l' Ht Hb Hs]; [exact (main_step c HC _ _ _ _ G F H M)|]. cbn [ev_opt]. rewrite app_nil_r. eapply main_skip; eassumption.
Qed.
Inductive xsteps (C : conf) : list event -> conf -> Prop :=
| xs_nil : counters_fit C -> xsteps C [] C
| xs_snoc es C1 e C2 : xsteps C es C1 -> xstep C1 e C2 -> counters_fit C2 -> xsteps C (es ++ ev_opt e) C2.
Lemma xsteps_trans C es1 C1 es2 C2 : xsteps C es1 C1 -> xsteps C1 es2 C2 -> xsteps C (es1 ++ es2) C2.
Proof. intros H1 H2. induction H2 as [H|es Ca e Cb H IH St HP]; [rewrite app_nil_r; exact H1|]. rewrite app_assoc. eapply xs_snoc; eassumption. Qed.
Lemma xsteps_one C e C' : counters_fit C -> counters_fit C' -> xstep C e C' -> xsteps C (ev_opt e) C'.
Proof. intros F F' H. change (ev_opt e) with ([] ++ ev_opt e). eapply xs_snoc; [apply xs_nil; exact F|exact H|exact F']. Qed.
Lemma xsteps_fit C es C' : xsteps C es C' -> counters_fit C'.
Proof. intros H. destruct H; assumption. Qed.
Lemma xsteps_ginv C es C' : GInv C -> xsteps C es C' -> GInv C'.
Proof. intros G H. induction H as [|es C1 e C2 H IH St F]; [exact G|]. eapply ginv_xstep; [exact IH|eapply xsteps_fit; exact H|exact St]. Qed.
Lemma xsteps_main C es0 es C' : GInv C -> Main c C es0 -> xsteps C es C' -> Main c C' (es0 ++ es).
Proof.
  intros G M H. induction H as [|es C1 e C2 H IH St F]; [rewrite app_nil_r; exact M|]. rewrite app_assoc.
  eapply main_xstep; [eapply xsteps_ginv; eassumption|eapply xsteps_fit; exact H|exact St|exact IH].
Qed.
End Par.
