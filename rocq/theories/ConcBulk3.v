(** Bulk visitation: what a call does. *)
From Coq Require Import NArith Bool List Arith Lia Permutation.
From Verif Require Import FloatModel SizeModel SizeProofs GroupModel GroupSpec FoaModel FoaGroup FoaBase FoaFind FoaArr FoaInv FoaRehash FoaSpec FoaWorld FoaRun
  ConcSpec ConcModel ConcInv ConcStep ConcStep2 ConcStep3 ConcSys ConcSys2 ConcLin1 ConcLin2 ConcLin3 ConcVisit ConcProps ConcLog ConcFound ConcProgress ConcBulkModel ConcBulk ConcBulk2.
Import ListNotations.
Notation set_nth := FoaModel.set_nth.

Section Bulk3.
Context {K V : Type} (c : Cfg K V).
Hypothesis HC : good_cfg c.
Notation Sh := (@Sh K V).
Notation pop := (pop K V). Notation cop := (cop K V). Notation loc := (@loc K V). Notation cres := (cres K V).
Notation conf := (@conf K V). Notation pc := (@pc K V).
Notation GInv := (GInv c).
Notation event := (event K V).
Notation bcall := (@bcall K V). Notation bconf := (@bconf K V). Notation bevent := (@bevent K V).
Notation gsteps := (steps c counters_fit).
Notation run := (runs_with c counters_fit).

Lemma binv_init n nb : BInv (BConf (Conf [] (repeat Idle n)) (repeat (@None bcall) nb)).
Proof. split; cbn [bulks]; intros u b; [intros H; apply repeat_get in H; discriminate|intros u' b' t H; apply repeat_get in H; discriminate]. Qed.
Theorem breach n nb es BC : bruns c n nb es BC -> run n (plain es) (bc BC) /\ BInv BC /\ counters_fit (bc BC).
Proof.
  intros H. induction H as [F|es BC a es' BC' H (R & I & F) St F'].
  - split; [apply r_nil; exact F|]. split; [apply binv_init|exact F].
  - assert (GInv (bc BC)) as G by (eapply (reach_ginv c HC counters_fit); [auto|exact R]). destruct (bstep_ok c BC a es' BC' G F F' I St) as [S I'].
    split; [rewrite plain_app; eapply steps_run; [exact R|intros C1 X; exact X|exact S]|]. split; [exact I'|exact F'].
Qed.
Lemma bruns_trans n nb es BC es' BC' : bruns c n nb es BC -> bsteps c BC es' BC' -> bruns c n nb (es ++ es') BC'.
Proof. intros R H. induction H as [|es1 C1 a es2 C2 H IH St F]; [rewrite app_nil_r; exact R|]. rewrite app_assoc. eapply br_snoc; eassumption. Qed.
Lemma bsteps_gsteps n nb es BC es' BC' : bruns c n nb es BC -> bsteps c BC es' BC' -> gsteps (bc BC) (plain es') (bc BC').
Proof.
  intros R H. induction H as [|es1 C1 a es2 C2 H IH St F]; [apply st_nil; apply (breach _ _ _ _ R)|].
  destruct (breach _ _ _ _ (bruns_trans _ _ _ _ _ _ R H)) as (R1 & I1 & F1). assert (GInv (bc C1)) as G by (eapply (reach_ginv c HC counters_fit); [auto|exact R1]).
  rewrite plain_app. eapply steps_trans; [exact IH|]. apply (bstep_ok c C1 a es2 C2 G F1 F I1 St).
Qed.

(** *** the visits of a call whose result is known *)
Definition res_of (l : loc) : option cres := match l with LUnl _ _ r | LDone r | LRet r => Some r | _ => None end.
Lemma res_lins p l : wf (Point p) l -> (exists x k f, p = PVisit x k f) -> lins (Point p) l = match res_of l with Some RNone | None => [] | Some r => [APoint r] end.
Proof. intros W (x & k & f & ->). destruct l; cbn [wf emplaces erasing] in W; try contradiction; try discriminate W; try reflexivity; destruct kt; try contradiction; discriminate W. Qed.
(** a step of a key: nothing happens, or the function is called, or an exception is thrown *)
Lemma key_effect b (C : conf) j t l i thr e C' : GInv C -> GInv C' -> key_at b C j t l -> by_thread c C t i thr e C' -> exists kf s s' l',
  nth_error (b_keys b) j = Some kf /\ key_at b C' j t l' /\ box C (b_d b) = Some s /\ box C' (b_d b) = Some s' /\ pid (tb s') = pid (tb s) /\
  ((e = None /\ elems (A s') = elems (A s) /\ (res_of l' = res_of l \/ (res_of l = None /\ res_of l' = Some RNone) \/ (res_of l = Some RNone /\ res_of l' = None))) \/
   (exists r, e = Some (ELin t (APoint r)) /\ r <> RNone /\ res_of l' = Some r /\ (res_of l = None \/ res_of l = Some RNone) /\
      pspec (keqf c) (moves c) (pid (tb s)) (PVisit (b_x b) (fst kf) (snd kf)) (elems (A s)) r (elems (A s')))).
Proof.
  intros G G' Hk Hy. destruct (key_wf c _ _ _ _ _ G Hk) as (kf & W1 & W2 & W3). destruct (by_key c b C _ t _ _ _ _ _ Hk Hy) as (kf' & s & ef & l1 & a1 & B1 & B2 & B3 & B4 & B5).
  assert (kf' = kf) by congruence. subst kf'. destruct (key_wf c _ _ _ _ _ G' B5) as (kf' & W1' & W2' & W3'). assert (kf' = kf) by congruence. subst kf'.
  destruct Hy as [d0 o0 l0 s0 e0 l2 a2 s' H1 H2 H3 H4]. rewrite W3 in H1. injection H1 as <- <- <-. assert (s0 = s) by congruence. subst s0.
  cbn [key_op lstep] in H3. rewrite B3 in H3. injection H3 as <- <- <-.
  assert (box (set_box (set_th C t (ConcModel.At (b_d b) (key_op (b_x b) kf) l1)) (b_d b) s') (b_d b) = Some s') as Eb.
  { rewrite (box_set (set_th C t (ConcModel.At (b_d b) (key_op (b_x b) kf) l1)) (b_d b) s' s) by exact B2. rewrite Nat.eqb_refl. reflexivity. }
  destruct (ap_ids _ _ _ H4) as (_ & Ip & _). exists kf, s, s', l1. do 5 (split; [assumption|]).
  destruct (gi_box _ _ G _ s B2) as [k Hcb]. pose proof (lin_ok c k s (views C (b_d b)) t _ l (free_for C t (b_d b)) i thr Hcb (proj2 (view_at C _ t _ _) W3)) as X.
  cbn [key_op lstep] in X. rewrite B3 in X. cbn [lin_good] in X. destruct X as (X & Y & _). specialize (Y s' H4). unfold key_op in X, Y. rewrite (res_lins _ _ W2), (res_lins _ _ W2') in X by eauto.
  destruct a1 as [x|]; cbn [opt option_map] in *.
  - right. destruct x as [r| | |]; cbn [effect] in Y; try contradiction. destruct Y as [Y1 Y2]. exists r. split; [exact B4|].
    rewrite (res_lins _ _ W2) in Y1 by eauto.
    destruct (res_of l) as [[]|]; try discriminate Y1; cbn [app] in X; (destruct (res_of l1) as [r1|]; [|discriminate X]);
      (assert (r1 = r /\ r <> RNone) as [-> N] by (destruct r1; try discriminate X; injection X as <-; (split; [reflexivity|discriminate]))); auto 6.
  - left. split; [exact B4|]. split; [apply cells_elems, Y|]. rewrite app_nil_r in X.
    destruct (res_of l) as [r|], (res_of l1) as [r1|]; auto.
    + left. destruct r, r1; try discriminate X; congruence.
    + destruct r; try discriminate X. auto.
    + destruct r1; try discriminate X. auto.
Qed.
End Bulk3.
