(** Lemmas for C61: one step. *)
From Coq Require Import NArith Bool List Arith Lia Permutation.
From Verif Require Import SizeModel GroupModel FoaGroup FoaModel FoaBase FoaInv FoaArr FoaOps FoaSpec FoaWorld NodeSpec
  ConcSpec ConcModel ConcInv ConcStep ConcStep2 ConcStep3 ConcSys ConcSys2 ConcLin1 ConcLin2 ConcLin3 ConcLog ConcNodeModel ConcNodeSpec ConcNode.
Import ListNotations.
Local Open Scope N_scope.
Notation set_nth := FoaModel.set_nth.
Section Flow.
Context {K M : Type} (c : Cfg K (node M)).
Hypothesis HC : good_cfg c.
Notation elem := (K * node M)%type.
Notation Sh := (@Sh K (node M)).
Notation conf := (@conf K (node M)). Notation pc := (@pc K (node M)). Notation loc := (@loc K (node M)). Notation cres := (cres K (node M)).
Notation At := ConcModel.At.
Notation CInv := (CInv c). Notation GInv := (GInv c).

Definition own (x : option (option elem)) : list elem := match x with Some (Some e) => [e] | _ => [] end.
Definition res_of (l : loc) : option cres := match l with LUnl _ _ r | LDone r | LRet r => Some r | _ => None end.
(** what the handle of an insertion, of an extraction contains *)
Definition ins_ok (l : loc) (k : K) (nd : node M) (y : option elem) : Prop :=
  match res_of l with Some RIns => y = None | Some RThrew => y = None \/ y = Some (k, nd) | _ => y = Some (k, nd) end.
Definition ext_ok (l : loc) (f : ufun K (node M)) (y : option elem) : Prop :=
  match l with
  | LMl _ _ (KP e) | LReset _ _ (KP e) | LDec _ (KP e) | LUnl _ _ (RErased e) | LDone (RErased e) | LRet (RErased e) => y = Some (fst e, fst (f e))
  | _ => y = None
  end.
Definition tinv (p : pc) (x : option (option elem)) : Prop :=
  match p, x with
  | At _ (Point (PEmplace _ k nd f1 f2)) l, Some y => keeps f1 /\ keeps f2 /\ ins_ok l k nd y
  | At _ (Point (PErase k f)) l, Some y => keeps f /\ ext_ok l f y
  | At d o _, None => plain (OnC d o)
  | AtW o, None => whole_plain o
  | Idle, None | RetW _, None => True
  | _, Some _ => False
  end.
Definition ends (a : option (act K (node M))) (x : option (option elem)) : Prop :=
  (exists e, a = Some (APoint (RErased e)) /\ x = None) \/ exists e, a = Some (AElem e true).
Definition flows (s : Sh) d o l (x : option (option elem)) (r : outcome) : Prop :=
  match r with
  | Step e l' a => forall s', apply e s = Some s' ->
      let x' := option_map (transfer (At d o l) (At d o l')) x in
      tinv (At d o l') x' /\
      exists lost, Permutation (map ident (elems (A s) ++ own x)) (lost ++ map ident (elems (A s') ++ own x')) /\ (lost <> [] -> ends a x)
  | _ => True
  end.
Lemma fl_quiet s d o l x e l' a : (forall i y, e <> ECell i y) -> (forall y, transfer (At d o l) (At d o l') y = y) -> tinv (At d o l') x -> flows s d o l x (Step e l' a).
Proof.
  intros He Ht Hx s' Hs. cbv zeta. assert (option_map (transfer (At d o l) (At d o l')) x = x) as -> by (destruct x as [y|]; cbn [option_map]; [rewrite Ht|]; reflexivity).
  split; [exact Hx|]. exists []. split; [|congruence]. rewrite (cells_elems s s') by (eapply ap_cells; eassumption). reflexivity.
Qed.
Lemma fl_write k s d o l x i e1 v l' a : Shape k (A s) -> nth_error (cells (A s)) i = Some (Live e1) -> n_addr v = n_addr (snd e1) ->
  (forall y, transfer (At d o l) (At d o l') y = y) -> tinv (At d o l') x -> flows s d o l x (Step (ECell i (Live (fst e1, v))) l' a).
Proof.
  intros HS Hi Hv Ht Hx s' H. cbv zeta. assert (option_map (transfer (At d o l) (At d o l')) x = x) as -> by (destruct x as [y|]; cbn [option_map]; [rewrite Ht|]; reflexivity).
  pose proof (nth_error_Some_lt _ _ _ Hi) as Li. rewrite (ap_cell k) in H by assumption. injection H as <-. split; [exact Hx|]. exists []. split; [|congruence].
  destruct (elems_swap (A s) i e1 (fst e1, v) Hi) as (rest & P1 & P2). cbn [app]. rewrite !map_app. apply Permutation_app_tail.
  rewrite (Permutation_map ident P1). etransitivity; [|symmetry; apply (Permutation_map ident); exact P2]. cbn [map]. assert (ident (fst e1, v) = ident e1) as -> by (unfold ident; cbn [fst snd]; rewrite Hv; reflexivity). reflexivity.
Qed.
Lemma fl_kill k s d o l x i e1 l' a : Shape k (A s) -> nth_error (cells (A s)) i = Some (Live e1) ->
  option_map (transfer (At d o l) (At d o l')) x = x -> tinv (At d o l') x -> ends a x -> flows s d o l x (Step (ECell i Raw) l' a).
Proof.
  intros HS Hi Ht Hx He s' H. cbv zeta. rewrite Ht.
  pose proof (nth_error_Some_lt _ _ _ Hi) as Li. rewrite (ap_cell k) in H by assumption. injection H as <-. split; [exact Hx|]. exists [ident e1]. split; [|intros _; exact He].
  pose proof (elems_set_dead (A s) i e1 Raw Hi eq_refl) as P. rewrite !map_app. rewrite (Permutation_map ident P). reflexivity.
Qed.
Lemma tinv_ext (d : nat) o l l' x : match o with Point (PEmplace _ k nd _ _) => forall y, ins_ok l k nd y -> ins_ok l' k nd y | Point (PErase _ f) => forall y, ext_ok l f y -> ext_ok l' f y | _ => True end ->
  tinv (At d o l) x -> tinv (At d o l') x.
Proof. destruct o as [[| |]| |], x as [y|]; cbn; intuition. Qed.

Lemma pflow k s vs t d p l free i thr x : CInv k s vs -> nth_error vs t = Some (Some (Point p, l)) -> tinv (At d (Point p) l) x -> flows s d (Point p) l x (pstep c free s p l i thr).
Proof.
  intros CI Ht Hx. pose proof CI as [B U]. destruct (cb_ti _ _ _ _ B _ _ _ Ht) as [W T]. pose proof (cb_fr _ _ _ _ B) as Fk. pose proof (fr_geo _ _ _ Fk) as G.
  assert (forall e l' a, (forall i y, e <> ECell i y) -> (forall y, transfer (At d (Point p) l) (At d (Point p) l') y = y) ->
    match p with PEmplace _ k nd _ _ => forall y, ins_ok l k nd y -> ins_ok l' k nd y | PErase _ f => forall y, ext_ok l f y -> ext_ok l' f y | _ => True end ->
    flows s d (Point p) l x (Step e l' a)) as Q.
  { intros e l' a He Hf Hm. apply fl_quiet; [exact He|exact Hf|]. eapply tinv_ext; [|exact Hx]. exact Hm. }
  Ltac qq := match goal with Q : forall e l' a, _ -> _ -> _ -> flows _ _ _ _ _ (Step e l' a) |- _ => apply Q; [discriminate|intros ?y; try (match goal with p : pop _ _ |- _ => destruct p end); reflexivity|try (match goal with p : pop _ _ |- _ => destruct p end); cbn; auto] end.
  destruct l; cbn [ConcInv.TI wf] in W, T; try contradiction; cbn [pstep]; change (arr (tb s)) with (A s); unfold go.
  - qq.
  - destruct thr; [qq|]. destruct p; qq.
  - destruct (nth_error (cnt s) _); [qq|exact I].
  - destruct (thr && gives_up p); [qq|]. destruct u; [destruct m; qq|]. destruct (memb _ _); [|exact I]. destruct (get_group _ _); [qq|exact I].
  - destruct (free _ _); [qq|exact I].
  - destruct m; [qq|]. destruct (get_group _ _); [|exact I]. destruct (b_is_occupied _ _); qq.
  - destruct (get_cell _ _) as [[| |e]|]; try exact I. destruct thr; [qq|]. destruct (keqf _ _ _ _); qq.
  - (* LCall *) destruct T as [T (e1 & E1 & Ek)]. assert (Shape k (A s)) as HS by (apply (fr_shape c); [exact Fk|apply nth_error_Some_lt in E1; lia]).
    rewrite (get_cell_eq k) by exact HS. rewrite E1. set (i0 := slot_index (x_g x0) n) in *.
    unfold visit_slot. fold i0. destruct p as [b1 k1 f1|k1 f1|b1 k1 v1 f1 f2].
    + destruct x; [contradiction|]. cbn [tinv plain] in Hx. pose proof (Hx e1) as (Ha & _). destruct (f1 e1) as [v b] eqn:Ef. cbn [fst] in Ha. destruct b1; [|apply fl_quiet; [discriminate|reflexivity|exact Hx]].
      apply (fl_write k); [exact HS|exact E1|exact Ha|reflexivity|exact Hx].
    + assert (keeps f1) as Kf by (destruct x; cbn [tinv plain] in Hx; tauto). pose proof (Kf e1) as (Ha & _). destruct (f1 e1) as [v ob] eqn:Ef. cbn [fst] in Ha.
      assert (ob = Some true \/ ob <> Some true) as [->|Nb] by (destruct ob as [[|]|]; [left; reflexivity|right; discriminate|right; discriminate]).
      * destruct x as [y|].
        -- cbn [tinv] in Hx. destruct Hx as [_ Hy]. cbn [ext_ok] in Hy. subst y. intros s' H. cbv zeta. cbn [option_map transfer]. rewrite Ef. cbn [fst].
           pose proof (nth_error_Some_lt _ _ _ E1) as Li. rewrite (ap_cell k) in H by assumption. injection H as <-. split; [cbn [tinv ext_ok]; rewrite Ef; auto|]. exists []. split; [|congruence].
           pose proof (elems_set_dead (A s) i0 e1 Raw E1 eq_refl) as P. cbn [own app]. rewrite !map_app. rewrite (Permutation_map ident P). cbn [map app]. rewrite app_nil_r.
           assert (ident (fst e1, v) = ident e1) as -> by (unfold ident; cbn [fst snd]; rewrite Ha; reflexivity). apply Permutation_cons_append.
        -- cbn [tinv plain] in Hx. apply (fl_kill k _ _ _ _ _ _ e1); [exact HS|exact E1|reflexivity|exact Kf|]. left. exists e1. auto.
      * assert (forall r, (forall e, r <> RErased e) -> flows s d (Point (PErase k1 f1)) (LCall x0 n) x (Step (ECell i0 (Live (fst e1, v))) (LUnl (x_g x0) true r) (Some (APoint r)))) as Z.
        { intros r Nr. apply (fl_write k); [exact HS|exact E1|exact Ha|reflexivity|]. eapply tinv_ext; [|exact Hx]. cbn. intros y Hy. destruct r; auto. destruct (Nr _ eq_refl). }
        destruct ob as [[|]|]; [congruence| |]; apply Z; discriminate.
    + assert (keeps f1 /\ keeps f2 /\ exists y, x = Some y /\ y = Some (k1, v1)) as (K1 & K2 & y & -> & ->) by (destruct x; cbn in Hx; [|contradiction]; intuition; eexists; eauto).
      pose proof (K2 e1) as (Ha & _). destruct (f2 e1) as [v b] eqn:Ef. cbn [fst] in Ha.
      destruct b1; [apply (fl_write k); [exact HS|exact E1|exact Ha|reflexivity|]|apply fl_quiet; [discriminate|reflexivity|]]; destruct b; cbn; auto.
  - destruct kt as [e1|]; [|contradiction]. destruct (get_group _ _); [|exact I]. qq.
  - destruct kt as [e1|]; [|contradiction]. qq.
  - destruct kt as [e1|]; [|exact I]. qq.
  - destruct (get_group _ _); [|exact I]. unfold not_found, go. destruct (b_is_not_overflowed _ _); [destruct p; qq|].
    destruct (pb_next _ _) as [pb []]; [qq|destruct p; qq].
  - qq.
  - destruct (_ <=? _); qq.
  - destruct (free _ _); [qq|exact I].
  - destruct (get_group _ _); [|exact I]. destruct (negb _); qq.
  - qq.
  - destruct (nth_error (cnt s) _); [|exact I]. destruct (negb _); qq.
  - (* LCons *) destruct p as [| |b1 k1 v1 f1 f2]; try exact I. pose proof T as [T1 [Ln Hr] T3 T4]. pose proof (nth_error_Some_lt _ _ _ Hr) as Li.
    assert (Shape k (A s)) as HS by (apply (fr_shape c); [exact Fk|lia]). rewrite (get_cell_eq k) by exact HS. rewrite Hr.
    assert (keeps f1 /\ keeps f2 /\ x = Some (Some (k1, v1))) as (K1 & K2 & ->) by (destruct x; cbn in Hx; [|contradiction]; intuition; subst; reflexivity).
    destruct thr; [apply fl_quiet; [discriminate|reflexivity|cbn; auto]|].
    pose proof (K1 (k1, v1)) as (Ha & _). destruct (f1 (k1, v1)) as [v' b] eqn:Ef. cbn [fst snd] in Ha. intros s' H. cbv zeta. cbn [option_map transfer].
    rewrite (ap_cell k) in H by assumption. injection H as <-. split; [cbn; destruct b; cbn; auto|]. exists []. split; [|congruence].
    pose proof (elems_set_live (A s) (slot_index (x_g x0) n) (k1, v') Hr) as P. cbn [own app]. rewrite !map_app. cbn [map]. rewrite app_nil_r. etransitivity; [|symmetry; apply (Permutation_map ident); exact P]. cbn [map].
    assert (ident (k1, v') = ident (k1, v1)) as -> by (unfold ident; cbn [fst snd]; rewrite Ha; reflexivity). symmetry. apply Permutation_cons_append.
  - qq.
  - qq.
  - destruct q; qq.
  - qq.
  - exact I.
  - destruct r; qq.
  - destruct r; qq.
  - exact I.
Qed.
Lemma bflow k s vs t d x0 md f l free x : CInv k s vs -> nth_error vs t = Some (Some (Bulk x0 md f, l)) -> tinv (At d (Bulk x0 md f) l) x ->
  flows s d (Bulk x0 md f) l x (bstep free s (writes x0 md) md f l).
Proof.
  intros CI Ht Hx. pose proof CI as [B U]. destruct (cb_ti _ _ _ _ B _ _ _ Ht) as [W T]. pose proof (cb_fr _ _ _ _ B) as Fk. pose proof (fr_geo _ _ _ Fk) as G.
  destruct x as [y|]; [contradiction|]. cbn [tinv plain] in Hx.
  assert (forall e l' a, (forall i y, e <> ECell i y) -> flows s d (Bulk x0 md f) l None (Step e l' a)) as Q.
  { intros e l' a He. apply fl_quiet; [exact He|reflexivity|exact Hx]. }
  assert (forall l', flows s d (Bulk x0 md f) l None (go l')) as Qg by (intros; apply Q; discriminate).
  destruct l; cbn [ConcInv.TI wf] in W, T; try contradiction; cbn [bstep]; change (arr (tb s)) with (A s).
  - apply Qg.
  - destruct (get_group _ _); [|exact I]. apply Q; discriminate.
  - apply Q; discriminate.
  - destruct kt; [exact I|]. apply Q; discriminate.
  - destruct (a_elems _); [|apply Qg]. destruct (Nat.eqb _ _); [apply Qg|]. destruct (free _ _); [apply Qg|exact I].
  - destruct (get_group _ _); [|exact I]. apply Qg.
  - destruct T as (T1 & T2 & T3 & T4). destruct ms as [|n ms]; [apply Qg|].
    destruct (T4 n ltac:(now left)) as [Ln (e1 & E1)]. pose proof (fr_shape _ _ _ Fk T2) as HS. rewrite (get_cell_eq k) by exact HS. rewrite E1.
    pose proof (Hx (length acc) e1) as (Ha & _). destruct (f (length acc) e1) as [v ob] eqn:Ef. cbn [fst] in Ha. destruct (erases md ob) eqn:Ee.
    + apply (fl_kill k _ _ _ _ _ _ e1); [exact HS|exact E1|reflexivity|exact Hx|]. right. exists e1. reflexivity.
    + destruct (writes x0 md); [|apply Q; discriminate]. apply (fl_write k); [exact HS|exact E1|exact Ha|reflexivity|exact Hx].
  - destruct r; try contradiction. apply Qg.
  - destruct r; try contradiction. apply Qg.
  - exact I.
Qed.
Lemma lflow k s vs t d o l free i thr x : CInv k s vs -> nth_error vs t = Some (Some (o, l)) -> tinv (At d o l) x -> flows s d o l x (lstep c free s o l i thr).
Proof.
  intros CI Ht Hx. destruct o as [p|x0 md f|]; cbn [lstep].
  - eapply pflow; eassumption.
  - eapply bflow; eassumption.
  - destruct x as [y|]; [contradiction|]. destruct l; cbn [sstep]; try exact I; apply fl_quiet; try discriminate; try reflexivity; exact Hx.
Qed.

(** *** steps of the system *)
Lemma containers_wnodes (C : conf) : in_containers C = wnodes (absw C).
Proof. unfold in_containers, wnodes, absw. induction (boxes C) as [|[s|] l IH]; [reflexivity| |exact IH]. cbn [flat_map map option_map vnodes]. rewrite <- IH. reflexivity. Qed.
Lemma containers_set (C : conf) d s t p : box C d = Some s -> exists rest, Permutation (in_containers C) (elems (A s) ++ rest) /\
  forall s', Permutation (in_containers (set_box (set_th C t p) d s')) (elems (A s') ++ rest).
Proof.
  intros H. destruct (wnodes_set (absw C) d _ (absw_box C d s H)) as (rest & P1 & P2). exists rest. rewrite containers_wnodes. split; [exact P1|].
  intros s'. rewrite containers_wnodes, (absw_set C d s s' p t H). apply (P2 (Some (vw s'))).
Qed.
(** steps in which elements may end *)
Definition ends_at (t : nat) (p : pc) (e : option (event K (node M))) (x : option (option elem)) : Prop :=
  (exists e0, e = Some (ELin t (APoint (RErased e0))) /\ x = None) \/ (exists e0, e = Some (ELin t (AElem e0 true))) \/
  (exists d o, e = Some (ELin t (APoint RThrew)) /\ p = At d o LFull) \/
  (exists o r, e = Some (ELin t (AWhole r)) /\ p = AtW o /\ ends_whole o r).
Definition moved (p p' : pc) (x : option (option elem)) : option (option elem) := option_map (transfer p p') x.
Lemma moved_same p x : moved p p x = x.
Proof. destruct x as [y|]; [|reflexivity]. cbn. f_equal. destruct p as [|d o l| |]; try reflexivity. destruct o as [[| |]| |]; try reflexivity; destruct l; reflexivity. Qed.
Lemma gflow C e C' : GInv C -> gstep c C e C' -> (forall t o, e <> Some (ECall t o)) -> (forall t a, e <> Some (ERet t a)) ->
  exists t p p', nth_error (th C) t = Some p /\ nth_error (th C') t = Some p' /\ (forall t', t' <> t -> nth_error (th C') t' = nth_error (th C) t') /\
    forall x, tinv p x -> tinv p' (moved p p' x) /\
      exists lost, Permutation (map ident (in_containers C ++ own x)) (lost ++ map ident (in_containers C' ++ own (moved p p' x))) /\ (lost <> [] -> ends_at t p e x).
Proof.
  intros Gi St Nc Nr.
  assert (forall t (p p' : pc) b, nth_error (th C) t = Some p -> nth_error (th (Conf b (set_nth (th C) t p'))) t = Some p') as Z1.
  { intros t p p' b H. cbn [th]. rewrite set_nth_err by (eapply nth_error_Some_lt; exact H). rewrite Nat.eqb_refl. reflexivity. }
  assert (forall t (p p' : pc) b, nth_error (th C) t = Some p -> forall t', t' <> t -> nth_error (th (Conf b (set_nth (th C) t p'))) t' = nth_error (th C) t') as Z2.
  { intros t p p' b H t' Nt. cbn [th]. rewrite set_nth_err by (eapply nth_error_Some_lt; exact H). destruct (Nat.eqb_spec t' t); [congruence|reflexivity]. }
  destruct St as [C t d o s Ht Hb|C t d o l s i thr e l' a s' Ht Hb Hl Ha|C t d o s n t' n' cn Ht Hb Hal Hr Hn|C t d o s n kd t' n' cn Ht Hb Hal Hr Hn|C t d o r Ht|C t o Ht|C t o n r w bs Ht Hp He Hpb|C t r Ht].
  - destruct (Nc _ _ eq_refl).
  - exists t, (At d o l), (At d o l'). split; [exact Ht|]. split; [eapply Z1; exact Ht|]. split; [eapply Z2; exact Ht|]. intros x Hx.
    destruct (gi_box _ _ Gi d s Hb) as [k CI]. pose proof (lflow k s _ t d o l (free_for C t d) i thr x CI (proj2 (view_at C d t o l) Ht) Hx) as F. rewrite Hl in F. cbn [flows] in F.
    destruct (F s' Ha) as (F1 & lost & F2 & F3). split; [exact F1|]. exists lost. destruct (containers_set C d s t (At d o l') Hb) as (rest & P1 & P2). split.
    + rewrite map_app, (Permutation_map ident P1), !map_app. rewrite (Permutation_map ident (P2 s')), !map_app. rewrite !map_app in F2.
      transitivity ((map ident (elems (A s)) ++ map ident (own x)) ++ map ident rest); [perm|]. rewrite F2. fold (moved (At d o l) (At d o l') x). perm.
    + intros Hl'. destruct (F3 Hl') as [(e0 & -> & ->)|(e0 & ->)]; [left; exists e0; auto|right; left; exists e0; reflexivity].
  - exists t, (At d o LFull), (At d o LEnter). split; [exact Ht|]. split; [eapply Z1; exact Ht|]. split; [eapply Z2; exact Ht|]. intros x Hx.
    assert (moved (At d o LFull) (At d o LEnter) x = x) as -> by (destruct x; cbn; [destruct o as [[| |]| |]|]; reflexivity).
    split; [destruct o as [[| |]| |], x; cbn in *; tauto|]. exists []. split; [|congruence].
    destruct (containers_set C d s t (At d o LEnter) Hb) as (rest & P1 & P2). cbn [app]. apply Permutation_map. apply Permutation_app_tail. rewrite P1, (P2 _). apply Permutation_app_tail.
    destruct (gi_box _ _ Gi d s Hb) as [k CI]. assert (Inv c (tb s)) as Iv. { eapply out_inv; [exact CI|]. eapply alone_out; [exact Ht|reflexivity|exact Hal]. }
    pose proof (full_ok c HC (tb s) n Iv) as X. rewrite Hr in X. cbn [FoaBase.outcome] in X. destruct X as (_ & _ & P). symmetry. exact P.
  - exists t, (At d o LFull), (At d o (LRet RThrew)). split; [exact Ht|]. split; [eapply Z1; exact Ht|]. split; [eapply Z2; exact Ht|]. intros x Hx.
    assert (moved (At d o LFull) (At d o (LRet RThrew)) x = x) as -> by (destruct x; cbn; [destruct o as [[| |]| |]|]; reflexivity).
    split; [destruct o as [[| |]| |], x; cbn in *; tauto|].
    destruct (containers_set C d s t (At d o (LRet RThrew)) Hb) as (rest & P1 & P2).
    destruct (gi_box _ _ Gi d s Hb) as [k CI]. assert (Inv c (tb s)) as Iv. { eapply out_inv; [exact CI|]. eapply alone_out; [exact Ht|reflexivity|exact Hal]. }
    pose proof (full_ok c HC (tb s) n Iv) as X. rewrite Hr in X. cbn [FoaBase.outcome] in X. destruct X as (_ & _ & lost & P & _). exists (map ident lost). split; [|intros _; right; right; left; exists d, o; auto].
    rewrite <- map_app. apply Permutation_map. rewrite P1, (P2 _). change (A s) with (arr (tb s)). rewrite P. cbn [A tb]. perm.
  - destruct (Nr _ _ eq_refl).
  - destruct (Nc _ _ eq_refl).
  - exists t, (AtW o), (RetW r). split; [exact Ht|]. split; [eapply Z1; exact Ht|]. split; [eapply Z2; exact Ht|]. intros x Hx. destruct x as [y|]; [contradiction|]. cbn [moved option_map own tinv] in *.
    split; [exact I|]. rewrite !app_nil_r.
    assert (gstep c C (Some (ELin t (AWhole r))) (Conf bs (set_nth (th C) t (RetW r)))) as St' by (eapply g_whole; eassumption).
    destruct (ginv_instant c HC C t (AWhole r) _ Gi St') as (ca & done & Ec & Te).
    unfold calls_of in Ec. rewrite Ht in Ec. injection Ec as <- <-. cbn [takes_effect] in Te. destruct Te as [_ Sp]. rewrite !containers_wnodes.
    destruct (spec_lost c _ _ _ _ Hx Sp) as (lost & P & E). exists (map ident lost). split; [rewrite <- map_app; apply Permutation_map; exact P|]. intros Hl. right. right. right. exists o, r. split; [reflexivity|]. split; [reflexivity|].
    apply E. intros ->. destruct (Hl eq_refl).
  - destruct (Nr _ _ eq_refl).
Qed.
End Flow.
