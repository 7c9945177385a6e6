(** What the steps of ConcModel write, given the invariant of ConcInv.v. *)
From Coq Require Import NArith Bool List Arith Lia ZifyBool ZifyNat ZifyN.
From Verif Require Import FloatModel SizeModel SizeProofs GroupModel GroupProofs GroupSpec FoaModel FoaGroup FoaBase FoaFind FoaArr FoaInv FoaSpec FoaWorld ConcSpec ConcModel ConcInv ConcStep ConcStep2 ConcStep3 ConcSys WeakModel WeakHb WeakStep WeakEff WeakInv.
Import ListNotations.
Local Open Scope N_scope.
Notation set_nth := FoaModel.set_nth.

Section WDep.
Context {K V : Type} (c : Cfg K V).
Notation Sh := (@Sh K V).
Notation pop := (pop K V). Notation cop := (cop K V). Notation loc := (@loc K V). Notation cres := (cres K V). Notation eff := (@eff K V).
Notation ent := (option (cop * loc)).
Notation CBase := (CBase c). Notation CInv := (CInv c). Notation TI := (TI c). Notation hk := (hk c).

Lemma get_cells (a : arrays K V) i x : get_cell a i = Some x <-> nth_error (cells a) i = Some x.
Proof. unfold get_cell, cells. destruct (a_elems a); [reflexivity|]. split; [discriminate|]. destruct i; discriminate. Qed.
Lemma slot_of i : slot_index (i / 15) (i mod 15) = i.
Proof. unfold slot_index. pose proof (Nat.div_mod i 15 ltac:(discriminate)). lia. Qed.

Lemma eff_dep k s vs t o l free i thr e l' a : CBase k s vs -> nth_error vs t = Some (Some (o, l)) -> lstep c free s o l i thr = Step e l' a ->
  eff_ok o l e /\ (forall g n h, e = ESet g n h -> ctrl (A s) (slot_index g n) = 0).
Proof.
  intros B Ht Hs. destruct (cb_ti _ _ _ _ B _ _ _ Ht) as [Wf T]. destruct (lstep_shp c _ _ _ _ _ _ _ _ _ Hs Wf) as [_ _ _ S4 _].
  pose proof (cb_fr _ _ _ _ B) as Fk. pose proof (fr_geo _ _ _ Fk) as G.
  destruct e as [| | |b|g n h|g n|g h|g|j z]; cbn [eff_step] in S4.
  1-4: split; [split; [intros ? ? []|split; [intros ? []|intros ? ? [[? ?]|?]; discriminate]]|discriminate].
  - destruct S4 as (x & -> & -> & ->). assert (exists p, o = Point p) as [p ->] by (destruct o; cbn [wf] in Wf; try contradiction; eauto).
    cbn [lstep pstep ConcInv.TI] in Hs, T. change (arr (tb s)) with (A s) in Hs. pose proof (insr_lt _ _ _ _ _ T) as Lx. rewrite (geo_get k) in Hs by assumption.
    pose proof (geo_len _ _ _ G Lx) as Lb. destruct (available_bits _ Lb) as [Ab _].
    rewrite mask_loop_nil, Ab in Hs. destruct (tag_bits (N.eqb 0) (grp (A s) (x_g x))) as [|n1 r] eqn:Et; cbn [negb] in Hs; [discriminate|].
    rewrite (mask_loop_hd _ _ _ Ab) in Hs. injection Hs as E1 E2 E3. subst n1. assert (In n (tag_bits (N.eqb 0) (grp (A s) (x_g x)))) as Hn by (rewrite Et; now left).
    apply filter_In in Hn as [Hn Hz]. apply in_seq in Hn. assert (n < 15)%nat as Ln by lia. apply N.eqb_eq in Hz.
    split; [split; [|split]|].
    + cbn [ehits]. intros g' n' [<- <-]. reflexivity.
    + intros ? [].
    + intros g' n' [[h' E]|E]; [|discriminate]. injection E as _ <- _. exact Ln.
    + intros g' n' h' E. injection E as <- <- _. rewrite ctrl_slot by exact Ln. congruence.
  - destruct S4 as (S4 & S5 & S6). split; [split; [|split]|discriminate].
    + cbn [ehits]. intros g' n' [<- <-]. exact S4.
    + intros ? [].
    + intros g' n' [[h' E]|E]; [discriminate|]. injection E as <- <-. destruct o as [p|x0 md f|]; destruct S6 as [[kt ->]|[q ->]]; cbn [wf ConcInv.TI] in Wf, T; try contradiction.
      * destruct T as [[T _] _]. exact T.
      * destruct T as [[T _] _]. exact T.
      * destruct T as (_ & [T _] & _). exact T.
  - destruct S4 as (x & -> & -> & -> & ->). split; [split; [|split]|discriminate].
    + cbn [ehits]. intros g' n' [<- _]. reflexivity.
    + intros ? [].
    + intros g' n' [[h' E]|E]; discriminate.
  - split; [split; [intros ? ? []|split; [intros ? []|intros ? ? [[? ?]|?]; discriminate]]|discriminate].
  - destruct S4 as (g & n & -> & S5 & S6). split; [split; [intros ? ? []|split; [|intros ? ? [[? ?]|?]; discriminate]]|discriminate].
    cbn [ehits]. intros i' <-. assert (n < 15)%nat as Ln; [|rewrite slot_div by exact Ln; exact S5].
    destruct o as [p|x0 md f|]; destruct S6 as [(x & -> & Eg)|[(x & -> & Eg)|(ms & acc & ->)]]; cbn [wf ConcInv.TI] in Wf, T; try contradiction.
    + destruct T as [T _]. apply (lk_m _ _ _ _ _ _ T n (or_introl eq_refl)).
    + destruct T as [_ [T _] _ _]. exact T.
    + destruct T as (_ & _ & _ & T). destruct (T n (or_introl eq_refl)) as [L _]. exact L.
Qed.
Lemma cell_dep (s : Sh) o l free i thr j z l' a : lstep c free s o l i thr = Step (ECell j z) l' a ->
  z = Raw \/ (exists e v, nth_error (cells (A s)) j = Some (Live e) /\ z = Live (fst e, v)) \/
  (exists p x n v, o = Point p /\ l = LCons x n /\ j = slot_index (x_g x) n /\ z = Live (pkey p, v)).
Proof.
  intros Hs. destruct o as [p|x md f|]; cbn [lstep] in Hs.
  - destruct l; cbn [pstep] in Hs; unfold go in Hs; change (arr (tb s)) with (A s) in Hs; try discriminate.
    + destruct thr; [discriminate|]. destruct p; discriminate.
    + destruct (nth_error _ _); discriminate.
    + destruct (thr && gives_up p); [discriminate|]. destruct u; [destruct m; discriminate|]. destruct (memb i _); [|discriminate]. destruct (get_group _ _); discriminate.
    + destruct (free _ _); discriminate.
    + destruct m; [discriminate|]. destruct (get_group _ _); [|discriminate]. destruct (b_is_occupied _ _); discriminate.
    + destruct (get_cell _ _) as [[| |e0]|]; try discriminate. destruct thr; [discriminate|]. destruct (keqf c _ _ _); discriminate.
    + destruct (get_cell (A s) _) as [[| |e0]|] eqn:Ec; try discriminate. apply get_cells in Ec. unfold visit_slot in Hs. destruct p as [xx kk ff|kk ff|xx kk vv f1 f2].
      * destruct (ff e0) as [v b]. destruct xx; [|discriminate]. injection Hs as <- <- _ _. right. left. eauto.
      * destruct (ff e0) as [v [[|]|]]; injection Hs as <- <- _ _; [left; reflexivity|right; left; eauto|right; left; eauto].
      * destruct (f2 e0) as [v b]. destruct xx; [|discriminate]. injection Hs as <- <- _ _. right. left. eauto.
    + destruct (get_group _ _); discriminate.
    + destruct kt; discriminate.
    + destruct (get_group _ _); [|discriminate]. unfold not_found, go in Hs. destruct (b_is_not_overflowed _ _); [destruct p; discriminate|].
      destruct (pb_next _ _) as [pb [|]]; [discriminate|destruct p; discriminate].
    + destruct (_ <=? _); discriminate.
    + destruct (free _ _); discriminate.
    + destruct (get_group _ _); [|discriminate]. destruct (negb _); discriminate.
    + destruct (nth_error _ _); discriminate.
    + destruct p as [xx kk ff|kk ff|xx kk vv f1 f2]; try discriminate. destruct (get_cell _ _) as [[| |e0]|]; try discriminate.
      destruct thr; [discriminate|]. destruct (f1 _) as [v' b]. injection Hs as <- <- _ _. right. right. exists (PEmplace xx kk vv f1 f2), x, n, v'. auto.
  - destruct l; cbn [bstep] in Hs; unfold go in Hs; change (arr (tb s)) with (A s) in Hs; try discriminate.
    + destruct (get_group _ _); discriminate.
    + destruct kt; discriminate.
    + destruct (a_elems _); [|discriminate]. destruct (Nat.eqb _ _); [discriminate|]. destruct (free _ _); discriminate.
    + destruct (get_group _ _); discriminate.
    + destruct ms as [|n ms]; [discriminate|]. destruct (get_cell (A s) _) as [[| |e0]|] eqn:Ec; try discriminate. apply get_cells in Ec.
      destruct (f (length acc) e0) as [v ob]. destruct (erases md ob); [injection Hs as <- <- _ _; left; reflexivity|]. destruct (writes x md); [|discriminate].
      injection Hs as <- <- _ _. right. left. eauto.
  - destruct l; discriminate.
Qed.
Lemma pk_dep k s vs t o l free i thr e l' a s' : CBase k s vs -> nth_error vs t = Some (Some (o, l)) -> lstep c free s o l i thr = Step e l' a -> apply e s = Some s' ->
  forall i0 q, Pk s' (set_nth vs t (Some (o, l'))) i0 q -> Pk s vs i0 q \/
    exists p x n g, o = Point p /\ l = LCnt x n /\ l' = LCons x n /\ e = ECnt g /\ g = N.to_nat (p0 k (hk s p)) /\ i0 = slot_index (x_g x) n /\ q = pkey p.
Proof.
  intros B Ht Hs Ha i0 q Hq. destruct (cb_ti _ _ _ _ B _ _ _ Ht) as [Wf T]. destruct (lstep_shp c _ _ _ _ _ _ _ _ _ Hs Wf) as [_ _ S3 _ _].
  assert ((exists x n, l' = LCons x n) \/ forall x n, l' <> LCons x n) as [(x & n & ->)|Hl] by (destruct l'; eauto; right; discriminate).
  - destruct (S3 x n eq_refl) as [-> [g ->]]. cbn [apply] in Ha. destruct (nth_error (cnt s) g) as [m|]; [|discriminate]. injection Ha as <-.
    assert (exists p, o = Point p) as [p ->] by (destruct o; cbn [wf] in Wf; try contradiction; eauto).
    destruct Hq as [Hq|(t' & p' & x' & n' & E & Z)]; [left; left; exact Hq|].
    destruct (Nat.eq_dec t' t) as [->|N].
    + rewrite (self_err _ _ _ _ Ht) in E. injection E as <- <- <-. right. exists p, x, n, g. cbn [lstep pstep ConcInv.TI] in Hs, T.
      destruct T as [T1 _ _ _]. destruct (nth_error (cnt s) _) as [m'|]; [|discriminate].
      assert (g = N.to_nat (position (x_h x) (a_gsi (arr (tb s))))) as -> by (clear - Hs; destruct (negb _); congruence).
      unfold p0. rewrite <- T1. change (arr (tb s)) with (A s). rewrite (ge_gsi _ _ (fr_geo _ _ _ (cb_fr _ _ _ _ B))). destruct Z as [<- ->]. auto 10.
    + rewrite others_err in E by exact N. left. right. exists t', p', x', n'. auto.
  - left. eapply pk_mono; [exact Ht|exact Hl| |exact Hq]. intros i1 e' He. destruct e as [| | |b|g n h|g n|g h|g|j z].
    1-8: left; exists e'; split; [|reflexivity]; apply get_cells; erewrite <- (apply_cell _ s s'); [apply get_cells; exact He|exact Ha|intros []].
    destruct (Nat.eq_dec j i1) as [->|N]; [|left; exists e'; split; [|reflexivity]; apply get_cells; erewrite <- (apply_cell _ s s'); [apply get_cells; exact He|exact Ha|exact N]].
    assert (z = Live e') as ->.
    { cbn [apply] in Ha. unfold put_cell in Ha. destruct (a_elems (arr (tb s))) as [cs|] eqn:Ec; [|discriminate]. destruct (nth_error cs i1) eqn:Ei; [|discriminate].
      injection Ha as <-. unfold cells, A in He. cbn [tb set_arr arr a_elems] in He. rewrite set_nth_err in He by (apply nth_error_Some; congruence). rewrite Nat.eqb_refl in He. congruence. }
    destruct (cell_dep s o l free i thr _ _ _ _ Hs) as [Z|[(e0 & v & Z1 & Z2)|(p & x & n & v & -> & -> & -> & Z)]]; [discriminate| |].
    + left. exists e0. split; [exact Z1|]. injection Z2 as ->. reflexivity.
    + right. exists p, x, n. injection Z as ->. auto.
Qed.
Lemma pk_kept k s vs t o l free i thr e l' a : CBase k s vs -> nth_error vs t = Some (Some (o, l)) -> lstep c free s o l i thr = Step e l' a ->
  forall i0 q, Pk s vs i0 q -> ~ ehits e (VByte (i0 / 15) (i0 mod 15)).
Proof.
  intros B Ht Hs i0 q Hq Hh. destruct (eff_dep k s vs t o l free i thr e l' a B Ht Hs) as [_ ES]. destruct (cb_ti _ _ _ _ B _ _ _ Ht) as [Wf T].
  destruct (lstep_shp c _ _ _ _ _ _ _ _ _ Hs Wf) as [_ _ _ S4 _].
  destruct e as [| | |b|g n h|g n|g h|g|j z]; cbn [ehits] in Hh; try contradiction.
  - destruct Hh as [-> ->]. specialize (ES _ _ _ eq_refl). rewrite slot_of in ES. destruct (pk_facts c k s vs i0 q B Hq) as (Z & _).
    pose proof (low_class_ge2 (hash_of c (hid (tb s)) q)). rewrite ES in Z. lia.
  - destruct Hh as [-> ->]. cbn [eff_step] in S4. destruct S4 as (S4 & S5 & S6). rewrite slot_of in S5.
    assert (nth_error (cells (A s)) i0 = Some Raw) as R.
    { destruct o as [p|x0 md f|]; destruct S6 as [[kt ->]|[q' ->]]; cbn [wf ConcInv.TI] in Wf, T; try contradiction.
      - destruct T as [[_ T] _]. rewrite slot_of in T. exact T.
      - destruct T as [[_ T] _]. rewrite slot_of in T. exact T.
      - destruct T as (_ & [_ T] & _). rewrite slot_of in T. exact T. }
    destruct Hq as [(e & E & _)|(t' & p & x & n & E & En & _)]; [congruence|].
    destruct (Nat.eq_dec t' t) as [->|N].
    + assert (l = LCons x n) as -> by congruence. destruct S6 as [[kt Z]|[q' Z]]; discriminate.
    + destruct (cb_ti _ _ _ _ B _ _ _ E) as [Wf' T']. assert (lock_of (Point p) (LCons x n) = Some ((i0 / 15)%nat, true)) as L'.
      { eapply (lock_group c); [exact T'|exact Wf'|]. cbn [infl]. rewrite En. reflexivity. }
      destruct (cb_lock _ _ _ _ B t' t (i0 / 15) true true N) as [Z _]; [eexists _, _; split; [exact E|exact L']|eexists _, _; split; [exact Ht|exact S4]|discriminate].
  - destruct Hh as [_ Hh]. pose proof (mod15 i0). lia.
Qed.
End WDep.
