(** Steps of the weak machine inside one container: steps under a lock read the current state; unlocked reads preserve the invariant of ConcInv if they
    show the elements that matter. *)
From Coq Require Import NArith Bool List Arith Lia ZifyBool ZifyNat ZifyN Permutation.
From Verif Require Import FloatModel SizeModel SizeProofs GroupModel GroupSpec FoaModel FoaGroup FoaBase FoaFind FoaArr FoaInv FoaSpec ConcSpec ConcModel ConcInv ConcStep ConcStep2 ConcStep3 WeakModel.
Import ListNotations.
Local Open Scope N_scope.

Section WStep.
Context {K V : Type} (c : Cfg K V).
Notation arrays := (arrays K V).
Notation table := (table K V).
Notation Sh := (@Sh K V).
Notation pop := (pop K V). Notation cop := (cop K V). Notation loc := (@loc K V). Notation cres := (cres K V).
Notation ent := (option (cop * loc)).
Notation CBase := (CBase c). Notation CUniq := (CUniq c). Notation CInv := (CInv c). Notation TI := (TI c). Notation TI1 := (TI1 c).
Notation hk := (hk c). Notation Fr := (Fr c).

(** reads without a lock of something that changes *)
Definition unlocked (l : loc) : bool := match l with LScan _ _ _ | LOvf _ | LCount _ => true | _ => false end.

(** *** locked steps *)
Lemma frame_get_group (so s : Sh) g : same_box so s -> (forall n, nth n (grp (A so) g) 0 = nth n (grp (A s) g) 0) -> get_group (A so) g = get_group (A s) g.
Proof.
  intros (_ & _ & _ & _ & _ & _ & E & _) H. unfold get_group. change (arr (tb so)) with (A so) in *. change (arr (tb s)) with (A s) in *.
  assert (nth_error (map (@length N) (a_groups (A so))) g = nth_error (map (@length N) (a_groups (A s))) g) as Eg by (rewrite E; reflexivity).
  rewrite !nth_error_map in Eg. unfold grp in H.
  destruct (nth_error (a_groups (A so)) g) as [b|] eqn:E1, (nth_error (a_groups (A s)) g) as [b'|] eqn:E2.
  - assert (forall x y, x = Some b -> y = Some b' -> option_map (@length N) x = option_map (@length N) y -> length b = length b') as Q
      by (intros ? ? -> -> Q; injection Q; auto).
    specialize (Q _ _ E1 E2 Eg). f_equal. apply (nth_ext _ _ 0 0 Q). intros n _. specialize (H n).
    rewrite (nth_error_nth _ _ _ E1), (nth_error_nth _ _ _ E2) in H. exact H.
  - assert (forall x y, x = Some b -> y = None -> option_map (@length N) x = option_map (@length N) y -> False) as Q by (intros ? ? -> -> Q; discriminate).
    destruct (Q _ _ E1 E2 Eg).
  - assert (forall x y, x = None -> y = Some b' -> option_map (@length N) x = option_map (@length N) y -> False) as Q by (intros ? ? -> -> Q; discriminate).
    destruct (Q _ _ E1 E2 Eg).
  - reflexivity.
Qed.
Definition agree_at (so s : Sh) (g : nat) : Prop :=
  (forall n, nth n (grp (A so) g) 0 = nth n (grp (A s) g) 0) /\ (forall n, (n < 15)%nat -> get_cell (A so) (slot_index g n) = get_cell (A s) (slot_index g n)).
Lemma lstep_agree k s vs t so o l free i thr : CBase k s vs -> nth_error vs t = Some (Some (o, l)) -> unlocked l = false ->
  (outside l = false -> same_box so s) -> sz (tb so) = sz (tb s) -> ml (tb so) = ml (tb s) -> (forall x n, l = LCnt x n -> cnt so = cnt s) ->
  (forall g x, lock_of o l = Some (g, x) -> agree_at so s g) -> lstep c free so o l i thr = lstep c free s o l i thr.
Proof.
  intros B Ht Hu Hb Es Em Hc Ha. destruct (cb_ti _ _ _ _ B _ _ _ Ht) as [Wf T].
  destruct (outside l) eqn:Eo.
  { destruct l; try discriminate; destruct o; reflexivity. }
  specialize (Hb eq_refl). pose proof Hb as (E1 & E2 & E3 & E4 & E5 & E6 & E7 & E8 & E9).
  change (arr (tb so)) with (A so) in *. change (arr (tb s)) with (A s) in *.
  assert (forall g x, lock_of o l = Some (g, x) -> get_group (A so) g = get_group (A s) g) as Hg.
  { intros g x H. apply frame_get_group; [exact Hb|]. apply (Ha g x H). }
  assert (forall g x n, lock_of o l = Some (g, x) -> (n < 15)%nat -> get_cell (A so) (slot_index g n) = get_cell (A s) (slot_index g n)) as Hcl.
  { intros g x n H L. apply (Ha g x H). exact L. }
  destruct o as [p|x md f|]; cbn [lstep].
  - destruct l; cbn [unlocked] in Hu; try discriminate; cbn [pstep ConcInv.TI wf lock_of] in *; try contradiction; try reflexivity;
      change (arr (tb so)) with (A so); change (arr (tb s)) with (A s).
    + rewrite E1, E5. reflexivity.
    + destruct m; [reflexivity|]. rewrite (Hg _ _ eq_refl). reflexivity.
    + destruct T as [_ [L _]]. rewrite (Hcl _ _ _ eq_refl L), E2. reflexivity.
    + destruct T as [T _]. rewrite (Hcl _ _ _ eq_refl (proj1 (lk_m _ _ _ _ _ _ T n (or_introl eq_refl)))). reflexivity.
    + rewrite (Hg _ _ eq_refl). reflexivity.
    + rewrite Es. reflexivity.
    + rewrite E5, Em. reflexivity.
    + rewrite (Hg _ _ eq_refl). reflexivity.
    + rewrite E6. reflexivity.
    + rewrite E5, (Hc _ _ eq_refl). reflexivity.
    + destruct T as [_ [L _] _ _]. rewrite (Hcl _ _ _ eq_refl L). reflexivity.
  - destruct l; cbn [wf] in Wf; try contradiction; try discriminate; cbn [bstep ConcInv.TI lock_of] in *;
      change (arr (tb so)) with (A so); change (arr (tb s)) with (A s).
    + rewrite (Hg _ _ eq_refl). reflexivity.
    + reflexivity.
    + reflexivity.
    + rewrite E6. destruct (a_elems (A so)), (a_elems (A s)); cbn [option_map] in E8; try discriminate; reflexivity.
    + rewrite (Hg _ _ eq_refl), E6. reflexivity.
    + destruct ms as [|n ms]; [reflexivity|]. destruct T as (_ & _ & _ & T). destruct (T n (or_introl eq_refl)) as [L _]. rewrite (Hcl _ _ _ eq_refl L). reflexivity.
    + reflexivity.
    + reflexivity.
  - destruct l; cbn [sstep ConcInv.TI wf lock_of] in *; try contradiction; try reflexivity.
    + rewrite Em. reflexivity.
    + rewrite Es. reflexivity.
Qed.

(** *** unlocked steps *)
(** so shows the slot of an element with hash h, and how to get there *)
Definition shows (k : N) (so : Sh) (h : N) (i : nat) : Prop := ctrl (A so) i = low_class h /\ Reach k (A so) h (i / 15).
Definition frame (k : N) (so s : Sh) : Prop :=
  Geo k (A so) /\ hid (tb so) = hid (tb s) /\ pid (tb so) = pid (tb s) /\ length (cells (A so)) = length (cells (A s)) /\
  length (cnt so) = length (cnt s) /\ forall g n n', nth_error (cnt so) g = Some n -> nth_error (cnt s) g = Some n' -> n <= n'.
Lemma ahead_obs k s so p l free i thr e l' a i0 : Geo k (A so) -> hid (tb so) = hid (tb s) -> unlocked l = true -> (forall h, l <> LCount h) -> TI k s (Point p) l ->
  shows k so (hk s p) i0 -> pstep c free so p l i thr = Step e l' a -> Ahead k l i0 -> Ahead k l' i0.
Proof.
  intros G Eh' Hu Hc T [C1 C2] Hs Ha. 
  destruct l; try discriminate; [destruct (Hc h eq_refl)| |]; cbn [Ahead ConcInv.TI] in T, Ha; cbn [pstep] in Hs; change (arr (tb so)) with (A so) in Hs.
  - (* LScan *)
    destruct (thr && gives_up p); [injection Hs as <- <- <-; exact I|].
    destruct T as [T Hu']. pose proof (lk_h _ _ _ _ _ _ T) as Eh. pose proof (pb_lt _ _ _ _ _ _ T) as Lx. destruct u as [|u0 u].
    + destruct m as [|m0 m]; unfold go in Hs; injection Hs as <- <- <-; [exact Ha|]. cbn [Ahead app] in *.
      destruct Ha as (j & H1 & H2 & [H3|[H3 H4]]); exists j; split; auto; split; auto. right. split; [exact H3|]. apply in_order_in.
      split; [exact H4|apply mod15].
    + destruct (memb i (u0 :: u)) eqn:Em; [|discriminate]. rewrite (geo_get k) in Hs by assumption. unfold go in Hs.
      injection Hs as <- <- <-. cbn [Ahead]. destruct (ahead_here c k s p x m i0 _ T Ha eq_refl) as [(j & H1 & H2 & H3)|[H1 H2]]; [exists j; auto|].
      destruct Ha as (j & Z1 & Z2 & Z3). exists j. split; [exact Z1|]. split; [exact Z2|]. destruct Z3 as [Z3|[Z3 _]]; [left; exact Z3|right].
      split; [exact Z3|]. apply in_or_app. apply in_app_or in H2 as [H2|H2].
      * destruct (Nat.eq_dec (i0 mod 15) i) as [E|N].
        -- right. rewrite match_testbit; [|eapply geo_len; eassumption|rewrite <- E; apply mod15].
           rewrite <- ctrl_slot by (rewrite <- E; apply mod15). rewrite <- E, <- H1, C1, Eh, N.eqb_refl. now left.
        -- left. exact (in_in_remove Nat.eq_dec (u0 :: u) N H2).
      * right. destruct (N.testbit _ _); [now right|exact H2].
  - (* LOvf *)
    pose proof (pb_lt _ _ _ _ _ _ T) as Lx. rewrite (geo_get k) in Hs by assumption.
    pose proof (lk_h _ _ _ _ _ _ T) as Eh. destruct (lk_pb _ _ _ _ _ _ T) as (j0 & L0 & E0).
    destruct Ha as (j & Z1 & Z2 & [Z3|[_ []]]). rewrite E0 in Z3. cbn [pstate pb_step] in Z3.
    assert (b_is_not_overflowed (grp (A so) (x_g x)) (x_h x) = false) as Eo.
    { rewrite not_overflowed_bit. destruct C2 as (j1 & Y1 & Y2 & Y3). rewrite Eh in *. fold (p0 k (hk s p)) in Y2, Y3.
      assert (j1 = j) as -> by (apply (probe_pos_inj k (p0 k (hk s p))); [exact Y1|exact Z1|congruence]).
      specialize (Y3 j0 ltac:(lia)). unfold ovf in Y3. unfold x_g. rewrite E0. cbn [pstate pb_pos]. rewrite Y3. reflexivity. }
    rewrite Eo in Hs. rewrite (ge_mask _ _ G) in Hs. rewrite E0 in Hs. rewrite pstate_next in Hs; [|apply G|exact L0].
    destruct (N.ltb_spec (N.of_nat (S j0)) (2 ^ k)) as [L1|L1]; [|lia]. unfold go in Hs. injection Hs as <- <- <-. cbn [Ahead].
    exists j. unfold set_pb. cbn [x_h x_pb pstate pb_step]. split; [exact Z1|]. split; [exact Z2|].
    destruct (N.eq_dec (N.of_nat (S j0)) (N.of_nat j)) as [E|N]; [right|left; lia]. split; [exact E|]. rewrite app_nil_r. unfold all15.
    apply in_seq. pose proof (mod15 i0). lia.
Qed.

Definition good_obs (k : N) (s : Sh) (vs : list ent) (t : nat) (p : pop) (r : outcome) : Prop :=
  match r with Blocked => True | Ub => False | Step e l' _ => e = ENone /\ CInv k s (set_nth vs t (Some (Point p, l'))) end.
Lemma unlocked_ok k s so vs t p l free i thr : CInv k s vs -> nth_error vs t = Some (Some (Point p, l)) -> unlocked l = true -> frame k so s ->
  (forall x, ectx l = Some x -> nth_error (cnt s) (N.to_nat (p0 k (hk s p))) = Some (x_cg x) -> emplaces p = true ->
     forall i q, Pk s vs i q -> keqf c (pid (tb s)) (pkey p) q = true -> shows k so (hk s p) i) ->
  good_obs k s vs t p (pstep c free so p l i thr).
Proof.
  intros CI Ht Hu (G & Eh & Ep & El & Ec & Em) Hsh. pose proof CI as [B U].
  destruct (cb_ti _ _ _ _ B _ _ _ Ht) as [Wf T]. pose proof (cu_ti _ _ _ _ U _ _ _ Ht) as U1.
  pose proof (cb_fr _ _ _ _ B) as Fk. pose proof (fr_geo _ _ _ Fk) as G0. pose proof (ge_gsi _ _ G) as Eg.
  assert (HA : forall e l' a, (forall h, l <> LCount h) -> pstep c free so p l i thr = Step e l' a ->
     (ectx l' = None \/ exists x x', ectx l = Some x /\ ectx l' = Some x' /\ x_cg x' = x_cg x) -> TI1 k s vs (Point p) l').
  { intros e l' a Hl Hs Hx. cbn [ConcInv.TI1] in *. destruct (emplaces p) eqn:Epp; [|exact I]. destruct Hx as [->|(x & x' & E1 & E2 & E3)]; [exact I|].
    rewrite E1 in U1. rewrite E2, E3. destruct U1 as (n0 & Y1 & Y2 & Y3). exists n0. split; [exact Y1|]. split; [exact Y2|].
    intros Z i0 q Hq He. eapply (ahead_obs k s so); eauto. eapply Hsh; eauto. rewrite <- Z. exact Y1. }
  remember (pstep c free so p l i thr) as out eqn:Hs. symmetry in Hs.
  assert (FIN : forall l' a, out = Step ENone l' a -> infl l' = infl l -> lock_of (Point p) l' = None -> wt l' = wt l -> adm (ml (tb s)) l' <= adm (ml (tb s)) l ->
    wf (Point p) l' -> TI k s (Point p) l' -> (forall x n, l' <> LCons x n) -> TI1 k s vs (Point p) l' -> good_obs k s vs t p out).
  { intros l' a -> Z1 Z2 Z3 Z4 Z5 Z6 Z7 Z8. cbn [good_obs]. split; [reflexivity|]. eapply cinv_pure; eauto. right. left. exact Z2. }
  destruct l; try discriminate; cbn [ConcInv.TI wf] in Wf, T; cbn [pstep] in Hs; change (arr (tb so)) with (A so) in Hs.
  - (* LCount *) subst h. rewrite Eg in Hs.
    assert (N.to_nat (position (hk s p) (64 - k)) < length (cnt so))%nat as Lc.
    { rewrite Ec, (cb_cnt _ _ _ _ B), (ge_groups _ _ G0). pose proof (position_lt (hk s p) k (hk_lt c s p) ltac:(pose proof (ge_k _ _ G); lia)). lia. }
    destruct (nth_error (cnt so) (N.to_nat (position (hk s p) (64 - k)))) as [n0|] eqn:En; [|apply nth_error_None in En; lia].
    destruct (nth_error (cnt s) (N.to_nat (position (hk s p) (64 - k)))) as [n1|] eqn:En1; [|apply nth_error_None in En1; rewrite <- Ec in En1; lia].
    subst out. eapply FIN; try reflexivity; try discriminate.
    + cbn [ConcInv.TI]. split; [apply look_init; exact G0|]. unfold all15. intros n Hn. apply in_seq in Hn. lia.
    + cbn [ConcInv.TI1 ectx]. rewrite Wf. exists n1. cbn [x_cg]. split; [exact En1|]. split; [eapply Em; eassumption|]. intros _ i0 q Hq He. cbn [Ahead].
      destruct (pk_facts c k s vs i0 q B Hq) as (_ & _ & C3). apply ahead_init; [exact G0|exact C3|]. eapply cell_group; [exact Fk|exact C3].
  - (* LScan *) specialize (fun e l' a => HA e l' a ltac:(discriminate)). destruct (thr && gives_up p) eqn:Egu.
    { subst out. eapply FIN; try reflexivity; try discriminate; try exact I.
      - cbn. destruct p; exact I.
      - eapply HA; [reflexivity|left; reflexivity]. }
    destruct T as [T Hu']. pose proof (pb_lt _ _ _ _ _ _ T) as Lx. destruct u as [|u0 u].
    + destruct m as [|m0 m].
      * subst out. eapply FIN; try reflexivity; try discriminate.
        -- cbn [ConcInv.TI]. destruct T as [T1 T2 T3]. constructor; auto.
        -- eapply HA; [reflexivity|right; exists x, x; auto].
      * subst out. eapply FIN; try reflexivity; try discriminate.
        -- cbn [ConcInv.TI]. destruct T as [T1 T2 T3]. constructor; auto. intros n Hn. apply in_order_in in Hn. apply T3, Hn.
        -- eapply HA; [reflexivity|right; exists x, x; auto].
    + destruct (memb i (u0 :: u)) eqn:Emm; [|subst out; exact I]. rewrite (geo_get k) in Hs by assumption. subst out.
      assert (i < 15)%nat as Li.
      { apply existsb_exists in Emm as (y & Hy & Ey). apply Nat.eqb_eq in Ey as ->. apply Hu', Hy. }
      eapply FIN; try reflexivity; try discriminate.
      * cbn [ConcInv.TI]. split.
        -- destruct T as [T1 T2 T3]. constructor; auto. intros n Hn. rewrite match_testbit in Hn; [|eapply geo_len; eassumption|exact Li].
           destruct (nth i (grp (A so) (x_g x)) 0 =? low_class (x_h x)) eqn:Eb; [|apply T3, Hn]. destruct Hn as [<-|Hn]; [|apply T3, Hn].
           split; [exact Li|]. apply N.eqb_eq in Eb. rewrite <- El. eapply (ge_cell _ _ G); [rewrite slot_div by exact Li; exact Lx|].
           rewrite ctrl_slot, Eb by exact Li. apply low_class_ge2.
        -- intros n Hn. apply in_remove in Hn as [Hn _]. apply Hu', Hn.
      * eapply HA; [reflexivity|right; exists x, x; auto].
  - (* LOvf *) specialize (fun e l' a => HA e l' a ltac:(discriminate)). pose proof (pb_lt _ _ _ _ _ _ T) as Lx. rewrite (geo_get k) in Hs by assumption. destruct (lk_pb _ _ _ _ _ _ T) as (j0 & L0 & E0).
    assert (not_found p x = out -> good_obs k s vs t p out) as Z.
    { intros Z. destruct (emplaces p) eqn:Epp.
      - assert (out = Step ENone (LRes x) None) as Zo by (destruct p; try discriminate; symmetry; exact Z). subst out. rewrite Zo in *. eapply FIN; try reflexivity; try discriminate.
        + cbn. exact Epp.
        + cbn [ConcInv.TI]. apply T.
        + eapply HA; [reflexivity|right; exists x, x; auto].
      - assert (out = Step ENone (LDone RNone) None) as Zo by (destruct p; try discriminate; symmetry; exact Z). subst out. rewrite Zo in *. eapply FIN; try reflexivity; try discriminate.
        + cbn. destruct p; try discriminate; exact I.
        + eapply HA; [reflexivity|left; reflexivity]. }
    destruct (b_is_not_overflowed (grp (A so) (x_g x)) (x_h x)); [exact (Z Hs)|].
    rewrite (ge_mask _ _ G) in Hs. rewrite E0 in Hs. rewrite pstate_next in Hs; [|apply G|exact L0].
    destruct (N.ltb_spec (N.of_nat (S j0)) (2 ^ k)) as [L1|L1]; [|exact (Z Hs)]. clear Z. subst out. eapply FIN; try reflexivity; try discriminate.
    + cbn [ConcInv.TI]. split; [|unfold all15; intros n Hn; apply in_seq in Hn; lia].
      destruct T as [T1 T2 T3]. constructor; cbn [set_pb x_h x_pb]; auto; [exists (S j0); auto|intros n []].
    + eapply HA; [reflexivity|]. right. eexists _, _. split; [reflexivity|]. split; reflexivity.
Qed.
End WStep.
