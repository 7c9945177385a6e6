(** Solo termination of single-key operations. *)
From Coq Require Import NArith Bool List Arith Lia Permutation.
From Verif Require Import FloatModel SizeModel SizeProofs GroupModel GroupSpec FoaModel FoaGroup FoaBase FoaFind FoaArr FoaInv FoaRehash FoaSpec FoaWorld FoaRun
  ConcSpec ConcModel ConcInv ConcStep ConcStep2 ConcStep3 ConcSys ConcSys2 ConcLin1 ConcLin2 ConcLin3 ConcProps ConcProgress ConcSolo.
Import ListNotations.
Local Open Scope N_scope.
Notation set_nth := FoaModel.set_nth.

Section SoloP.
Context {K V : Type} (c : Cfg K V).
Hypothesis HC : good_cfg c.
Notation Sh := (@Sh K V).
Notation pop := (pop K V). Notation cop := (cop K V). Notation loc := (@loc K V). Notation cres := (cres K V).
Variables (t d : nat) (p : pop).
Notation Fin := (Fin c t d (Point p)). Notation Solo := (Solo c t (Point p)).
Notation gsi s := (a_gsi (arr (tb s))). Notation msk s := (a_mask (arr (tb s))).

Ltac back := apply (fin_back c HC); [discriminate|discriminate|]; intros HS free i thr e l' a s' Hs Ha HS'; cbn [lstep pstep go] in Hs.
Ltac inj Hs := injection Hs as <- <- <-.
Ltac none Ha := cbn [apply] in Ha; injection Ha as <-.
Let f_ret := fin_ret c t d (Point p).
Let f_done := fin_done c HC t d (Point p).
Let f_unl := fin_unl c HC t d (Point p).
Hint Resolve f_ret f_done f_unl : core.

(** *** the ends of operations *)
Lemma fin_dec s g kt : Fin s (LDec g kt).
Proof. back. destruct kt; [|discriminate]. inj Hs. auto. Qed.
Lemma fin_reset s g n kt : Fin s (LReset g n kt).
Proof. back. inj Hs. apply fin_dec. Qed.
Lemma fin_ml s g n kt : Fin s (LMl g n kt).
Proof. back. destruct (get_group _ _); [|discriminate]. inj Hs. apply fin_reset. Qed.
Lemma fin_fail_throw s : Fin s (LFail QThrow).
Proof. back. inj Hs. auto. Qed.
Lemma fin_undounl s g q : (forall s, Fin s (LFail q)) -> Fin s (LUndoUnl g q).
Proof. intros H. back. inj Hs. apply H. Qed.
Lemma fin_undo s g n q : (forall s, Fin s (LFail q)) -> Fin s (LUndo g n q).
Proof. intros H. back. inj Hs. apply fin_undounl, H. Qed.
Lemma fin_cons s x n : Fin s (LCons x n).
Proof.
  back. assert (l' = LUndo (x_g x) n QThrow \/ exists r, l' = LUnl (x_g x) true r) as [->|[r ->]].
  { clear - Hs. destruct p as [? ? ?|? ?|q k v f1 f2]; try discriminate. destruct (get_cell _ _) as [[| |e0]|]; try discriminate. destruct thr.
    - inj Hs. auto.
    - destruct (f1 (k, v)) as [v' b]. inj Hs. right. eauto. }
  - apply fin_undo. intros. apply fin_fail_throw.
  - auto.
Qed.
Lemma fin_call s x n : Fin s (LCall x n).
Proof.
  back. assert ((exists x' r, l' = LUnl (x_g x) x' r) \/ exists kt, l' = LMl (x_g x) n kt) as [(x' & r & ->)|[kt ->]].
  { clear - Hs. destruct (get_cell _ _) as [[| |e0]|]; try discriminate. unfold visit_slot in Hs.
    destruct p as [q k f|k f|q k v f1 f2].
    - destruct (f e0) as [v b]. inj Hs. eauto.
    - destruct (f e0) as [v [[|]|]]; inj Hs; eauto.
    - destruct (f2 e0) as [v' b]. inj Hs. eauto. }
  - auto.
  - apply fin_ml.
Qed.

(** *** lookups *)
Definition miss (s : Sh) (h cg : N) : Prop := emplaces p = true -> forall pb, Fin s (LRes (Ctx h cg pb)).
Lemma fin_not_found s x e l' a : miss s (x_h x) (x_cg x) -> not_found p x = Step e l' a -> e = ENone /\ Fin s l'.
Proof.
  unfold not_found. intros H E. assert ((e = ENone /\ l' = LDone RNone) \/ (e = ENone /\ l' = LRes x /\ emplaces p = true)) as [[-> ->]|(-> & -> & F)].
  { clear - E. destruct p; injection E as <- <- <-; auto. }
  - auto.
  - split; [reflexivity|]. destruct x as [h cg pb]. apply H, F.
Qed.
Lemma fin_check s x : Fin s (LOvf x) -> forall m, Fin s (LCheck x m).
Proof.
  intros H. induction m as [|n m IH].
  - back. inj Hs. none Ha. exact H.
  - back. destruct (get_group _ _) as [b|]; [|discriminate]. destruct (b_is_occupied b n); inj Hs; none Ha; [|exact IH].
    clear HS HS' i thr free. back. destruct (get_cell _ _) as [[| |e0]|]; try discriminate. destruct thr; [inj Hs; auto|].
    destruct (keqf _ _ _ _); inj Hs; none Ha; [apply fin_call|exact IH].
Qed.
Lemma fin_scan s x : Fin s (LOvf x) -> forall u m, Fin s (LScan x u m).
Proof.
  intros H. enough (forall n u, (length u < n)%nat -> forall m, Fin s (LScan x u m)) by (intros u m; eapply H0; apply Nat.lt_succ_diag_r).
  induction n as [|n IH]; [lia|]. intros u Hu m. back. destruct (thr && gives_up p); [inj Hs; auto|]. destruct u as [|y u].
  - destruct m as [|z m]; inj Hs; none Ha; [exact H|]. clear HS HS' i thr free. set (w := in_order _). clearbody w. back.
    destruct (free _ _); [|discriminate]. inj Hs. none Ha. apply fin_check, H.
  - set (v := y :: u) in *. destruct (memb i v) eqn:Em; [|discriminate]. destruct (get_group _ _) as [b|]; [|discriminate]. inj Hs. none Ha. apply IH.
    assert (In i v) as Hi by (unfold memb in Em; apply existsb_exists in Em as (z & Hz & Ez); apply Nat.eqb_eq in Ez; subst z; exact Hz).
    pose proof (remove_length_lt Nat.eq_dec v i Hi) as X. apply (Nat.lt_le_trans _ (length v)); [exact X|]. lia.
Qed.
Lemma fin_ovf s h cg : miss s h cg -> forall pb, Fin s (LOvf (Ctx h cg pb)).
Proof.
  intros H. enough (forall n pb, (N.to_nat (msk s + 1 - pb_step pb) < n)%nat -> Fin s (LOvf (Ctx h cg pb))) by (intros pb; eapply H0; apply Nat.lt_succ_diag_r).
  induction n as [|n IH]; [lia|]. intros pb Hn. back. destruct (get_group _ _) as [b|]; [|discriminate].
  destruct (b_is_not_overflowed _ _).
  { destruct (fin_not_found s (Ctx h cg pb) e l' a H Hs) as [-> F]. none Ha. exact F. }
  cbn [x_pb] in Hs. destruct (pb_next pb (msk s)) as [pb' more] eqn:En. destruct more.
  - inj Hs. none Ha. apply fin_scan. unfold set_pb. cbn [x_h x_cg]. apply IH.
    assert (pb_step pb' = (pb_step pb + 1) mod 2 ^ 64 /\ (pb_step pb + 1) mod 2 ^ 64 <= msk s) as [E1 E].
    { pose proof (f_equal (fun z => pb_step (fst z)) En) as E1. pose proof (f_equal snd En) as E2. unfold pb_next in E1, E2. cbn [fst snd pb_step] in E1, E2.
      split; [symmetry; exact E1|apply N.leb_le; exact E2]. }
    rewrite E1.
    assert ((pb_step pb + 1) mod 2 ^ 64 = pb_step pb + 1) as X.
    { apply N.mod_small. destruct HS as (k & vs & [B _] & Hv & _). destruct (cb_ti _ _ _ _ B _ _ _ Hv) as [_ T]. cbn [TI] in T.
      destruct (lk_pb _ _ _ _ _ _ T) as (j & Lj & Ej). cbn [x_pb x_h] in Ej. apply (f_equal pb_step) in Ej. cbn [pstate pb_step] in Ej. rewrite Ej. pose proof (ge_k _ _ (fr_geo c _ _ (cb_fr _ _ _ _ B))) as Hk.
      assert (2 ^ k <= 2 ^ 60) by (apply N.pow_le_mono_r; lia). change (2 ^ 64) with (16 * 2 ^ 60). lia. }
    rewrite X in E |- *. lia.
  - destruct (fin_not_found s (Ctx h cg pb) e l' a H Hs) as [-> F]. none Ha. exact F.
Qed.

(** *** insertions: some slot is free *)
Definition avail (s : Sh) (g : nat) : Prop := exists n, (n < 15)%nat /\ ctrl (A s) (slot_index g n) = 0.
Lemma live_count (cs : list (cell K V)) : (forall x, In x cs -> x <> Raw /\ x <> Moved) -> length (flat_map live cs) = length cs.
Proof.
  induction cs as [|x cs IH]; intros H; [reflexivity|]. cbn [flat_map length]. rewrite app_length, IH by (intros y Hy; apply H; right; exact Hy).
  destruct (H x (or_introl eq_refl)). destruct x; try contradiction. reflexivity.
Qed.
Lemma raw_slot (cs : list (cell K V)) : (length (flat_map live cs) < length cs)%nat -> (forall i, nth_error cs i <> Some Moved) -> exists i, nth_error cs i = Some Raw.
Proof.
  induction cs as [|x cs IH]; intros H M; [cbn in H; lia|]. destruct x as [| |e].
  - exists O. reflexivity.
  - destruct (M O eq_refl).
  - cbn in H. destruct IH as [i Hi]; [lia| |exists (S i); exact Hi]. intros i. apply (M (S i)).
Qed.
Lemma room s x : Solo s (LIns x) -> exists j k, k <= 60 /\ msk s = 2 ^ k - 1 /\ pb_pos (nexts (msk s) j (x_pb x)) < 2 ^ k /\
  avail s (N.to_nat (pb_pos (nexts (msk s) j (x_pb x)))).
Proof.
  intros (k & vs & [B U] & Hv & Ho). destruct (cb_ti _ _ _ _ B _ _ _ Hv) as [_ T]. cbn [TI] in T. pose proof (fr_geo c _ _ (cb_fr _ _ _ _ B)) as G.
  pose proof (ge_k _ _ G) as Hk. pose proof (ge_mask _ _ G) as Em. change (a_mask (A s)) with (msk s) in Em. rewrite Em.
  assert (Shape k (A s)) as HSh by (apply (fr_shape c); [apply B|apply T]).
  assert (N.of_nat (length (elems (A s))) < N.of_nat (length (cells (A s)))) as Lr.
  { pose proof (cb_adm _ _ _ _ B) as X. pose proof (wsum_in (adm (ml (tb s))) _ _ _ _ Hv) as Y. cbn [adm] in Y.
    pose proof (cb_ml _ _ _ _ B) as Z. destruct (init_ml_shape _ _ HSh) as [Ei Bi]. destruct (cap_shape _ _ HSh) as [_ Ec]. lia. }
  destruct (raw_slot (cells (A s))) as [i Hi]; [unfold elems in Lr; lia|apply B|].
  assert (ctrl (A s) i = 0) as Ci.
  { destruct (cb_raw _ _ _ _ B i Hi) as [E|(t' & o' & l' & E1 & E2)]; [exact E|exfalso]. destruct (Nat.eq_dec t' t) as [->|N].
    - rewrite Hv in E1. injection E1 as <- <-. discriminate E2.
    - destruct (out_facts l' (Ho _ _ _ N E1)) as [E _]. congruence. }
  assert (i < length (cells (A s)))%nat as Li by (apply nth_error_Some; congruence).
  pose proof (shape_div _ _ _ HSh Li) as Lg.
  destruct (nexts_covers k (x_pb x) (i / 15)%nat) as [j Ej]; [lia|apply T|lia|].
  exists j, k. rewrite Ej. split; [lia|]. split; [reflexivity|]. split; [lia|]. exists (i mod 15)%nat. split; [apply mod15|]. rewrite Nat2N.id.
  unfold slot_index. rewrite <- Nat.div_mod_eq || (rewrite Nat.mul_comm, <- Nat.div_mod by lia); exact Ci.
Qed.

Lemma fin_solo s l : (Solo s l -> Fin s l) -> Fin s l.
Proof. intros H C S. apply H; [eapply st_solo; exact S|exact S]. Qed.
Lemma avail_mask s x : Solo s (LAvail x) -> avail s (x_g x) -> forall b, get_group (arr (tb s)) (x_g x) = Some b -> b_match_available b <> 0.
Proof.
  intros (k & vs & [B U] & Hv & Ho) (n & Hn & E) b Hb Ez. destruct (cb_ti _ _ _ _ B _ _ _ Hv) as [_ T]. cbn [TI] in T. pose proof (fr_geo c _ _ (cb_fr _ _ _ _ B)) as G.
  assert (x_g x < N.to_nat (2 ^ k))%nat as Lg by (pose proof (ir_pos _ _ _ _ _ T); unfold x_g; lia).
  pose proof (geo_get _ _ _ G Lg) as E1. change (arr (tb s)) with (A s) in Hb. rewrite Hb in E1. injection E1 as ->. pose proof (geo_len _ _ _ G Lg) as L16.
  destruct (available_bits _ L16) as [X _]. pose proof (mask_loop_nil (b_match_available (grp (A s) (x_g x)))) as Y. rewrite X, Ez in Y. cbn [N.eqb] in Y.
  assert (In n (tag_bits (N.eqb 0) (grp (A s) (x_g x)))) as Hi.
  { unfold tag_bits. apply filter_In. split; [apply in_seq; lia|]. rewrite ctrl_slot in E by exact Hn. rewrite E. reflexivity. }
  destruct (tag_bits _ _); [destruct Hi|discriminate Y].
Qed.
Lemma mark_avail s x s' : Solo s (LAvail x) -> apply (EMark (x_g x) (x_h x)) s = Some s' -> forall g, avail s g -> avail s' g.
Proof.
  intros (k & vs & [B U] & Hv & Ho) Ha g (n & Hn & E). destruct (cb_ti _ _ _ _ B _ _ _ Hv) as [_ T]. cbn [TI] in T.
  assert (Shape k (A s)) as HSh by (apply (fr_shape c); [apply B|apply T]).
  assert (x_g x < N.to_nat (2 ^ k))%nat as Lg by (pose proof (ir_pos _ _ _ _ _ T); unfold x_g; lia).
  rewrite (ap_mark k) in Ha by assumption. injection Ha as <-. destruct (fo_mark k s (x_g x) (x_h x) None HSh Lg) as (_ & _ & _ & _ & X).
  exists n. split; [exact Hn|]. rewrite X. exact E.
Qed.
Section Ins.
Variables (h cg : N) (cn : list N) (gs M : N).
Definition R (s : Sh) : Prop := cnt s = cn /\ gsi s = gs /\ msk s = M.
Lemma r_apply e s s' : R s -> (forall g, e <> ECnt g) -> apply e s = Some s' -> R s'.
Proof. intros (E1 & E2 & E3) N Ha. destruct (apply_shape _ _ _ Ha) as (F1 & F2 & F3). specialize (F3 N). unfold R. repeat split; congruence. Qed.
Hypothesis HCnt : forall s pb n, R s -> Fin s (LCnt (Ctx h cg pb) n).
Lemma fin_ins_j : forall j s pb, R s -> avail s (N.to_nat (pb_pos (nexts M j pb))) -> Fin s (LIns (Ctx h cg pb)).
Proof.
  induction j as [|j IH]; intros s pb Hr Hav; back; (destruct (free _ _); [|discriminate]); inj Hs; none Ha; clear HS HS' i thr free.
  - back. destruct (get_group _ _) as [b|] eqn:Eb; [|discriminate]. pose proof (avail_mask _ _ HS Hav b Eb) as Z.
    destruct (N.eqb_spec (b_match_available b) 0) as [|_]; [contradiction|]. cbn [negb] in Hs. inj Hs. apply HCnt. eapply r_apply; [exact Hr| |exact Ha]. discriminate.
  - back. destruct (get_group _ _) as [b|] eqn:Eb; [|discriminate]. destruct (negb _).
    + inj Hs. apply HCnt. eapply r_apply; [exact Hr| |exact Ha]. discriminate.
    + inj Hs. assert (R s') as Hr' by (eapply r_apply; [exact Hr| |exact Ha]; discriminate). pose proof (mark_avail _ _ _ HS Ha _ Hav) as Hav'.
      clear HS HS' i thr free Hr Hav Ha Eb b s. rename s' into s. back. inj Hs. none Ha. unfold set_pb. cbn [x_h x_cg x_pb]. apply IH; [exact Hr'|].
      cbn [nexts] in Hav'. destruct Hr' as (_ & _ & ->). exact Hav'.
Qed.
Lemma fin_ins s pb : R s -> Fin s (LIns (Ctx h cg pb)).
Proof.
  intros Hr. apply fin_solo. intros S. destruct (room _ _ S) as (j & k & _ & _ & _ & Hav). cbn [x_pb] in Hav.
  apply (fin_ins_j j); [exact Hr|]. destruct Hr as (_ & _ & <-). exact Hav.
Qed.
Lemma fin_avail s pb : R s -> Fin s (LAvail (Ctx h cg pb)).
Proof.
  intros Hr. back. destruct (get_group _ _) as [b|] eqn:Eb; [|discriminate]. destruct (negb _).
  - inj Hs. apply HCnt. eapply r_apply; [exact Hr| |exact Ha]. discriminate.
  - inj Hs. assert (R s') as Hr' by (eapply r_apply; [exact Hr| |exact Ha]; discriminate).
    clear HS HS' i thr free Hr Ha Eb b s. rename s' into s. back. inj Hs. none Ha. unfold set_pb. cbn [x_h x_cg x_pb]. apply fin_ins, Hr'.
Qed.
End Ins.

(** *** the counter has not moved *)
Definition fresh (s : Sh) (h cg : N) : Prop := nth_error (cnt s) (N.to_nat (position h (gsi s))) = Some cg.
Lemma fin_cnt_fresh s h cg pb n : fresh s h cg -> Fin s (LCnt (Ctx h cg pb) n).
Proof.
  unfold fresh. intros Hf. back. cbn [x_h x_cg] in Hs. rewrite Hf in Hs. rewrite N.eqb_refl in Hs. cbn [negb] in Hs. inj Hs. apply fin_cons.
Qed.
Lemma fin_ins_fresh s h cg pb : fresh s h cg -> Fin s (LIns (Ctx h cg pb)).
Proof.
  intros Hf. apply (fin_ins h cg (cnt s) (gsi s) (msk s)); [|repeat split]. intros s' pb' n (E1 & E2 & _). apply fin_cnt_fresh. unfold fresh in *. rewrite E1, E2. exact Hf.
Qed.
Lemma fresh_inc s s' h cg : apply ESzInc s = Some s' -> fresh s h cg -> fresh s' h cg /\ sz (tb s') = sz (tb s) + 1 /\ ml (tb s') = ml (tb s).
Proof. cbn [apply]. intros [= <-] H. repeat split. exact H. Qed.
Lemma fin_res_room s h cg pb : fresh s h cg -> sz (tb s) < ml (tb s) -> Fin s (LRes (Ctx h cg pb)).
Proof.
  intros Hf Hm. back. inj Hs. destruct (fresh_inc _ _ _ _ Ha Hf) as (Hf' & E1 & E2). rewrite <- E1. assert (sz (tb s') <= ml (tb s')) as L by lia.
  clear - L Hf' HC f_ret f_done f_unl. rename s' into s. back. apply N.leb_le in L. rewrite L in Hs. inj Hs. none Ha. apply fin_ins_fresh. exact Hf'.
Qed.
Lemma fin_count_with s h : (forall cg, fresh s h cg -> miss s h cg) -> Fin s (LCount h).
Proof.
  intros H. back. destruct (nth_error _ _) as [n|] eqn:E; [|discriminate]. inj Hs. none Ha. apply fin_scan, fin_ovf, H. exact E.
Qed.
Lemma fin_enter_with s : (emplaces p = true -> forall h, Fin s (LCount h)) -> Fin s LHash.
Proof.
  intros H. back. destruct thr; [inj Hs; auto|].
  assert ((e = ENone /\ exists x, emplaces p = false /\ l' = LScan x all15 []) \/ (e = ENone /\ exists h, l' = LCount h /\ emplaces p = true)) as [(-> & x & Ep & ->)|(-> & h & -> & Ep)].
  { clear - Hs. destruct p; injection Hs as <- <- <-; eauto. }
  - none Ha. destruct x as [h cg pb]. apply fin_scan, fin_ovf. intros E. congruence.
  - none Ha. apply H, Ep.
Qed.
Lemma fin_full_p s : Fin s LFull.
Proof.
  apply (fin_full c HC). intros s0 S0 Hm. back. inj Hs. none Ha. apply fin_enter_with. intros _ h. apply fin_count_with. intros cg Hf _ pb. apply fin_res_room; assumption.
Qed.
Lemma fin_fail_full s : Fin s (LFail QFull).
Proof. back. inj Hs. clear HS HS' Ha s i thr free. rename s' into s. back. inj Hs. apply fin_full_p. Qed.
Lemma fin_res_fresh s h cg pb : fresh s h cg -> Fin s (LRes (Ctx h cg pb)).
Proof.
  intros Hf. back. inj Hs. destruct (fresh_inc _ _ _ _ Ha Hf) as (Hf' & E1 & E2). set (n := sz (tb s) + 1). clearbody n.
  clear - Hf' HC f_ret f_done f_unl. rename s' into s. back. destruct (n <=? _); inj Hs; none Ha; [apply fin_ins_fresh; exact Hf'|apply fin_fail_full].
Qed.
Lemma fin_count s h : Fin s (LCount h).
Proof. apply fin_count_with. intros cg Hf _ pb. apply fin_res_fresh, Hf. Qed.
Lemma fin_hash s : Fin s LHash.
Proof. apply fin_enter_with. intros. apply fin_count. Qed.
Lemma fin_enter s : Fin s LEnter.
Proof. back. inj Hs. none Ha. apply fin_hash. Qed.
Lemma fin_fail s q : Fin s (LFail q).
Proof.
  destruct q; [|apply fin_fail_throw|apply fin_fail_full]. back. inj Hs. apply fin_count.
Qed.
(** *** any position *)
Lemma fin_cnt s x n : Fin s (LCnt x n).
Proof.
  back. destruct (nth_error _ _) as [m|]; [|discriminate]. destruct (negb _); inj Hs; [apply fin_undo; intros; apply fin_fail|apply fin_cons].
Qed.
Lemma fin_ins_any s x : Fin s (LIns x).
Proof. destruct x as [h cg pb]. apply (fin_ins h cg (cnt s) (gsi s) (msk s)); [|repeat split]. intros. apply fin_cnt. Qed.
Lemma fin_chk s x n : Fin s (LChk x n).
Proof. back. destruct (n <=? _); inj Hs; [apply fin_ins_any|apply fin_fail]. Qed.
Lemma fin_res s x : Fin s (LRes x).
Proof. back. inj Hs. apply fin_chk. Qed.
Lemma fin_ovf_any s x : Fin s (LOvf x).
Proof. destruct x as [h cg pb]. apply fin_ovf. intros _ pb'. apply fin_res. Qed.
Lemma fin_point s l : Fin s l.
Proof.
  destruct l.
  - apply fin_enter.
  - apply fin_hash.
  - apply fin_count.
  - apply fin_scan, fin_ovf_any.
  - back. destruct (free _ _); [|discriminate]. inj Hs. apply fin_check, fin_ovf_any.
  - apply fin_check, fin_ovf_any.
  - back. destruct (get_cell _ _) as [[| |e0]|]; try discriminate. destruct thr; [inj Hs; auto|]. destruct (keqf _ _ _ _); inj Hs; [apply fin_call|apply fin_check, fin_ovf_any].
  - apply fin_call.
  - apply fin_ml.
  - apply fin_reset.
  - apply fin_dec.
  - apply fin_ovf_any.
  - apply fin_res.
  - apply fin_chk.
  - apply fin_ins_any.
  - destruct x as [h cg pb]. apply (fin_avail h cg (cnt s) (gsi s) (msk s)); [|repeat split]. intros. apply fin_cnt.
  - back. inj Hs. apply fin_ins_any.
  - apply fin_cnt.
  - apply fin_cons.
  - apply fin_undo. intros. apply fin_fail.
  - apply fin_undounl. intros. apply fin_fail.
  - apply fin_fail.
  - back. inj Hs. apply fin_full_p.
  - apply fin_full_p.
  - back. discriminate.
  - back. discriminate.
  - back. discriminate.
  - back. discriminate.
  - back. discriminate.
  - auto.
  - auto.
  - auto.
Qed.
End SoloP.

Section SoloB.
Context {K V : Type} (c : Cfg K V).
Hypothesis HC : good_cfg c.
Notation Sh := (@Sh K V).
Notation cop := (cop K V). Notation loc := (@loc K V).
Variables (t d : nat) (bx : bool) (md : bmode) (f : nat -> ufun K V).
Notation Fin := (Fin c t d (Bulk bx md f)). Notation Solo := (Solo c t (Bulk bx md f)).
Notation msk s := (a_mask (arr (tb s))).
Ltac back := apply (fin_back c HC); [discriminate|discriminate|]; intros HS free i thr e l' a s' Hs Ha HS'; cbn [lstep bstep go] in Hs.
Ltac inj Hs := injection Hs as <- <- <-.
Ltac none Ha := cbn [apply] in Ha; injection Ha as <-.
Let f_ret := fin_ret c t d (Bulk bx md f).
Let f_done := fin_done c HC t d (Bulk bx md f).
Let f_unl := fin_unl c HC t d (Bulk bx md f).
Hint Resolve f_ret f_done f_unl : core.

Lemma ap_msk e (s s' : Sh) : apply e s = Some s' -> msk s' = msk s.
Proof. intros H. apply (apply_shape _ _ _ H). Qed.
Section Grp.
Variables (M : N) (g : nat).
Hypothesis Hnext : forall s acc, msk s = M -> Fin s (BGrp (S g) acc).
Lemma fin_elem : forall ms s acc, msk s = M -> Fin s (BElem g ms acc).
Proof.
  induction ms as [|n ms IH]; intros s acc E; back.
  - inj Hs. none Ha. apply Hnext, E.
  - destruct (get_cell _ _) as [[| |e0]|]; try discriminate. destruct (f (length acc) e0) as [v ob]. inj Hs. pose proof (ap_msk _ _ _ Ha) as E'. rewrite E in E'.
    destruct (erases md ob).
    + clear - E' IH HC f_ret f_done f_unl. rename s' into s. back. destruct (get_group _ _) as [b|]; [|discriminate]. inj Hs. pose proof (ap_msk _ _ _ Ha) as E. rewrite E' in E.
      clear - E IH HC f_ret f_done f_unl. rename s' into s. back. inj Hs. pose proof (ap_msk _ _ _ Ha) as E'. rewrite E in E'.
      clear - E' IH HC f_ret f_done f_unl. rename s' into s. back. inj Hs. pose proof (ap_msk _ _ _ Ha) as E. rewrite E' in E. apply IH, E.
    + destruct ob as [b|]; [|auto]. destruct (goes_on md (Some b)); [apply IH, E'|auto].
Qed.
Lemma fin_mask s acc : msk s = M -> Fin s (BMask g acc).
Proof. intros E. back. destruct (get_group _ _) as [b|]; [|discriminate]. set (w := mask_loop _ _) in Hs. clearbody w. inj Hs. none Ha. apply fin_elem, E. Qed.
Lemma fin_bdec s ms acc : msk s = M -> Fin s (LDec g (KB ms acc)).
Proof. intros E. back. inj Hs. apply fin_elem. rewrite (ap_msk _ _ _ Ha). exact E. Qed.
Lemma fin_breset s n ms acc : msk s = M -> Fin s (LReset g n (KB ms acc)).
Proof. intros E. back. inj Hs. apply fin_bdec. rewrite (ap_msk _ _ _ Ha). exact E. Qed.
Lemma fin_bml s n ms acc : msk s = M -> Fin s (LMl g n (KB ms acc)).
Proof. intros E. back. destruct (get_group _ _) as [b|]; [|discriminate]. inj Hs. apply fin_breset. rewrite (ap_msk _ _ _ Ha). exact E. Qed.
End Grp.
Lemma grp_bound s g acc : Solo s (BGrp g acc) -> (g <= N.to_nat (msk s + 1))%nat.
Proof.
  intros (k & vs & [B U] & Hv & Ho). destruct (cb_ti _ _ _ _ B _ _ _ Hv) as [_ T]. cbn [TI] in T. pose proof (fr_geo c _ _ (cb_fr _ _ _ _ B)) as G.
  pose proof (ge_mask _ _ G) as Em. change (a_mask (A s)) with (msk s) in Em. rewrite Em. pose proof (pow2_pos k). lia.
Qed.
Lemma fin_grp M : forall n g s acc, (N.to_nat (M + 1) - g < n)%nat -> msk s = M -> Fin s (BGrp g acc).
Proof.
  induction n as [|n IH]; [lia|]. intros g s acc Hn E. back. destruct (a_elems _); [|inj Hs; auto]. rewrite E in Hs.
  destruct (Nat.eqb_spec g (N.to_nat (M + 1))) as [|Ne]; [inj Hs; auto|]. destruct (free _ _); [|discriminate]. inj Hs. none Ha.
  pose proof (grp_bound _ _ _ HS) as Lg. rewrite E in Lg. apply (fin_mask M); [|exact E]. intros s' acc' E'. apply IH; [lia|exact E'].
Qed.
Lemma fin_grp_any s g acc : Fin s (BGrp g acc).
Proof. eapply fin_grp; [apply Nat.lt_succ_diag_r|reflexivity]. Qed.
Lemma fin_bulk s l : Fin s l.
Proof.
  destruct l; try (back; discriminate Hs).
  - back. inj Hs. apply fin_grp_any.
  - destruct kt as [e0|ms acc]; [|apply (fin_bml (msk s)); [intros; apply fin_grp_any|reflexivity]].
    back. destruct (get_group _ _); [|discriminate]. inj Hs. clear - HC f_ret f_done f_unl. rename s' into s. back. inj Hs. clear - HC f_ret f_done f_unl. rename s' into s. back. discriminate.
  - destruct kt as [e0|ms acc]; [|apply (fin_breset (msk s)); [intros; apply fin_grp_any|reflexivity]].
    back. inj Hs. clear - HC f_ret f_done f_unl. rename s' into s. back. discriminate.
  - destruct kt as [e0|ms acc]; [back; discriminate|]. apply (fin_bdec (msk s)); [intros; apply fin_grp_any|reflexivity].
  - apply (fin_full c HC). intros s0 _ _. back. inj Hs. apply fin_grp_any.
  - apply fin_grp_any.
  - apply (fin_mask (msk s)); [intros; apply fin_grp_any|reflexivity].
  - apply (fin_elem (msk s)); [intros; apply fin_grp_any|reflexivity].
  - auto.
  - auto.
  - auto.
Qed.
End SoloB.

Section SoloAll.
Context {K V : Type} (c : Cfg K V).
Hypothesis HC : good_cfg c.
Lemma fin_any t d (o : cop K V) s l : Fin c t d o s l.
Proof.
  destruct o as [p|bx md f|]; [apply (fin_point c HC)|apply (fin_bulk c HC)|].
  assert (forall s l, l <> LFull -> l <> LEnter -> l <> SMl -> Fin c t d SizeOf s l) as H.
  { clear s l. intros s l N1 N2 N3. destruct l; try congruence; try apply fin_ret; (apply (fin_back c HC); [discriminate|discriminate|]; intros HS free i thr e l' a s' Hs Ha HS'; cbn [lstep sstep go] in Hs; try discriminate Hs).
    - injection Hs as <- <- <-. apply (fin_done c HC).
    - injection Hs as <- <- <-. apply fin_ret. }
  assert (forall s, Fin c t d SizeOf s SMl) as H1.
  { intros s0. apply (fin_back c HC); [discriminate|discriminate|]. intros HS free i thr e l' a s' Hs Ha HS'. cbn in Hs. injection Hs as <- <- <-. apply H; discriminate. }
  assert (forall s, Fin c t d SizeOf s LEnter) as H2.
  { intros s0. apply (fin_back c HC); [discriminate|discriminate|]. intros HS free i thr e l' a s' Hs Ha HS'. cbn in Hs. injection Hs as <- <- <-. apply H1. }
  destruct l; try (apply H; discriminate); [apply H2|apply (fin_full c HC); auto|apply H1].
Qed.
Lemma solo_completes C t d o l : GInv c C -> counters_fit C -> nth_error (th C) t = Some (At d o l) -> alone C t d = true -> completes c t C.
Proof.
  intros G NW Ht Al. destruct (gi_at _ _ G _ _ _ _ Ht) as [s Hb]. apply (fin_any t d o s l). constructor; assumption.
Qed.
End SoloAll.
