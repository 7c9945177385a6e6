(** What the steps of ConcModel write, lock and change position to, and what writes leave unchanged (for WeakInv.v). *)
From Coq Require Import NArith Bool List Arith Lia ZifyBool ZifyNat ZifyN.
From Verif Require Import FloatModel SizeModel SizeProofs GroupModel GroupProofs GroupSpec FoaModel FoaGroup FoaBase FoaFind FoaArr FoaInv FoaSpec ConcSpec ConcModel ConcInv ConcStep ConcStep2 ConcStep3 WeakModel.
Import ListNotations.
Local Open Scope N_scope.
Notation set_nth := FoaModel.set_nth.

Section WEff.
Context {K V : Type} (c : Cfg K V).
Notation arrays := (arrays K V).
Notation table := (table K V).
Notation Sh := (@Sh K V).
Notation pop := (pop K V). Notation cop := (cop K V). Notation loc := (@loc K V). Notation cres := (cres K V). Notation eff := (@eff K V).
Notation ent := (option (cop * loc)).
Notation CBase := (CBase c). Notation CInv := (CInv c). Notation TI := (TI c).

(** *** writes *)
Definition ehits (e : eff) (v : vloc) : Prop :=
  match e, v with
  | ESet g n _, VByte g' n' | EReset g n, VByte g' n' => g = g' /\ n = n'
  | EMark g _, VByte g' n' => g = g' /\ n' = 15%nat
  | ECnt g, VCnt g' => g = g'
  | ECell i _, VCell i' => i = i'
  | _, _ => False
  end.
Definition byte (s : Sh) (g n : nat) : N := nth n (nth g (a_groups (arr (tb s))) []) 0.

Lemma nth_set {X} (l : list X) i x j d : (i < length l)%nat -> nth j (set_nth l i x) d = if Nat.eqb j i then x else nth j l d.
Proof.
  intros L. destruct (Nat.eqb_spec j i) as [->|N].
  - apply nth_error_nth. rewrite set_nth_err by exact L. rewrite Nat.eqb_refl. reflexivity.
  - pose proof (set_nth_err l i j x L) as E. replace (Nat.eqb j i) with false in E by (symmetry; apply Nat.eqb_neq; exact N).
    destruct (nth_error l j) as [y|] eqn:Ey.
    + rewrite (nth_error_nth _ _ d E), (nth_error_nth _ _ d Ey). reflexivity.
    + rewrite !nth_overflow; [reflexivity| |]; apply nth_error_None; assumption.
Qed.
Lemma map_len_set (l : list (list N)) g b b' : nth_error l g = Some b -> length b' = length b -> map (@length N) (set_nth l g b') = map (@length N) l.
Proof.
  intros H L. apply list_ext. intros j. assert (g < length l)%nat as Lg by (apply nth_error_Some; congruence).
  rewrite !nth_error_map, set_nth_err by exact Lg. destruct (Nat.eqb_spec j g) as [->|N]; [|reflexivity]. rewrite H. cbn [option_map]. rewrite L. reflexivity.
Qed.
Lemma on_groups_inv (s s' : Sh) g f : on_groups s g f = Some s' ->
  exists b cs, a_elems (arr (tb s)) = Some cs /\ nth_error (a_groups (arr (tb s))) g = Some b /\
    s' = MkSh (set_arr (tb s) (Arr (a_gsi (arr (tb s))) (a_mask (arr (tb s))) (set_nth (a_groups (arr (tb s))) g (f b)) (a_elems (arr (tb s))) (a_owner (arr (tb s))))) (cnt s).
Proof.
  unfold on_groups, put_group. destruct (a_elems (arr (tb s))) as [cs|]; [|discriminate]. destruct (nth_error (a_groups (arr (tb s))) g) as [b|]; [|discriminate].
  intros E. injection E as <-. exists b, cs. auto.
Qed.
Lemma upd_group_box (s : Sh) g f b : nth_error (a_groups (arr (tb s))) g = Some b -> length (f b) = length b ->
  same_box (MkSh (set_arr (tb s) (Arr (a_gsi (arr (tb s))) (a_mask (arr (tb s))) (set_nth (a_groups (arr (tb s))) g (f b)) (a_elems (arr (tb s))) (a_owner (arr (tb s))))) (cnt s)) s.
Proof. intros H L. unfold same_box. cbn [tb cnt set_arr arr hid pid aid a_owner a_gsi a_mask a_groups a_elems]. rewrite (map_len_set _ g b) by assumption. repeat split; reflexivity. Qed.
Lemma box_refl (s : Sh) : same_box s s.
Proof. unfold same_box. repeat split; reflexivity. Qed.
Lemma box_trans (s1 s2 s3 : Sh) : same_box s1 s2 -> same_box s2 s3 -> same_box s1 s3.
Proof. unfold same_box. intros (?&?&?&?&?&?&?&?&?) (?&?&?&?&?&?&?&?&?). repeat split; congruence. Qed.
Lemma box_sym (s1 s2 : Sh) : same_box s1 s2 -> same_box s2 s1.
Proof. unfold same_box. intros (?&?&?&?&?&?&?&?&?). repeat split; congruence. Qed.

Lemma apply_box e (s s' : Sh) : apply e s = Some s' -> same_box s' s.
Proof.
  destruct e; cbn [apply].
  - intros E; injection E as <-; exact (box_refl s).
  - intros E; injection E as <-; exact (box_refl s).
  - destruct (sz (tb s) =? 0); [discriminate|]. intros E; injection E as <-; exact (box_refl s).
  - destruct b; [destruct (ml (tb s) =? 0); [discriminate|]|]; intros E; injection E as <-; exact (box_refl s).
  - intros E. apply on_groups_inv in E as (b & cs & _ & E & ->). apply (upd_group_box s g (fun b => b_set b n h) b E); apply upd_length.
  - intros E. apply on_groups_inv in E as (b & cs & _ & E & ->). apply (upd_group_box s g (fun b => b_reset b n) b E); apply upd_length.
  - intros E. apply on_groups_inv in E as (b & cs & _ & E & ->). apply (upd_group_box s g (fun b => b_mark_overflow b h) b E); apply upd_length.
  - destruct (nth_error (cnt s) g) as [n|] eqn:E; [|discriminate]. intros H; injection H as <-. unfold same_box. cbn [tb cnt]. rewrite set_nth_len. repeat split; reflexivity.
  - unfold put_cell. destruct (a_elems (arr (tb s))) as [cs|] eqn:Ec; [|discriminate]. destruct (nth_error cs i) eqn:Ei; [|discriminate]. intros H; injection H as <-.
    unfold same_box. cbn [tb cnt set_arr arr hid pid aid a_owner a_gsi a_mask a_groups a_elems]. rewrite Ec. cbn [option_map]. rewrite set_nth_len. repeat split; reflexivity.
Qed.
Lemma group_byte (s : Sh) g b m x g' n' ge gm el ow cn : nth_error (a_groups (arr (tb s))) g = Some b -> ~ (g = g' /\ m = n') ->
  byte (MkSh (set_arr (tb s) (Arr ge gm (set_nth (a_groups (arr (tb s))) g (upd b m x)) el ow)) cn) g' n' = byte s g' n'.
Proof.
  intros H N. unfold byte. cbn [tb set_arr arr a_groups]. assert (g < length (a_groups (arr (tb s))))%nat as Lg by (apply nth_error_Some; congruence).
  rewrite nth_set by exact Lg. destruct (Nat.eqb_spec g' g) as [->|]; [|reflexivity]. rewrite (nth_error_nth _ _ _ H).
  rewrite upd_set_nth. destruct (Nat.lt_ge_cases m (length b)) as [L|L].
  - rewrite nth_set by exact L. destruct (Nat.eqb_spec n' m) as [->|]; [destruct N; auto|reflexivity].
  - unfold GroupSpec.set_nth. rewrite firstn_all2, skipn_all2, app_nil_r by lia. reflexivity.
Qed.
Lemma apply_byte e (s s' : Sh) g n : apply e s = Some s' -> ~ ehits e (VByte g n) -> byte s' g n = byte s g n.
Proof.
  destruct e; cbn [apply ehits]; intros E N.
  - injection E as <-; reflexivity.
  - injection E as <-; reflexivity.
  - destruct (sz (tb s) =? 0); [discriminate|]. injection E as <-; reflexivity.
  - destruct b; [destruct (ml (tb s) =? 0); [discriminate|]|]; injection E as <-; reflexivity.
  - apply on_groups_inv in E as (b & cs & _ & E & ->). apply group_byte; [exact E|exact N].
  - apply on_groups_inv in E as (b & cs & _ & E & ->). apply group_byte; [exact E|exact N].
  - apply on_groups_inv in E as (b & cs & _ & E & ->). apply group_byte; [exact E|]. intros [-> <-]. apply N. auto.
  - destruct (nth_error (cnt s) g0) as [x|] eqn:E1; [|discriminate]. injection E as <-. reflexivity.
  - unfold put_cell in E. destruct (a_elems (arr (tb s))) as [cs|] eqn:Ec; [|discriminate]. destruct (nth_error cs i) eqn:Ei; [|discriminate]. injection E as <-. reflexivity.
Qed.
Lemma apply_cell e (s s' : Sh) i : apply e s = Some s' -> ~ ehits e (VCell i) -> get_cell (arr (tb s')) i = get_cell (arr (tb s)) i.
Proof.
  destruct e; cbn [apply ehits]; intros E N.
  - injection E as <-; reflexivity.
  - injection E as <-; reflexivity.
  - destruct (sz (tb s) =? 0); [discriminate|]. injection E as <-; reflexivity.
  - destruct b; [destruct (ml (tb s) =? 0); [discriminate|]|]; injection E as <-; reflexivity.
  - apply on_groups_inv in E as (b & cs & _ & E & ->). reflexivity.
  - apply on_groups_inv in E as (b & cs & _ & E & ->). reflexivity.
  - apply on_groups_inv in E as (b & cs & _ & E & ->). reflexivity.
  - destruct (nth_error (cnt s) g) as [x|] eqn:E1; [|discriminate]. injection E as <-. reflexivity.
  - unfold put_cell in E. destruct (a_elems (arr (tb s))) as [cs|] eqn:Ec; [|discriminate]. destruct (nth_error cs i0) eqn:Ei; [|discriminate]. injection E as <-.
    unfold get_cell. cbn [tb set_arr arr a_elems]. rewrite Ec. rewrite set_nth_err by (apply nth_error_Some; congruence).
    destruct (Nat.eqb_spec i i0) as [->|]; [destruct N; reflexivity|reflexivity].
Qed.
(** insertion counters *)
Lemma apply_cnt e (s s' : Sh) g : apply e s = Some s' ->
  nth_error (cnt s') g = match e with ECnt g' => if Nat.eqb g g' then option_map (fun n => n + 1) (nth_error (cnt s) g) else nth_error (cnt s) g | _ => nth_error (cnt s) g end.
Proof.
  destruct e; cbn [apply]; intros E.
  - injection E as <-; reflexivity.
  - injection E as <-; reflexivity.
  - destruct (sz (tb s) =? 0); [discriminate|]. injection E as <-; reflexivity.
  - destruct b; [destruct (ml (tb s) =? 0); [discriminate|]|]; injection E as <-; reflexivity.
  - apply on_groups_inv in E as (b & cs & _ & E & ->). reflexivity.
  - apply on_groups_inv in E as (b & cs & _ & E & ->). reflexivity.
  - apply on_groups_inv in E as (b & cs & _ & E & ->). reflexivity.
  - destruct (nth_error (cnt s) g0) as [x|] eqn:E1; [|discriminate]. injection E as <-. cbn [cnt]. rewrite set_nth_err by (apply nth_error_Some; congruence).
    destruct (Nat.eqb_spec g g0) as [->|]; [rewrite E1|]; reflexivity.
  - unfold put_cell in E. destruct (a_elems (arr (tb s))) as [cs|] eqn:Ec; [|discriminate]. destruct (nth_error cs i) eqn:Ei; [|discriminate]. injection E as <-. reflexivity.
Qed.
(** overflow bits are not cleared *)
Lemma apply_ovf e (s s' : Sh) g j : apply e s = Some s' -> (forall g n, (exists h, e = ESet g n h) \/ e = EReset g n -> (n < 15)%nat) ->
  N.testbit (ovf (A s) g) j = true -> N.testbit (ovf (A s') g) j = true.
Proof.
  intros E Hn Ht. destruct e as [| | |b|g0 n h|g0 n|g0 h|g0|i x].
  7:{ cbn [apply] in E. apply on_groups_inv in E as (b & cs & _ & E & ->). unfold ovf, grp, A in *. cbn [tb set_arr arr a_groups].
      assert (g0 < length (a_groups (arr (tb s))))%nat as Lg by (apply nth_error_Some; congruence).
      rewrite nth_set by exact Lg. destruct (Nat.eqb_spec g g0) as [->|]; [|exact Ht]. rewrite (nth_error_nth _ _ _ E) in Ht. unfold b_mark_overflow. rewrite upd_set_nth.
      destruct (Nat.lt_ge_cases 15 (length b)) as [L|L].
      - rewrite nth_set by exact L. cbn [Nat.eqb]. rewrite N.lor_spec, Ht. reflexivity.
      - rewrite nth_overflow in Ht by exact L. rewrite N.bits_0 in Ht. discriminate. }
  all: change (ovf (A s') g) with (byte s' g 15); change (ovf (A s) g) with (byte s g 15) in Ht.
  all: erewrite apply_byte; [exact Ht|exact E|]; cbn [ehits].
  1-4, 7-8: intros [].
  - intros [-> ->]. specialize (Hn g 15%nat (or_introl (ex_intro _ _ eq_refl))). lia.
  - intros [-> ->]. specialize (Hn g 15%nat (or_intror eq_refl)). lia.
Qed.
Lemma apply_mark g h (s s' : Sh) : apply (EMark g h) s = Some s' -> length (grp (A s) g) = 16%nat -> marked s' h g.
Proof.
  cbn [apply]. intros E L. apply on_groups_inv in E as (b & cs & _ & E & ->). unfold marked, ovf, grp, A in *. cbn [tb set_arr arr a_groups].
  assert (g < length (a_groups (arr (tb s))))%nat as Lg by (apply nth_error_Some; congruence). rewrite (nth_error_nth _ _ _ E) in L.
  rewrite nth_set by exact Lg. rewrite Nat.eqb_refl. unfold b_mark_overflow. rewrite upd_set_nth, nth_set by lia. cbn [Nat.eqb].
  rewrite N.lor_spec. assert (h mod 8 < 8) as L8 by (apply N.mod_lt; discriminate). rewrite (N.mod_small (N.shiftl 1 (h mod 8)) 256).
  - rewrite N.shiftl_1_l, N.pow2_bits_true. apply orb_true_r.
  - rewrite N.shiftl_1_l. change 256 with (2 ^ 8). apply N.pow_lt_mono_r; [reflexivity|exact L8].
Qed.

(** *** steps *)
Definition lock_step (free : nat -> bool -> bool) (o : cop) (l l' : loc) : Prop :=
  lock_of o l' = lock_of o l \/ lock_of o l' = None \/ (lock_of o l = None /\ exists g x, lock_of o l' = Some (g, x) /\ free g x = true).
Definition eff_step (o : cop) (l : loc) (e : eff) (l' : loc) : Prop :=
  match e with
  | ESet g n h => exists x, l = LAvail x /\ l' = LCnt x n /\ g = x_g x
  | EReset g n => lock_of o l = Some (g, true) /\ infl l = Some (slot_index g n) /\ ((exists kt, l = LReset g n kt) \/ exists q, l = LUndo g n q)
  | EMark g h => exists x, l = LAvail x /\ l' = LSkip x /\ g = x_g x /\ h = x_h x
  | ECnt g => (exists x n, l = LCnt x n) /\ ectx l' = None
  | ECell i z => exists g n, i = slot_index g n /\ lock_of o l = Some (g, true) /\
      ((exists x, l = LCall x n /\ x_g x = g) \/ (exists x, l = LCons x n /\ x_g x = g) \/ (exists ms acc, l = BElem g (n :: ms) acc))
  | _ => True
  end.
Definition ctx_step (o : cop) (l l' : loc) : Prop := forall x', ectx l' = Some x' ->
  (exists x, ectx l = Some x /\ x_cg x' = x_cg x /\ x_h x' = x_h x) \/ (exists h, l = LCount h) \/ (exists p, o = Point p /\ emplaces p = false).
Record Shp (free : nat -> bool -> bool) (o : cop) (l : loc) (e : eff) (l' : loc) : Prop := {
  sp_lock : lock_step free o l l';
  sp_out : outside l = true -> e = ENone /\ outside l' = false /\ lock_of o l' = None;
  sp_cons : forall x n, l' = LCons x n -> l = LCnt x n /\ exists g, e = ECnt g;
  sp_eff : eff_step o l e l';
  sp_ctx : ctx_step o l l' }.
Ltac shp := constructor; [first [left; reflexivity|left; cbn [lock_of mode]; congruence|right; left; reflexivity|right; right; split; [reflexivity|eexists _, _; split; [reflexivity|eassumption]]]
  |cbn; try discriminate; auto|intros; try discriminate|cbn [eff_step]; try exact I; eauto 10
  |unfold ctx_step; cbn [ectx]; intros ? E; try discriminate; try (injection E as <-; left; eexists; split; [reflexivity|split; reflexivity]); try (right; left; eexists; reflexivity)].
Lemma lstep_shp free (z : Sh) o l i thr e l' a : lstep c free z o l i thr = Step e l' a -> wf o l -> Shp free o l e l'.
Proof.
  intros Hs W. destruct o as [p|x md f|]; cbn [lstep] in Hs.
  - destruct l; cbn [pstep wf] in Hs, W; try contradiction; unfold go in Hs.
    + injection Hs as <- <- <-. shp.
    + destruct thr; [injection Hs as <- <- <-; shp|]. destruct p as [xx kk ff|kk ff|xx kk vv f1 f2]; injection Hs as <- <- <-; shp.
      * right. right. exists (PVisit xx kk ff). auto.
      * right. right. exists (PErase kk ff). auto.
    + destruct (nth_error _ _); [|discriminate]. injection Hs as <- <- <-; shp.
    + destruct (thr && gives_up p); [injection Hs as <- <- <-; shp|]. destruct u; [destruct m; injection Hs as <- <- <-; shp|].
      destruct (memb i _); [|discriminate]. destruct (get_group _ _); [|discriminate]. injection Hs as <- <- <-; shp.
    + destruct (free (x_g x) (exclusive p)) eqn:Ef; [|discriminate]. injection Hs as <- <- <-; shp.
    + destruct m; [injection Hs as <- <- <-; shp|]. destruct (get_group _ _); [|discriminate]. destruct (b_is_occupied _ _); injection Hs as <- <- <-; shp.
    + destruct (get_cell _ _) as [[| |e0]|]; try discriminate. destruct thr; [injection Hs as <- <- <-; shp|]. destruct (keqf c _ _ _); injection Hs as <- <- <-; shp.
    + destruct (get_cell _ _) as [[| |e0]|]; try discriminate. unfold visit_slot in Hs. destruct p as [xx kk ff|kk ff|xx kk vv f1 f2].
      * destruct (ff e0) as [v b]. destruct xx, b; injection Hs as <- <- <-; shp.
      * destruct (ff e0) as [v [[|]|]]; injection Hs as <- <- <-; shp.
      * destruct (f2 e0) as [v b]. destruct xx, b; injection Hs as <- <- <-; shp.
    + destruct (get_group _ _); [|discriminate]. injection Hs as <- <- <-; shp.
    + injection Hs as <- <- <-; shp.
    + destruct kt; [|discriminate]. injection Hs as <- <- <-; shp.
    + destruct (get_group _ _); [|discriminate]. unfold not_found, go in Hs.
      destruct (b_is_not_overflowed _ _); [destruct p; injection Hs as <- <- <-; shp|]. destruct (pb_next _ _) as [pb [|]]; [injection Hs as <- <- <-; shp|].
      destruct p; injection Hs as <- <- <-; shp.
    + injection Hs as <- <- <-; shp.
    + destruct (_ <=? _); injection Hs as <- <- <-; shp.
    + destruct (free (x_g x) true) eqn:Ef; [|discriminate]. injection Hs as <- <- <-; shp.
    + destruct (get_group _ _); [|discriminate]. destruct (negb _); injection Hs as <- <- <-; shp.
    + injection Hs as <- <- <-; shp.
    + destruct (nth_error _ _); [|discriminate]. destruct (negb _); injection Hs as <- <- <-; shp.
      injection H as -> ->. eauto.
    + destruct p as [xx kk ff|kk ff|xx kk vv f1 f2]; try discriminate. destruct (get_cell _ _) as [[| |e0]|]; try discriminate.
      destruct thr; [injection Hs as <- <- <-; shp|]. destruct (f1 _) as [v' b]. injection Hs as <- <- <-; shp.
    + injection Hs as <- <- <-; shp.
    + injection Hs as <- <- <-; shp.
    + destruct q; injection Hs as <- <- <-; shp.
    + injection Hs as <- <- <-; shp.
    + discriminate.
    + injection Hs as <- <- <-; shp.
    + injection Hs as <- <- <-; shp.
    + discriminate.
  - destruct l; cbn [bstep wf] in Hs, W; try contradiction; unfold go in Hs.
    + injection Hs as <- <- <-. shp.
    + destruct (get_group _ _); [|discriminate]. injection Hs as <- <- <-; shp.
    + injection Hs as <- <- <-; shp.
    + destruct kt as [|ms acc]; [discriminate|]. injection Hs as <- <- <-. destruct W as [-> W]. shp.
    + destruct (a_elems _); [|injection Hs as <- <- <-; shp]. destruct (Nat.eqb _ _); [injection Hs as <- <- <-; shp|].
      destruct (free g (writes x md)) eqn:Ef; [|discriminate]. injection Hs as <- <- <-; shp.
    + destruct (get_group _ _); [|discriminate]. set (ms := mask_loop 16 _) in Hs. clearbody ms. injection Hs as <- <- <-; shp.
    + destruct ms as [|n ms]; [injection Hs as <- <- <-; shp|]. destruct (get_cell _ _) as [[| |e0]|]; try discriminate. destruct (f (length acc) e0) as [v ob].
      destruct (erases md ob) eqn:Ee.
      * assert (md = BErase) as -> by (destruct md; [discriminate..|reflexivity]). injection Hs as <- <- <-. shp.
      * destruct (writes x md) eqn:Ew, ob as [b|]; try destruct (goes_on md _); injection Hs as <- <- <-; shp.
        all: exists g, n; split; [reflexivity|]; split; [cbn [lock_of mode]; congruence|]; right; right; eauto.
    + injection Hs as <- <- <-; shp.
    + injection Hs as <- <- <-; shp.
    + discriminate.
  - destruct l; cbn [sstep wf] in Hs, W; try contradiction; unfold go in Hs; try discriminate; injection Hs as <- <- <-; shp.
Qed.
End WEff.
