(** Pointer stability follows from the specifications: lemmas for C56. *)
From Coq Require Import NArith ZArith Bool List Arith Lia Permutation.
From Verif Require Import FoaModel FoaSpec NodeSpec FcaSpec PtrSpec.
Import ListNotations.

Lemma fset_err {A} (w : list A) i x j : (i < length w)%nat -> nth_error (FcaSpec.set w i x) j = if Nat.eqb j i then Some x else nth_error w j.
Proof.
  intros L. unfold FcaSpec.set. destruct (Nat.eqb_spec j i) as [->|N].
  - rewrite nth_error_app2 by (rewrite firstn_length; lia). rewrite firstn_length, Nat.min_l, Nat.sub_diag by lia. reflexivity.
  - destruct (Nat.lt_ge_cases j i) as [Lt|Ge].
    + rewrite nth_error_app1 by (rewrite firstn_length; lia). revert w i L N Lt. induction j as [|j IH]; intros [|a w] [|i] L N Lt; cbn in *; try lia; [reflexivity|]. apply IH; lia.
    + rewrite nth_error_app2 by (rewrite firstn_length; lia). rewrite firstn_length, Nat.min_l by lia. destruct (j - i)%nat as [|d] eqn:E; [lia|]. cbn [nth_error].
      replace j with (S i + d)%nat by lia. generalize (S i). clear. intros m. revert w d. induction m as [|m IH]; intros w d; [reflexivity|]. destruct w as [|a w]; [cbn; destruct d; reflexivity|]. cbn. apply IH.
Qed.
Lemma fset_len {A} (w : list A) i x : (i < length w)%nat -> length (FcaSpec.set w i x) = length w.
Proof. intros L. unfold FcaSpec.set. rewrite app_length, firstn_length. cbn [length]. rewrite skipn_length. lia. Qed.
Lemma err_lt {A} (w : list A) i x : nth_error w i = Some x -> (i < length w)%nat.
Proof. intros H. apply nth_error_Some. congruence. Qed.

Section Closed.
Context {K V : Type}.
Variables (eq : N -> K -> K -> bool) (multi : bool) (leftover : K * V -> K * V) (pocca pocma : bool).
Notation elem := (nat * (K * V))%type.
Notation world := (FcaSpec.world K V).
Lemma put_at (w : world) i v j v' : is_at w i v -> is_at (put w i v') j = is_at (put w i v') j /\ (is_at (put w i v') i v') /\ (j <> i -> forall x, is_at w j x -> is_at (put w i v') j x).
Proof.
  intros H. pose proof (err_lt _ _ _ H) as L. split; [reflexivity|]. unfold is_at, put. cbn [containers]. split; [rewrite fset_err, Nat.eqb_refl by exact L; reflexivity|].
  intros N x Hx. rewrite fset_err by exact L. destruct (Nat.eqb_spec j i); [contradiction|exact Hx].
Qed.
Lemma put_self (w : world) i v v' : is_at w i v -> is_at (put w i v') i v'.
Proof. intros H. exact (proj1 (proj2 (put_at w i v i v' H))). Qed.
Lemma put_other (w : world) i v v' j x : is_at w i v -> j <> i -> is_at w j x -> is_at (put w i v') j x.
Proof. intros H N Hx. exact (proj2 (proj2 (put_at w i v j v' H)) N x Hx). Qed.
Lemma new_other (w : world) v j x : is_at w j x -> is_at (new w v) j x.
Proof. intros H. unfold is_at, new in *. cbn [containers]. rewrite nth_error_app1; [exact H|exact (err_lt _ _ _ H)]. Qed.
Lemma new_self (w : world) v : is_at (new w v) (length (containers w)) v.
Proof. unfold is_at, new. cbn [containers]. rewrite nth_error_app2, Nat.sub_diag by lia. reflexivity. Qed.
Lemma put_length (w : world) i v v' : is_at w i v -> length (containers (put w i v')) = length (containers w).
Proof. intros H. unfold put. cbn [containers]. apply fset_len. exact (err_lt _ _ _ H). Qed.
Lemma is_at_fun (w : world) i v v' : is_at w i v -> is_at w i v' -> v' = v.
Proof. unfold is_at. congruence. Qed.
Lemma mid_keeps {A} (l1 l2 : list A) y x : In x (l1 ++ y :: l2) -> x <> y -> In x (l1 ++ l2).
Proof. intros H N. apply in_app_iff in H as [H|[H|H]]; [apply in_app_iff; auto|congruence|apply in_app_iff; auto]. Qed.
Lemma range_keeps {A} (l : list A) m m2 x : In x l -> (forall k, (m <= k < m2)%nat -> nth_error l k <> Some x) -> In x (firstn m l ++ skipn m2 l).
Proof.
  intros H N. apply In_nth_error in H as [k Hk]. apply in_app_iff. destruct (Nat.lt_ge_cases k m) as [L|G].
  - left. rewrite <- (firstn_skipn m l) in Hk. rewrite nth_error_app1 in Hk; [eapply nth_error_In; exact Hk|]. rewrite firstn_length.
    assert (k < length l)%nat by (rewrite firstn_skipn in Hk; exact (err_lt _ _ _ Hk)). lia.
  - destruct (Nat.lt_ge_cases k m2) as [L|G2]; [destruct (N k (conj G L) Hk)|]. right.
    rewrite <- (firstn_skipn m2 l) in Hk. destruct (Nat.lt_ge_cases k (length (firstn m2 l))) as [L|G3]; [rewrite firstn_length in L; lia|].
    rewrite nth_error_app2 in Hk by exact G3. eapply nth_error_In; exact Hk.
Qed.
Lemma fca_one (p : N) o (l : list elem) r l' x : FcaSpec.spec1 eq multi p o l (FcaSpec.Done r) l' -> In x l ->
  ~ match o with
      | FcaSpec.AssignList _ | FcaSpec.Clear => True
      | FcaSpec.EraseKey k => eq p k (fst (snd x)) = true
      | FcaSpec.EraseNth m => nth_error l m = Some x
      | FcaSpec.EraseRange m m2 => exists k, (m <= k < m2)%nat /\ nth_error l k = Some x
      | FcaSpec.EraseIf pr => pr (snd x) = true
      | _ => False
      end ->
  exists x', In x' l' /\ fst x' = fst x /\
    match o with FcaSpec.InsertOrAssign k v => if eq p k (fst (snd x)) then fst (snd x') = fst (snd x) /\ (snd (snd x') = v \/ x' = x) else x' = x | _ => x' = x end.
Proof.
  assert (forall P : elem -> Prop, In x l' -> P x -> exists x', In x' l' /\ P x') as Stay by eauto.
  assert (forall e y b, FcaSpec.inserted eq multi p e l y b l' -> In x l -> In x l') as Ins.
  { intros e y b H Hx. unfold FcaSpec.inserted in H. destruct (if multi then None else FcaSpec.lookup eq p (fst e) l).
    - destruct H as (_ & _ & ->). exact Hx.
    - destruct H as (_ & _ & _ & P). apply (Permutation_in x (Permutation_sym P)). right. exact Hx. }
  intros S Hx N. destruct o; cbn [FcaSpec.spec1] in S; try (destruct r; try contradiction).
  - exists x. split; [|auto]. eapply Ins; eauto.
  - destruct o; [|contradiction]. destruct S as [[b S] _]. exists x. split; [|auto]. eapply Ins; eauto.
  - destruct S as (xs & _ & _ & P). exists x. split; [|auto]. apply (Permutation_in x (Permutation_sym P)), in_app_iff. auto.
  - destruct (FcaSpec.lookup eq p k l) as [y|] eqn:E.
    + destruct S as (l1 & l2 & -> & -> & -> & ->). apply find_some in E as [_ E]. unfold FcaSpec.has, FcaSpec.key in E.
      apply in_app_iff in Hx as [Hx|[->|Hx]].
      * exists x. split; [apply in_app_iff; auto|]. split; [reflexivity|]. destruct (eq p k (fst (snd x))); auto.
      * exists (fst x, (FcaSpec.key x, v)). split; [apply in_app_iff; right; left; reflexivity|]. split; [reflexivity|]. rewrite E. cbn. auto.
      * exists x. split; [apply in_app_iff; right; right; exact Hx|]. split; [reflexivity|]. destruct (eq p k (fst (snd x))); auto.
    + exists x. split; [eapply Ins; eauto|]. split; [reflexivity|]. destruct (eq p k (fst (snd x))); auto.
  - destruct (FcaSpec.lookup eq p k l) as [y|].
    + destruct S as [_ ->]. eauto.
    + destruct S as (_ & y & S). exists x. split; [eapply Ins; eauto|auto].
  - destruct S as [_ ->]. eauto.
  - destruct S as [_ ->]. eauto.
  - destruct S as [_ ->]. eauto.
  - destruct S as [_ ->]. eauto.
  - destruct S as [_ [-> _]]. eauto.
  - destruct S as [_ ->]. exists x. split; [|auto]. apply filter_In. split; [exact Hx|]. unfold FcaSpec.has, FcaSpec.key. destruct (eq p k (fst (snd x))); [destruct (N eq_refl)|reflexivity].
  - destruct S as (l1 & l2 & Lm & -> & -> & _). exists x. split; [|auto]. eapply mid_keeps; [exact Hx|]. intros ->. apply N. rewrite <- Lm, nth_error_app2, Nat.sub_diag by lia. reflexivity.
  - subst l'. exists x. split; [|auto]. apply range_keeps; [exact Hx|]. intros k Lk Ek. apply N. eauto.
  - destruct S as [_ ->]. exists x. split; [|auto]. apply filter_In. split; [exact Hx|]. destruct (pr (snd x)); [destruct (N eq_refl)|reflexivity].
  - exists x. split; [|auto]. apply (Permutation_in x (Permutation_sym S)), Hx.
  - exists x. split; [|auto]. apply (Permutation_in x (Permutation_sym S)), Hx.
  - subst l'. eauto.
  - destruct S as [_ ->]. eauto.
  - destruct S as [_ ->]. eauto.
Qed.
Definition alloc_of (w : world) (j : nat) : N := match nth_error (containers w) j with Some (Some v) => FcaSpec.v_alloc v | _ => 0%N end.
Lemma alloc_at (w : world) j v : is_at w j v -> alloc_of w j = FcaSpec.v_alloc v.
Proof. unfold is_at, alloc_of. intros ->. reflexivity. Qed.
Notation spec := (FcaSpec.spec eq multi leftover pocca pocma).
Lemma fca_stable (w w' : world) o r i v x : (forall a b, o = FcaSpec.Merge a b -> a <> b) -> spec w o (FcaSpec.Done r) w' -> is_at w i v -> In x (FcaSpec.v_elems v) ->
  ~ fca_ends (eq (FcaSpec.v_pred v)) pocma (alloc_of w) o i (FcaSpec.v_elems v) x ->
  exists i' v' x', In i' (fca_goes (length (containers w)) o i) /\ is_at w' i' v' /\ In x' (FcaSpec.v_elems v') /\ fca_same (eq (FcaSpec.v_pred v)) o i x x'.
Proof.
  assert (forall v' x' i' o, In i' (fca_goes (length (containers w)) o i) -> is_at w' i' v' -> In x' (FcaSpec.v_elems v') -> fca_same (eq (FcaSpec.v_pred v)) o i x x' ->
    exists i' v' x', In i' (fca_goes (length (containers w)) o i) /\ is_at w' i' v' /\ In x' (FcaSpec.v_elems v') /\ fca_same (eq (FcaSpec.v_pred v)) o i x x') as Go by eauto 8.
  assert (is_at w i v -> is_at w' i v -> In x (FcaSpec.v_elems v) -> forall o, In i (fca_goes (length (containers w)) o i) -> match o with FcaSpec.On j (FcaSpec.InsertOrAssign _ _) => i <> j | _ => True end ->
    exists i' v' x', In i' (fca_goes (length (containers w)) o i) /\ is_at w' i' v' /\ In x' (FcaSpec.v_elems v') /\ fca_same (eq (FcaSpec.v_pred v)) o i x x') as Same.
  { intros H H' Hx o' Hi Hn. exists i, v, x. split; [exact Hi|]. split; [exact H'|]. split; [exact Hx|]. split; [reflexivity|]. destruct o'; try reflexivity. destruct o0; try reflexivity.
    apply Nat.eqb_neq in Hn. rewrite Hn. reflexivity. }
  intros Nm S Hi Hx N. destruct o as [j o|h p al n|j al|j|j al|j|a b|a b|a b|a b|a b eeq|j k|j m|h e|j h hint|h]; cbn [FcaSpec.spec] in S; cbn [fca_ends] in N.
  - destruct S as (v0 & l' & H0 & S & ->). destruct (Nat.eq_dec i j) as [->|Nij].
    + pose proof (is_at_fun _ _ _ _ Hi H0) as ->. destruct (fca_one _ _ _ _ _ x S Hx) as (x' & Hx' & Ha & Hv); [intros Q; apply N; split; [reflexivity|exact Q]|].
      exists j, (with_elems v l'), x'. split; [left; reflexivity|]. split; [eapply put_self; exact Hi|]. split; [exact Hx'|]. split; [exact Ha|]. destruct o; try exact Hv. rewrite Nat.eqb_refl. exact Hv.
    + apply Same; try assumption; [eapply put_other; eassumption|left; reflexivity|]. destruct o; auto.
  - apply Same; try assumption; [|left; reflexivity|exact Logic.I]. destruct r; try contradiction. subst w'. apply new_other, Hi.
  - apply Same; try assumption; [|left; reflexivity|exact Logic.I]. destruct S as (y & _ & S). destruct r; try contradiction. destruct S as (l & _ & ->). apply new_other, Hi.
  - destruct S as (y & Hy & _ & ->). destruct (Nat.eq_dec i j) as [->|Nij].
    + pose proof (is_at_fun _ _ _ _ Hi Hy) as ->. exists (length (containers w)), v, x. cbn [fca_goes]. rewrite Nat.eqb_refl. split; [left; reflexivity|].
      split; [|split; [exact Hx|split; reflexivity]]. rewrite <- (put_length w j v (with_elems v [])) by exact Hi. apply new_self.
    + apply Same; try assumption; [apply new_other; eapply put_other; eassumption| |exact Logic.I]. cbn [fca_goes]. apply Nat.eqb_neq in Nij. rewrite Nij. left. reflexivity.
  - destruct S as (y & Hy & S). destruct r; try contradiction. destruct (Nat.eq_dec i j) as [->|Nij].
    + pose proof (is_at_fun _ _ _ _ Hi Hy) as ->. destruct S as [[-> ->]|[Ne _]].
      * exists (length (containers w)), v, x. cbn [fca_goes]. rewrite Nat.eqb_refl. split; [left; reflexivity|].
        split; [|split; [exact Hx|split; reflexivity]]. rewrite <- (put_length w j v (with_elems v [])) by exact Hi. apply new_self.
      * destruct N. split; [reflexivity|]. rewrite (alloc_at _ _ _ Hi). exact Ne.
    + apply Same; try assumption; [| |exact Logic.I].
      * destruct S as [[-> ->]|(_ & l & _ & ->)]; apply new_other; eapply put_other; eassumption.
      * cbn [fca_goes]. apply Nat.eqb_neq in Nij. rewrite Nij. left. reflexivity.
  - destruct S as (y & Hy & _ & ->). apply Same; try assumption; [|left; reflexivity|exact Logic.I]. unfold is_at. cbn [containers]. rewrite fset_err by exact (err_lt _ _ _ Hy).
    destruct (Nat.eqb_spec i j); [contradiction|exact Hi].
  - destruct S as (t & y & Ht & Hy & S). destruct r; try contradiction. destruct S as (l & _ & ->). apply Same; try assumption; [eapply put_other; eassumption|left; reflexivity|exact Logic.I].
  - destruct S as (t & y & Ht & Hy & S). cbv zeta in S. destruct r; try contradiction. destruct (Nat.eq_dec i b) as [->|Nib].
    + pose proof (is_at_fun _ _ _ _ Hi Hy) as ->. destruct S as [[St ->]|[St _]].
      * assert (a <> b) as Nab by (intros ->; apply N; left; reflexivity).
        eexists a, _, x. cbn [fca_goes]. rewrite Nat.eqb_refl. split; [left; reflexivity|]. split; [|split; [|split; reflexivity]].
        -- eapply put_other; [eapply put_other; [exact Ht|auto|exact Hi]|exact Nab|eapply put_self; exact Ht].
        -- exact Hx.
      * destruct N. right. apply orb_false_iff in St as [-> St]. apply N.eqb_neq in St. rewrite (alloc_at _ _ _ Ht), (alloc_at _ _ _ Hi). auto.
    + assert (i <> a) as Nia by (intros ->; apply N; left; reflexivity). apply Same; try assumption; [| |exact Logic.I].
      * destruct S as [[_ ->]|(_ & l & _ & ->)].
        -- destruct (Nat.eq_dec a b) as [->|Nab]; [eapply put_other; [eapply put_self; exact Ht|exact Nib|]|eapply put_other; [eapply put_other; [exact Ht|auto|exact Hy]|exact Nib|]]; eapply put_other; eassumption.
        -- destruct (Nat.eq_dec a b) as [->|Nab]; [eapply put_other; [eapply put_self; exact Ht|exact Nib|]|eapply put_other; [eapply put_other; [exact Ht|auto|exact Hy]|exact Nib|]]; eapply put_other; eassumption.
      * cbn [fca_goes]. apply Nat.eqb_neq in Nib. rewrite Nib. left. reflexivity.
  - destruct S as (t & y & Ht & Hy & _ & ->). assert (forall z, is_at (put w a z) b (if Nat.eqb b a then z else y)) as Hb.
    { intros z. destruct (Nat.eqb_spec b a) as [->|Ne]; [eapply put_self; exact Ht|eapply put_other; eassumption]. }
    destruct (Nat.eq_dec i a) as [->|Nia]; [|destruct (Nat.eq_dec i b) as [->|Nib]].
    + pose proof (is_at_fun _ _ _ _ Hi Ht) as ->. exists b, v, x. cbn [fca_goes]. rewrite Nat.eqb_refl. split; [left; reflexivity|]. split; [eapply put_self; apply Hb|]. split; [exact Hx|split; reflexivity].
    + pose proof (is_at_fun _ _ _ _ Hi Hy) as ->. exists a, v, x. cbn [fca_goes]. rewrite Nat.eqb_refl. apply Nat.eqb_neq in Nia as Nia'. rewrite Nia'. split; [left; reflexivity|].
      split; [|split; [exact Hx|split; reflexivity]]. eapply put_other; [apply Hb|auto|eapply put_self; exact Ht].
    + apply Same; try assumption; [eapply put_other; [apply Hb|exact Nib|eapply put_other; eassumption]| |exact Logic.I]. cbn [fca_goes]. apply Nat.eqb_neq in Nia, Nib. rewrite Nia, Nib. left. reflexivity.
  - destruct S as (t & y & l & lx & Ht & Hy & -> & S). destruct r; try contradiction. destruct S as (moved & P1 & P2 & _).
    assert (forall z, is_at (put w a z) b (if Nat.eqb b a then z else y)) as Hb.
    { intros z. destruct (Nat.eqb_spec b a) as [->|Ne]; [eapply put_self; exact Ht|eapply put_other; eassumption]. }
    destruct (Nat.eq_dec i b) as [->|Nib]; [|destruct (Nat.eq_dec i a) as [->|Nia]].
    + pose proof (is_at_fun _ _ _ _ Hi Hy) as ->. cbn [fca_goes]. rewrite Nat.eqb_refl. apply (Permutation_in x P1) in Hx. apply in_app_iff in Hx as [Hx|Hx].
      * assert (a <> b) as Nab by (apply Nm; reflexivity).
        exists a, (with_elems t l), x. split; [left; reflexivity|]. split; [eapply put_other; [apply Hb|exact Nab|eapply put_self; exact Ht]|]. split; [|split; reflexivity].
           cbn [with_elems FcaSpec.v_elems]. apply (Permutation_in x (Permutation_sym P2)), in_app_iff. auto.
      * exists b, (with_elems v lx), x. split; [right; left; reflexivity|]. split; [eapply put_self; apply Hb|]. split; [exact Hx|split; reflexivity].
    + pose proof (is_at_fun _ _ _ _ Hi Ht) as ->. exists a, (with_elems v l), x. cbn [fca_goes]. apply Nat.eqb_neq in Nib as Nib'. rewrite Nib'. split; [left; reflexivity|].
      split; [eapply put_other; [apply Hb|exact Nib|eapply put_self; exact Ht]|]. split; [|split; reflexivity]. cbn [with_elems FcaSpec.v_elems]. apply (Permutation_in x (Permutation_sym P2)), in_app_iff. auto.
    + apply Same; try assumption; [eapply put_other; [apply Hb|exact Nib|eapply put_other; eassumption]| |exact Logic.I]. cbn [fca_goes]. apply Nat.eqb_neq in Nib. rewrite Nib. left. reflexivity.
  - destruct S as (y & z & _ & _ & -> & _). apply Same; try assumption; [left; reflexivity|exact Logic.I].
  - destruct S as (v0 & H0 & S). destruct r; try contradiction. destruct S as [Eo S]. destruct o as [y|].
    + destruct S as (l1 & l2 & El & ->). destruct (Nat.eq_dec i j) as [->|Nij].
      * pose proof (is_at_fun _ _ _ _ Hi H0) as ->. symmetry in Eo. apply find_some in Eo as [_ Ek]. exists j, (with_elems v (l1 ++ l2)), x. split; [left; reflexivity|].
        split; [unfold is_at; cbn [containers]; rewrite fset_err, Nat.eqb_refl by exact (err_lt _ _ _ Hi); reflexivity|]. split; [|split; reflexivity]. rewrite El in Hx. eapply mid_keeps; [exact Hx|].
        intros ->. apply N. auto.
      * apply Same; try assumption; [|left; reflexivity|exact Logic.I]. unfold is_at. cbn [containers]. rewrite fset_err by exact (err_lt _ _ _ H0). destruct (Nat.eqb_spec i j); [contradiction|exact Hi].
    + subst w'. apply Same; try assumption; [left; reflexivity|exact Logic.I].
  - destruct S as (v0 & y & l1 & l2 & H0 & _ & Lm & El & ->). destruct (Nat.eq_dec i j) as [->|Nij].
    + pose proof (is_at_fun _ _ _ _ Hi H0) as ->. exists j, (with_elems v (l1 ++ l2)), x. split; [left; reflexivity|].
      split; [unfold is_at; cbn [containers]; rewrite fset_err, Nat.eqb_refl by exact (err_lt _ _ _ Hi); reflexivity|]. split; [|split; reflexivity]. rewrite El in Hx. eapply mid_keeps; [exact Hx|].
      intros ->. apply N. split; [reflexivity|]. rewrite El, <- Lm, nth_error_app2, Nat.sub_diag by lia. reflexivity.
    + apply Same; try assumption; [|left; reflexivity|exact Logic.I]. unfold is_at. cbn [containers]. rewrite fset_err by exact (err_lt _ _ _ H0). destruct (Nat.eqb_spec i j); [contradiction|exact Hi].
  - destruct S as (al & y & _ & _ & ->). apply Same; try assumption; [left; reflexivity|exact Logic.I].
  - destruct S as (v0 & H0 & S). destruct (nth_error (handles w) h) as [[[al y]|]|]; [| |contradiction].
    + destruct r; try contradiction. destruct (if multi then None else FcaSpec.lookup eq (FcaSpec.v_pred v0) (FcaSpec.key y) (FcaSpec.v_elems v0)).
      * destruct S as (_ & _ & ->). apply Same; try assumption; [left; reflexivity|exact Logic.I].
      * destruct S as (_ & _ & l & P & _ & ->). destruct (Nat.eq_dec i j) as [->|Nij].
        -- pose proof (is_at_fun _ _ _ _ Hi H0) as ->. exists j, (with_elems v l), x. split; [left; reflexivity|].
           split; [unfold is_at; cbn [containers]; rewrite fset_err, Nat.eqb_refl by exact (err_lt _ _ _ Hi); reflexivity|]. split; [|split; reflexivity]. apply (Permutation_in x (Permutation_sym P)). right. exact Hx.
        -- apply Same; try assumption; [|left; reflexivity|exact Logic.I]. unfold is_at. cbn [containers]. rewrite fset_err by exact (err_lt _ _ _ H0). destruct (Nat.eqb_spec i j); [contradiction|exact Hi].
    + destruct S as [_ ->]. apply Same; try assumption; [left; reflexivity|exact Logic.I].
  - destruct S as (o & _ & _ & ->). apply Same; try assumption; [left; reflexivity|exact Logic.I].
Qed.
End Closed.

Section Node.
Context {K V : Type}.
Variables (eq : N -> K -> K -> bool) (moving : bool).
Notation elem := (K * node V)%type.
Notation world := (FoaSpec.world K (node V)).
Notation at_ := (fun (w : world) i v => nth_error w i = Some (Some v)).
Lemma sset_err {A} (w : list A) i x j : (i < length w)%nat -> nth_error (FoaSpec.set w i x) j = if Nat.eqb j i then Some x else nth_error w j.
Proof. exact (fset_err w i x j). Qed.
Lemma set_self (w : world) i v o : nth_error w i = Some v -> nth_error (FoaSpec.set w i o) i = Some o.
Proof. intros H. rewrite sset_err, Nat.eqb_refl by exact (err_lt _ _ _ H). reflexivity. Qed.
Lemma set_other (w : world) i v o j : nth_error w i = Some v -> j <> i -> nth_error (FoaSpec.set w i o) j = nth_error w j.
Proof. intros H N. rewrite sset_err by exact (err_lt _ _ _ H). destruct (Nat.eqb_spec j i); [contradiction|reflexivity]. Qed.
Lemma app_other (w : world) x j v : nth_error w j = Some v -> nth_error (w ++ [x]) j = Some v.
Proof. intros H. rewrite nth_error_app1; [exact H|exact (err_lt _ _ _ H)]. Qed.
Lemma app_self (w : world) x : nth_error (w ++ [x]) (length w) = Some x.
Proof. rewrite nth_error_app2, Nat.sub_diag by lia. reflexivity. Qed.
Lemma in_add p (l : list elem) e x : In x l -> In x (FoaSpec.add eq p l e).
Proof. intros H. unfold FoaSpec.add. destruct (FoaSpec.lookup eq p (fst e) l); [exact H|right; exact H]. Qed.
Lemma in_add_all p es : forall (l : list elem) x, In x l -> In x (FoaSpec.add_all eq p l es).
Proof. induction es as [|e es IH]; intros l x H; [exact H|]. cbn. apply IH, in_add, H. Qed.
Lemma node_one (p : N) o (l : list elem) r l' x : FoaSpec.spec1 eq moving p o l (FoaSpec.Done r) l' -> In x l -> (forall k v, o <> FoaSpec.InsertOrAssign k v) ->
  ~ match o with
      | FoaSpec.AssignList _ | FoaSpec.Clear => True
      | FoaSpec.Erase k => eq p k (fst x) = true
      | FoaSpec.EraseNth m => nth_error l m = Some x
      | FoaSpec.EraseRange m m2 => exists k, (m <= k < m2)%nat /\ nth_error l k = Some x
      | FoaSpec.EraseIf pr | FoaSpec.EraseLoop pr => pr x = true
      | _ => False
      end ->
  In x l'.
Proof.
  intros S Hx Na N. assert (forall l0, Permutation l' l0 -> In x l0 -> In x l') as Perm by (intros l0 P H; exact (Permutation_in x (Permutation_sym P) H)).
  assert (forall pr, pr x <> true -> In x (filter (fun e : elem => negb (pr e)) l)) as Fil.
  { intros pr Hp. apply filter_In. split; [exact Hx|]. destruct (pr x); [destruct (Hp eq_refl)|reflexivity]. }
  destruct o; cbn [FoaSpec.spec1] in S; try (destruct r; try contradiction).
  - destruct (FoaSpec.lookup eq p (fst e) l); destruct S as (_ & _ & S); eapply Perm; try exact S; [exact Hx|right; exact Hx].
  - eapply Perm; [exact S|]. apply in_add_all, Hx.
  - destruct (Na k v eq_refl).
  - destruct (FoaSpec.lookup eq p k l); destruct S as (_ & S); eapply Perm; try exact S; [exact Hx|right; exact Hx].
  - destruct S as [_ ->]. exact Hx.
  - destruct S as [_ ->]. exact Hx.
  - destruct S as [_ ->]. exact Hx.
  - destruct S as [_ ->]. exact Hx.
  - destruct S as [_ ->]. exact Hx.
  - destruct S as [_ S]. eapply Perm; [exact S|]. apply (Fil (fun e => eq p k (fst e))). exact N.
  - destruct S as [_ S]. eapply Perm; [exact S|]. apply Fil. exact N.
  - destruct S as [_ ->]. apply Fil. exact N.
  - destruct o; [|contradiction]. destruct S as (l1 & l2 & Lm & -> & ->). eapply mid_keeps; [exact Hx|]. intros ->. apply N. rewrite <- Lm, nth_error_app2, Nat.sub_diag by lia. reflexivity.
  - destruct S as [_ ->]. apply range_keeps; [exact Hx|]. intros k Lk Ek. apply N. eauto.
  - eapply Perm; [exact S|exact Hx].
  - eapply Perm; [exact S|exact Hx].
  - destruct S as [_ ->]. exact Hx.
  - destruct S as [_ ->]. exact Hx.
  - subst l'. exact Hx.
Qed.
Lemma node_stable (w w' : world) hs hs' o r i v x :
  (forall a b, o = Box (FoaSpec.Merge a b) -> a <> b) -> (forall j k v, o <> Box (FoaSpec.On j (FoaSpec.InsertOrAssign k v))) -> (forall a b, o <> Box (FoaSpec.CopyAssign a b)) ->
  nspec eq moving (w, hs) o (NDone r) (w', hs') -> nth_error w i = Some (Some v) -> In x (FoaSpec.v_elems v) ->
  ~ node_ends (eq (FoaSpec.v_pred v)) o i (FoaSpec.v_elems v) x ->
  exists i' v', In i' (node_goes (length w) o i) /\ nth_error w' i' = Some (Some v') /\ In x (FoaSpec.v_elems v').
Proof.
  intros Nm Na Nc S Hi Hx N. assert (nth_error w' i = Some (Some v) -> In i (node_goes (length w) o i) -> exists i' v', In i' (node_goes (length w) o i) /\ nth_error w' i' = Some (Some v') /\ In x (FoaSpec.v_elems v')) as Same by eauto.
  destruct o as [o|j k|j m|j h|j h| | | | | |]; cbn [nspec] in S; cbn [node_ends] in N.
  - cbn [fst snd] in S. destruct S as (_ & r' & S & Er). destruct r' as [r'|kd]; [|discriminate]. clear Er.
    destruct o as [j o|h p al n|j al|j|j al|j|a b|a b|a b|a b|a b eeq]; cbn [FoaSpec.spec] in S.
    + destruct S as (v0 & l' & H0 & S & ->). destruct (Nat.eq_dec i j) as [->|Nij].
      * assert (v0 = v) as -> by congruence. exists j. eexists. split; [left; reflexivity|]. split; [eapply set_self; exact Hi|]. cbn [FoaSpec.v_elems]. eapply node_one; [exact S|exact Hx| |].
        -- intros k v1 ->. exact (Na j k v1 eq_refl).
        -- intros Q. apply N. split; [reflexivity|exact Q].
      * apply Same; [rewrite (set_other _ _ _ _ _ H0 Nij); exact Hi|left; reflexivity].
    + apply Same; [|left; reflexivity]. destruct r'; try contradiction. subst w'. apply app_other, Hi.
    + apply Same; [|left; reflexivity]. destruct S as (y & _ & S). destruct r'; try contradiction. destruct S as (l & _ & ->). apply app_other, Hi.
    + destruct S as (y & Hy & _ & ->). destruct (Nat.eq_dec i j) as [->|Nij].
      * assert (y = v) as -> by congruence. exists (length w), v. cbn [node_goes]. rewrite Nat.eqb_refl. split; [left; reflexivity|]. split; [|exact Hx].
        match goal with |- nth_error (?a ++ _) _ = _ => replace (length w) with (length a) by (apply fset_len; exact (err_lt _ _ _ Hi)) end. apply app_self.
      * apply Same; [apply app_other; rewrite (set_other _ _ _ _ _ Hy Nij); exact Hi|]. cbn [node_goes]. apply Nat.eqb_neq in Nij. rewrite Nij. left. reflexivity.
    + destruct S as (y & Hy & S). destruct r'; try contradiction. destruct S as (l & P & ->). destruct (Nat.eq_dec i j) as [->|Nij].
      * assert (y = v) as -> by congruence. exists (length w). eexists. cbn [node_goes]. rewrite Nat.eqb_refl. split; [left; reflexivity|]. split.
        -- match goal with |- nth_error (?a ++ _) _ = _ => replace (length w) with (length a) by (apply fset_len; exact (err_lt _ _ _ Hi)) end. apply app_self.
        -- cbn [FoaSpec.v_elems]. apply (Permutation_in x (Permutation_sym P)), Hx.
      * apply Same; [apply app_other; rewrite (set_other _ _ _ _ _ Hy Nij); exact Hi|]. cbn [node_goes]. apply Nat.eqb_neq in Nij. rewrite Nij. left. reflexivity.
    + destruct S as (y & Hy & _ & ->). apply Same; [rewrite (set_other _ _ _ _ _ Hy N); exact Hi|left; reflexivity].
    + destruct (Nc a b eq_refl).
    + destruct S as (t & y & al & l & lx & Ht & Hy & -> & _ & S). destruct r'; try contradiction. destruct S as [P _].
      assert (forall z : option (FoaSpec.view K (node V)), exists z', nth_error (FoaSpec.set w a z) b = Some z') as Hb.
      { intros z. destruct (Nat.eq_dec b a) as [->|Ne]; [exists z; eapply set_self; exact Ht|]. rewrite (set_other _ _ _ _ _ Ht Ne). eauto. }
      destruct (Nat.eq_dec i b) as [->|Nib].
      * assert (y = v) as -> by congruence. exists a. eexists. cbn [node_goes]. rewrite Nat.eqb_refl. split; [left; reflexivity|].
        split; [destruct (Hb (Some (FoaSpec.View (FoaSpec.v_hash v) (FoaSpec.v_pred v) al l))) as [z Hz]; rewrite (set_other _ _ _ _ _ Hz) by (intros ->; apply N; reflexivity); eapply set_self; exact Ht|].
        cbn [FoaSpec.v_elems]. apply (Permutation_in x (Permutation_sym P)), Hx.
      * apply Same; [|cbn [node_goes]; apply Nat.eqb_neq in Nib; rewrite Nib; left; reflexivity].
        destruct (Hb (Some (FoaSpec.View (FoaSpec.v_hash y) (FoaSpec.v_pred y) al l))) as [z Hz]. rewrite (set_other _ _ _ _ _ Hz Nib), (set_other _ _ _ _ _ Ht N). exact Hi.
    + destruct S as (t & y & Ht & Hy & _ & ->).
      assert (forall z : option (FoaSpec.view K (node V)), exists z', nth_error (FoaSpec.set w a z) b = Some z') as Hb.
      { intros z. destruct (Nat.eq_dec b a) as [->|Ne]; [exists z; eapply set_self; exact Ht|]. rewrite (set_other _ _ _ _ _ Ht Ne). eauto. }
      destruct (Hb (Some y)) as [z Hz]. destruct (Nat.eq_dec i a) as [->|Nia]; [|destruct (Nat.eq_dec i b) as [->|Nib]].
      * assert (t = v) as -> by congruence. exists b, v. cbn [node_goes]. rewrite Nat.eqb_refl. split; [left; reflexivity|]. split; [eapply set_self; exact Hz|exact Hx].
      * assert (y = v) as -> by congruence. exists a, v. cbn [node_goes]. rewrite Nat.eqb_refl. apply Nat.eqb_neq in Nia as Nia'. rewrite Nia'. split; [left; reflexivity|].
        split; [rewrite (set_other _ _ _ _ _ Hz) by auto; eapply set_self; exact Ht|exact Hx].
      * apply Same; [rewrite (set_other _ _ _ _ _ Hz Nib), (set_other _ _ _ _ _ Ht Nia); exact Hi|]. cbn [node_goes]. apply Nat.eqb_neq in Nia, Nib. rewrite Nia, Nib. left. reflexivity.
    + destruct S as (t & y & l & lx & Ht & Hy & -> & S). destruct r'; try contradiction. destruct S as (moved & P1 & P2 & _). assert (a <> b) as Nab by (apply Nm; reflexivity).
      assert (forall z : option (FoaSpec.view K (node V)), nth_error (FoaSpec.set w a z) b = Some (Some y)) as Hb by (intros z; rewrite (set_other _ _ _ _ _ Ht) by auto; exact Hy).
      destruct (Nat.eq_dec i b) as [->|Nib]; [|destruct (Nat.eq_dec i a) as [->|Nia]].
      * assert (y = v) as -> by congruence. cbn [node_goes]. rewrite Nat.eqb_refl. apply (Permutation_in x P1) in Hx. apply in_app_iff in Hx as [Hx|Hx].
        -- exists a. eexists. split; [left; reflexivity|]. split; [rewrite (set_other _ _ _ _ _ (Hb _) Nab); eapply set_self; exact Ht|]. cbn [FoaSpec.v_elems]. apply (Permutation_in x (Permutation_sym P2)), in_app_iff. auto.
        -- exists b. eexists. split; [right; left; reflexivity|]. split; [eapply set_self; apply Hb|exact Hx].
      * assert (t = v) as -> by congruence. exists a. eexists. cbn [node_goes]. apply Nat.eqb_neq in Nab as Nab'. rewrite Nab'. split; [left; reflexivity|].
        split; [rewrite (set_other _ _ _ _ _ (Hb _) Nab); eapply set_self; exact Ht|]. cbn [FoaSpec.v_elems]. apply (Permutation_in x (Permutation_sym P2)), in_app_iff. auto.
      * apply Same; [rewrite (set_other _ _ _ _ _ (Hb _) Nib), (set_other _ _ _ _ _ Ht Nia); exact Hi|]. cbn [node_goes]. apply Nat.eqb_neq in Nib. rewrite Nib. left. reflexivity.
    + destruct S as (y & z & _ & _ & -> & _). apply Same; [exact Hi|left; reflexivity].
  - destruct S as (v0 & H0 & S). destruct r; try contradiction. destruct (FoaSpec.lookup eq (FoaSpec.v_pred v0) k (FoaSpec.v_elems v0)) as [e|] eqn:E.
    + destruct S as (l' & P & Es). injection Es as -> _. destruct (Nat.eq_dec i j) as [->|Nij].
      * assert (v0 = v) as -> by congruence. apply find_some in E as [_ E]. exists j. eexists. split; [left; reflexivity|]. split; [eapply set_self; exact Hi|]. cbn [refill FoaSpec.v_elems].
        apply (Permutation_in x P) in Hx as [->|Hx]; [|exact Hx]. destruct N. auto.
      * apply Same; [rewrite (set_other _ _ _ _ _ H0 Nij); exact Hi|left; reflexivity].
    + injection S as -> _. apply Same; [exact Hi|left; reflexivity].
  - destruct S as (v0 & H0 & _ & l1 & e & l2 & El & Lm & Es). injection Es as -> _. destruct (Nat.eq_dec i j) as [->|Nij].
    + assert (v0 = v) as -> by congruence. exists j. eexists. split; [left; reflexivity|]. split; [eapply set_self; exact Hi|]. cbn [refill FoaSpec.v_elems]. rewrite El in Hx. eapply mid_keeps; [exact Hx|].
      intros ->. apply N. split; [reflexivity|]. rewrite El, <- Lm, nth_error_app2, Nat.sub_diag by lia. reflexivity.
    + apply Same; [rewrite (set_other _ _ _ _ _ H0 Nij); exact Hi|left; reflexivity].
  - destruct S as (v0 & h0 & H0 & _ & S). destruct h0 as [e|].
    + destruct r; try contradiction. destruct (FoaSpec.lookup eq (FoaSpec.v_pred v0) (fst e) (FoaSpec.v_elems v0)).
      * destruct S as (_ & _ & Es). injection Es as -> _. apply Same; [exact Hi|left; reflexivity].
      * destruct S as (_ & _ & l' & P & Es). injection Es as -> _. destruct (Nat.eq_dec i j) as [->|Nij].
        -- assert (v0 = v) as -> by congruence. exists j. eexists. split; [left; reflexivity|]. split; [eapply set_self; exact Hi|]. cbn [refill FoaSpec.v_elems]. apply (Permutation_in x (Permutation_sym P)). right. exact Hx.
        -- apply Same; [rewrite (set_other _ _ _ _ _ H0 Nij); exact Hi|left; reflexivity].
    + destruct S as [_ Es]. injection Es as -> _. apply Same; [exact Hi|left; reflexivity].
  - destruct S as (v0 & h0 & H0 & _ & S). destruct h0 as [e|].
    + destruct r; try contradiction. destruct (FoaSpec.lookup eq (FoaSpec.v_pred v0) (fst e) (FoaSpec.v_elems v0)).
      * destruct S as (_ & _ & Es). injection Es as -> _. apply Same; [exact Hi|left; reflexivity].
      * destruct S as (_ & _ & l' & P & Es). injection Es as -> _. destruct (Nat.eq_dec i j) as [->|Nij].
        -- assert (v0 = v) as -> by congruence. exists j. eexists. split; [left; reflexivity|]. split; [eapply set_self; exact Hi|]. cbn [refill FoaSpec.v_elems]. apply (Permutation_in x (Permutation_sym P)). right. exact Hx.
        -- apply Same; [rewrite (set_other _ _ _ _ _ H0 Nij); exact Hi|left; reflexivity].
    + destruct S as [_ Es]. injection Es as -> _. apply Same; [exact Hi|left; reflexivity].
  - destruct S as [_ Es]. injection Es as -> _. apply Same; [exact Hi|left; reflexivity].
  - destruct S as (h & _ & _ & Es). injection Es as -> _. apply Same; [exact Hi|left; reflexivity].
  - destruct S as (h1 & h2 & _ & _ & _ & Es). injection Es as -> _. apply Same; [exact Hi|left; reflexivity].
  - destruct S as (h1 & h2 & _ & _ & _ & Es). injection Es as -> _. apply Same; [exact Hi|left; reflexivity].
  - destruct S as (e & _ & _ & Es). injection Es as -> _. apply Same; [exact Hi|left; reflexivity].
  - destruct S as (h & _ & _ & Es). injection Es as -> _. apply Same; [exact Hi|left; reflexivity].
Qed.
End Node.

(** operations on one container that end with an exception not thrown by the hash function *)
Lemma fca_one_throws {K V : Type} eq multi (p : N) o (l : list (nat * (K * V))) k l' x : FcaSpec.spec1 eq multi p o l (FcaSpec.Threw k) l' -> k <> KHash -> In x l ->
  ~ match o with
      | FcaSpec.AssignList _ => True
      | FcaSpec.EraseKey k => eq p k (fst (snd x)) = true
      | FcaSpec.EraseIf pr => pr (snd x) = true
      | _ => False
      end -> In x l'.
Proof.
  intros S Hk Hx N. destruct o; cbn [FcaSpec.spec1] in S; try contradiction;
    try (destruct S as [[_ ->]|[-> _]]; [exact Hx|destruct (Hk eq_refl)]); try (destruct S as [_ ->]; exact Hx).
  - destruct S as (es1 & es2 & xs & lost & _ & _ & P & [->|E]); [|contradiction]. apply (Permutation_in x P), in_app_iff. auto.
  - destruct S as [->|(_ & gone & P & F)]; [exact Hx|]. apply (Permutation_in x P), in_app_iff in Hx as [Hx|Hx]; [|exact Hx]. rewrite forallb_forall in F. destruct (N (F x Hx)).
  - destruct S as (d & u & -> & ->). apply in_app_iff. apply in_app_iff in Hx as [Hx|Hx]; [left|auto]. apply filter_In. split; [exact Hx|]. destruct (pr (snd x)); [destruct (N eq_refl)|reflexivity].
Qed.
Lemma node_one_throws {K V : Type} eq moving (p : N) o (l : list (K * V)) k l' x : FoaSpec.spec1 eq moving p o l (FoaSpec.Threw k) l' -> k <> KHash -> k <> KTransfer -> In x l ->
  ~ match o with FoaSpec.AssignList _ => True | FoaSpec.EraseIf pr => pr x = true | _ => False end -> In x l'.
Proof.
  intros S Hk Ht Hx N.
  assert (forall lost, FoaSpec.Lost (K:=K) (V:=V) moving k lost -> lost = []) as Lo by (intros lost [->|(_ & [E|E])]; [reflexivity|contradiction|contradiction]).
  destruct o; cbn [FoaSpec.spec1] in S; try contradiction; try (destruct S as [_ ->]; exact Hx);
    try (destruct S as (lost & P & L); apply Lo in L as ->; exact (Permutation_in x P Hx)).
  - destruct S as (es1 & e & es2 & lost & _ & P & L). apply Lo in L as ->. apply (Permutation_in x P). clear - Hx. assert (forall es (l : list (K * V)), In x l -> In x (FoaSpec.add_all eq p l es)) as A.
    { induction es as [|e es IH]; intros l0 H; [exact H|]. cbn. apply IH. unfold FoaSpec.add. destruct (FoaSpec.lookup eq p (fst e) l0); [exact H|right; exact H]. }
    apply A, Hx.
  - destruct S as (_ & gone & P & F). apply (Permutation_in x P), in_app_iff in Hx as [Hx|Hx]; [|exact Hx]. rewrite forallb_forall in F. destruct (N (F x Hx)).
Qed.
