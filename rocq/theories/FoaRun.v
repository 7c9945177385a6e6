(** Programs over several containers: every operation meets its specification, in every reachable state. *)
From Coq Require Import NArith ZArith Bool List Arith Lia ZifyBool ZifyNat ZifyN Permutation.
From Verif Require Import FloatModel SizeModel SizeProofs GroupModel GroupSpec FoaModel FoaGroup FoaBase FoaFind FoaArr FoaInv FoaRehash FoaOps FoaCopy FoaAssign FoaMerge FoaIterModel FoaIter FoaSpec FoaWorld FoaApi.
Import ListNotations.
Local Open Scope N_scope.

Section Run.
Context {K V : Type} (c : Cfg K V).
Hypothesis HC : good_cfg c.
Notation table := (table K V).
Notation mworld := (list (option table)).
Notation spec := (spec (V:=V) (keqf c) (moves c)).
Notation lookup := (lookup (V:=V) (keqf c)).

Lemma contents_eq (t : table) : Inv c t -> contents c t = elems (arr t).
Proof. intros H. unfold contents. rewrite (iterate_ok c t tt O H). reflexivity. Qed.
Lemma look_eq (t : table) : Inv c t -> look c t = View (hid t) (pid t) (aid t) (elems (arr t)).
Proof. intros H. unfold look. rewrite contents_eq by exact H. reflexivity. Qed.

Lemma set_len {A} (w : list A) i x : (i < length w)%nat -> length (set w i x) = length w.
Proof. intros L. unfold set. rewrite app_length. cbn [length]. rewrite firstn_length, skipn_length. lia. Qed.
Lemma set_err {A} (w : list A) i x j : (i < length w)%nat -> nth_error (set w i x) j = if Nat.eqb j i then Some x else nth_error w j.
Proof.
  intros L. unfold set. assert (length (firstn i w) = i) as Lf by (rewrite firstn_length; lia).
  destruct (Nat.eqb_spec j i) as [->|N].
  - rewrite nth_error_app2, Lf, Nat.sub_diag by lia. reflexivity.
  - destruct (Nat.lt_ge_cases j i) as [B|B].
    + rewrite nth_error_app1 by lia. revert w L Lf j N B. induction i as [|i IH]; intros [|y w] L Lf j N B; cbn in *; try lia.
      destruct j; [reflexivity|]. cbn. apply IH; lia.
    + rewrite nth_error_app2, Lf by lia. replace (j - i)%nat with (S (j - S i)) by lia. cbn [nth_error].
      clear Lf. revert w L j N B. induction i as [|i IH]; intros [|y w] L j N B; cbn in *; try lia.
      * destruct j; [lia|]. cbn. rewrite Nat.sub_0_r. reflexivity.
      * destruct j; [lia|]. cbn. apply IH; lia.
Qed.
Lemma set_map {A B} (f : A -> B) w i x : map f (set w i x) = set (map f w) i (f x).
Proof. unfold set. rewrite map_app, firstn_map, skipn_map. reflexivity. Qed.
Lemma slot_err (w : mworld) i t : slot w i = Some t -> nth_error w i = Some (Some t) /\ (i < length w)%nat.
Proof.
  unfold slot. destruct (nth_error w i) as [o|] eqn:E; [|discriminate]. intros ->. split; [reflexivity|].
  apply nth_error_Some. congruence.
Qed.
Lemma look_slot (w : mworld) i t : slot w i = Some t -> nth_error (look_all c w) i = Some (Some (look c t)).
Proof. intros H. apply slot_err in H as [H _]. unfold look_all. rewrite nth_error_map, H. reflexivity. Qed.
Lemma slot_set (w : mworld) i x j : (i < length w)%nat -> slot (set w i x) j = if Nat.eqb j i then x else slot w j.
Proof. intros L. unfold slot. rewrite set_err by exact L. destruct (Nat.eqb j i); reflexivity. Qed.
Lemma slot_app (w : mworld) x j t : slot (w ++ [x]) j = Some t -> slot w j = Some t \/ x = Some t.
Proof.
  unfold slot. destruct (Nat.lt_ge_cases j (length w)) as [L|L].
  - rewrite nth_error_app1 by exact L. auto.
  - rewrite nth_error_app2 by exact L. destruct (j - length w)%nat as [|d]; cbn; [auto|]. destruct d; discriminate.
Qed.

Definition WInv (w : mworld) : Prop := forall i t, slot w i = Some t -> Inv c t.
Lemma winv_set (w : mworld) i t : WInv w -> (i < length w)%nat -> Inv c t -> WInv (set w i (Some t)).
Proof. intros W L H j x. rewrite slot_set by exact L. destruct (Nat.eqb j i); [intros [= <-]; exact H|apply W]. Qed.
Lemma winv_kill (w : mworld) i : WInv w -> (i < length w)%nat -> WInv (set w i None).
Proof. intros W L j x. rewrite slot_set by exact L. destruct (Nat.eqb j i); [discriminate|apply W]. Qed.
Lemma winv_push (w : mworld) t : WInv w -> Inv c t -> WInv (w ++ [Some t]).
Proof. intros W H j x Hj. apply slot_app in Hj as [Hj|[= <-]]; [eapply W; eauto|exact H]. Qed.

Lemma look_set (w : mworld) i o : look_all c (set w i o) = set (look_all c w) i (option_map (look c) o).
Proof. apply set_map. Qed.
Lemma look_push (w : mworld) t : look_all c (w ++ [Some t]) = look_all c w ++ [Some (look c t)].
Proof. unfold look_all. rewrite map_app. reflexivity. Qed.
Lemma set_same {A} (w : list A) i x : nth_error w i = Some x -> set w i x = w.
Proof.
  intros H. unfold set. revert i H. induction w as [|y w IH]; intros [|i] H; cbn in *; try discriminate; [congruence|].
  f_equal. apply IH. exact H.
Qed.

Definition OK (w : mworld) (o : op K V) (r : R mworld (value K V)) : Prop :=
  outcome r (fun v w' => WInv w' /\ spec (look_all c w) o (Done v) (look_all c w'))
            (fun kd w' => (kd = KAlloc \/ raised c kd) /\ WInv w' /\ spec (look_all c w) o (Threw kd) (look_all c w')).

Lemma view_ids (t t' : table) : Inv c t' -> Ids t t' -> look c t' = View (hid t) (pid t) (aid t) (elems (arr t')).
Proof. intros I [A B D]. rewrite look_eq by exact I. congruence. Qed.

Lemma exec_ok o w n : WInv w -> pre c o w -> OK w o (exec c o w n).
Proof.
  intros W P. unfold OK. destruct o as [i o|h p al m|j al|j|j al|i|i j|i j|i j|i j|i j eeq]; cbn [pre exec] in *.
  - (* On *)
    destruct P as (t & Hs & Hp). pose proof (W i t Hs) as H. pose proof (slot_err _ _ _ Hs) as [_ L].
    unfold run1. rewrite Hs. pose proof (exec1_ok c HC o t n H Hp) as X.
    assert (forall r t', Spec1 c o t r t' -> WInv (set w i (Some t')) /\ spec (look_all c w) (On i o) r (look_all c (set w i (Some t')))) as Z.
    { intros r t' (I & Id & S). split; [apply winv_set; assumption|]. cbn [FoaSpec.spec]. exists (look c t), (elems (arr t')).
      split; [apply look_slot; exact Hs|]. rewrite look_set. cbn [option_map]. rewrite (view_ids t t' I Id), (look_eq t H). cbn [v_hash v_pred v_alloc v_elems]. auto. }
    destruct (exec1 c o t n) as [v t' n'|kd t' n'|]; cbn [outcome] in *; [auto| |exact X]. destruct X as [R X]. auto.
  - (* New *)
    destruct P as [Ha Hs]. eapply outcome_bind; [eapply outcome_weaken; [apply (new_table_ok c HC h p al m w n Ha Hs)| |]|].
    + intros t w' X. exact X.
    + intros kd w' (-> & -> & _). split; [now left|]. split; [exact W|]. cbn. auto.
    + intros t w' n1 (-> & I & Eh & Ep & Ea & Ee & _). cbn [push bind ret outcome]. split; [apply winv_push; assumption|].
      rewrite look_push. cbn. rewrite (look_eq t I), Eh, Ep, Ea, Ee. reflexivity.
  - (* CopyConstruct *)
    destruct P as [x Hx]. pose proof (W j x Hx) as Ix. rewrite bind_get, Hx. cbn [of_option]. rewrite bind_ret.
    eapply outcome_bind; [eapply outcome_weaken; [apply (copy_construct_ok c HC x al w n Ix)| |]|].
    + intros t w' X. exact X.
    + intros kd w' (-> & X). split; [destruct X as [[_ R]|[-> _]]; auto|]. split; [exact W|]. cbn. exists (look c x). split; [apply look_slot; exact Hx|reflexivity].
    + intros t w' n1 (-> & I & Eh & Ep & Ea & Pm). cbn [push bind ret outcome]. split; [apply winv_push; assumption|].
      rewrite look_push. cbn. exists (look c x). split; [apply look_slot; exact Hx|]. exists (elems (arr t)).
      rewrite (look_eq t I), (look_eq x Ix), Eh, Ep, Ea. cbn. auto.
  - (* MoveConstruct *)
    destruct P as [x Hx]. pose proof (W j x Hx) as Ix. pose proof (slot_err _ _ _ Hx) as [_ L]. unfold bind, run1. rewrite Hx.
    pose proof (move_construct_ok c x n Ix) as X. destruct (move_construct c x n) as [t x' n1|kd x' n1|]; cbn [outcome] in X; [|destruct X|destruct X].
    destruct X as (-> & I' & Id & Ee & _). cbn [push ret outcome]. split; [apply winv_push; [apply winv_set|]; assumption|].
    rewrite look_push, look_set. cbn. exists (look c x). split; [apply look_slot; exact Hx|]. split; [reflexivity|].
    rewrite (view_ids x x' I' Id), Ee, (look_eq x Ix). reflexivity.
  - (* MoveConstructAl *)
    destruct P as [x Hx]. pose proof (W j x Hx) as Ix. pose proof (slot_err _ _ _ Hx) as [Hn L]. unfold bind, run1. rewrite Hx.
    pose proof (move_construct_al_ok c HC x al n Ix) as X. destruct (move_construct_al c al x n) as [t x' n1|kd x' n1|]; cbn [outcome] in X; [| |destruct X].
    + destruct X as (I & Eh & Ep & Ea & Pm & I' & Id & Ee & _). cbn [push ret outcome]. split; [apply winv_push; [apply winv_set|]; assumption|].
      rewrite look_push, look_set. cbn. exists (look c x). split; [apply look_slot; exact Hx|]. exists (elems (arr t)).
      rewrite (view_ids x x' I' Id), Ee, (look_eq x Ix), (look_eq t I), Eh, Ep, Ea. cbn. auto.
    + destruct X as (I' & Id & R & X). cbn [outcome]. split; [exact R|]. split; [apply winv_set; assumption|]. cbn. exists (look c x).
      split; [apply look_slot; exact Hx|]. destruct X as [->|Ee].
      * left. rewrite set_same by exact Hn. reflexivity.
      * right. rewrite look_set. cbn. rewrite (view_ids x x' I' Id), Ee. reflexivity.
  - (* Destroy *)
    destruct P as [t Ht]. pose proof (W i t Ht) as I. pose proof (slot_err _ _ _ Ht) as [_ L]. rewrite Ht.
    pose proof (destroy_table_ok c t n (inv_w c t I)) as X. destruct (destroy_table t n) as [u t' n1|kd t' n1|]; cbn [outcome] in *; [|destruct X|destruct X].
    split; [apply winv_kill; assumption|]. rewrite look_set. cbn. exists (look c t). split; [apply look_slot; exact Ht|]. auto.
  - (* CopyAssign *)
    destruct P as (Hij & t & x & Ht & Hx). pose proof (W i t Ht) as I. pose proof (W j x Hx) as Ix. pose proof (slot_err _ _ _ Ht) as [_ L].
    rewrite bind_get, Hx. cbn [of_option]. rewrite bind_ret. unfold bind, run1. rewrite Ht.
    pose proof (copy_assign_ok c HC x t n Ix I) as X. destruct (copy_assign c x t n) as [u t' n1|kd t' n1|]; cbn [outcome] in *; [| |destruct X].
    + destruct X as (I' & Eh & Ep & Ea & Pm). cbn [ret outcome]. split; [apply winv_set; assumption|]. rewrite look_set. cbn.
      exists (look c t), (look c x), (aid t'), (elems (arr t')). do 2 (split; [apply look_slot; assumption|]).
      rewrite (look_eq t' I'), (look_eq t I), (look_eq x Ix), Eh, Ep. cbn. split; [reflexivity|]. split; [|exact Pm].
      rewrite Ea. destruct (pocca c); auto.
    + destruct X as (R & I' & Eh & Ep & Ea & rest & Pm). split; [exact R|]. split; [apply winv_set; assumption|]. rewrite look_set. cbn.
      exists (look c t), (look c x), (aid t'), (elems (arr t')). do 2 (split; [apply look_slot; assumption|]).
      rewrite (look_eq t' I'), (look_eq t I), (look_eq x Ix), Eh, Ep. cbn. split; [reflexivity|]. split; [exact Ea|]. eauto.
  - (* MoveAssign *)
    destruct P as (Hij & t & x & Ht & Hx & Hal). pose proof (W i t Ht) as I. pose proof (W j x Hx) as Ix.
    pose proof (slot_err _ _ _ Ht) as [_ L]. pose proof (slot_err _ _ _ Hx) as [_ Lx]. apply Nat.eqb_neq in Hij as Hij'.
    unfold bind, run2. rewrite Ht, Hx, Hij'.
    pose proof (move_assign_ok c HC t x n Ix I) as X. destruct (move_assign c (t, x) n) as [u s n1|kd s n1|]; cbn [outcome] in *; [| |destruct X].
    + destruct X as (I1 & Eh & Ep & Ea & Pm & I2 & Eh2 & Ep2 & Ea2 & Ee & _). cbn [ret outcome].
      split; [apply winv_set; [apply winv_set; assumption|rewrite set_len; assumption|assumption]|]. rewrite !look_set. cbn.
      exists (look c t), (look c x), (aid (fst s)), (elems (arr (fst s))), (elems (arr (snd s))). do 2 (split; [apply look_slot; assumption|]).
      rewrite (look_eq _ I1), (look_eq _ I2), (look_eq t I), (look_eq x Ix), Eh, Ep, Eh2, Ep2, Ea2. cbn. split; [reflexivity|].
      split; [rewrite Ea; destruct (pocma c); auto|]. auto.
    + destruct X as (Em & Na & I1 & Eh & Ep & Ea & X). 
      assert (Inv c (snd s) /\ hid (snd s) = hid t /\ pid (snd s) = pid t /\ aid (snd s) = aid x /\ (kd = KAlloc \/ raised c kd) /\
         exists rest, Permutation (elems (arr x)) (elems (arr (fst s)) ++ elems (arr (snd s)) ++ rest)) as (I2 & Eh2 & Ep2 & Ea2 & R & rest & Pm).
      { destruct X as [(-> & Ee & Es)|(R & (rest & Pr) & I2 & Eh2 & Ep2 & Ea2 & Ee2)].
        - destruct Hal as [C|[C|[E1 E2]]]; [congruence|congruence|]. rewrite E1, E2, set_hp_id in Es. rewrite Es.
          split; [exact Ix|]. split; [congruence|]. split; [congruence|]. split; [congruence|]. split; [now left|].
          exists []. rewrite Ee, app_nil_r. reflexivity.
        - split; [exact I2|]. do 3 (split; [assumption|]). split; [auto|]. exists rest. rewrite Ee2. exact Pr. }
      split; [exact R|]. split; [apply winv_set; [apply winv_set; assumption|rewrite set_len; assumption|assumption]|]. rewrite !look_set. cbn.
      exists (look c t), (look c x), (aid (fst s)), (elems (arr (fst s))), (elems (arr (snd s))). do 2 (split; [apply look_slot; assumption|]).
      rewrite (look_eq _ I1), (look_eq _ I2), (look_eq t I), (look_eq x Ix), Eh, Ep, Eh2, Ep2, Ea2. cbn. split; [reflexivity|].
      split; [left; exact Ea|]. eauto.
  - (* Swap *)
    destruct P as (Hij & t & x & Ht & Hx & Hal). pose proof (W i t Ht) as I. pose proof (W j x Hx) as Ix.
    pose proof (slot_err _ _ _ Ht) as [_ L]. pose proof (slot_err _ _ _ Hx) as [_ Lx]. apply Nat.eqb_neq in Hij as Hij'.
    unfold bind, run2. rewrite Ht, Hx, Hij'.
    pose proof (swap_ok c t x n Ix I Hal) as X. destruct (swap_tables c (t, x) n) as [u s n1|kd s n1|]; cbn [outcome] in *; [|destruct X|destruct X].
    subst s. cbn [ret outcome fst snd]. split; [apply winv_set; [apply winv_set; assumption|rewrite set_len; assumption|assumption]|]. rewrite !look_set. cbn.
    exists (look c t), (look c x). do 2 (split; [apply look_slot; assumption|]). auto.
  - (* Merge *)
    destruct P as (Hij & t & x & Ht & Hx). pose proof (W i t Ht) as I. pose proof (W j x Hx) as Ix.
    pose proof (slot_err _ _ _ Ht) as [_ L]. pose proof (slot_err _ _ _ Hx) as [_ Lx]. apply Nat.eqb_neq in Hij as Hij'.
    unfold bind, run2. rewrite Ht, Hx, Hij'.
    pose proof (merge_ok c HC t x n I Ix) as X. destruct (merge c (t, x) n) as [u s n1|kd s n1|]; cbn [outcome] in *; [| |destruct X].
    + destruct X as (moved & keptx & [I1 I2 D1 D2 P1 P2 E3 H4 H5]). cbn [ret outcome].
      split; [apply winv_set; [apply winv_set; assumption|rewrite set_len; assumption|assumption]|]. rewrite !look_set. cbn.
      exists (look c t), (look c x), (elems (arr (fst s))), (elems (arr (snd s))). do 2 (split; [apply look_slot; assumption|]).
      rewrite (view_ids t _ I1 D1), (view_ids x _ I2 D2), (look_eq t I), (look_eq x Ix). cbn. split; [reflexivity|].
      exists moved. rewrite E3. split; [exact P1|]. split; [exact P2|]. split.
      * intros e He. apply lookup_none. intros e' He'. apply (H4 e He). exact He'.
      * intros e He C. destruct (H5 e He) as (e' & He' & Ek). rewrite (proj1 (lookup_none c _ _ _) C e' He') in Ek. discriminate.
    + destruct X as (R & I1 & I2 & D1 & D2 & lost & Pm & Hl). split; [exact R|].
      split; [apply winv_set; [apply winv_set; assumption|rewrite set_len; assumption|assumption]|]. rewrite !look_set. cbn.
      exists (look c t), (look c x), (elems (arr (fst s))), (elems (arr (snd s))). do 2 (split; [apply look_slot; assumption|]).
      rewrite (view_ids t _ I1 D1), (view_ids x _ I2 D2), (look_eq t I), (look_eq x Ix). cbn. split; [reflexivity|]. eauto.
  - (* Equal *)
    destruct P as (x & y & Hx & Hy). pose proof (W i x Hx) as Ix. pose proof (W j y Hy) as Iy.
    rewrite bind_get, Hx. cbn [of_option]. rewrite bind_ret, Hy. cbn [of_option]. rewrite bind_ret.
    eapply outcome_bind; [eapply outcome_weaken; [apply (equal_ok c eeq x y w n Ix Iy)| |]|].
    + intros b w' X. exact X.
    + intros kd w' X. cbv beta in X. destruct X as (-> & Hk & R). split; [auto|]. split; [exact W|]. cbn. exists (look c x), (look c y).
      do 2 (split; [apply look_slot; assumption|]). auto.
    + intros b w' n1 (-> & Hb). cbn [ret outcome]. split; [exact W|]. cbn. exists (look c x), (look c y).
      do 2 (split; [apply look_slot; assumption|]). split; [reflexivity|]. rewrite (look_eq x Ix), (look_eq y Iy). cbn [v_elems v_pred].
      apply eq_true_iff_eq. rewrite Hb, andb_true_iff, Nat.eqb_eq, forallb_forall.
      assert (forall e, Matches c eeq y e <-> match lookup (pid y) (fst e) (elems (arr y)) with Some e' => eeq e e' | None => false end = true) as M.
      { intros e. unfold Matches. destruct (lookup (pid y) (fst e) (elems (arr y))) as [e'|] eqn:Lk.
        - apply lookup_some in Lk as Lk'. destruct Lk' as [L1 L2]. split.
          + intros (e2 & H2 & E2 & Q). rewrite (lookup_uniq c _ _ _ e2 (inv_equiv c y Iy) (i_uniq _ _ Iy) H2 E2) in Lk. congruence.
          + intros Q. eauto.
        - split; [|discriminate]. intros (e2 & H2 & E2 & _). rewrite (proj1 (lookup_none c _ _ _) Lk e2 H2) in E2. discriminate. }
      split; intros [A B]; (split; [exact A|]); intros e He; apply M, B, He.
Qed.

Lemma runs_ok rs w : runs c rs w -> WInv w.
Proof.
  induction 1 as [|rs w o n r w' R IH P E]; [intros i t; unfold slot; destruct i; discriminate|].
  pose proof (exec_ok o w n IH P) as X. unfold OK in X. destruct (exec c o w n); cbn [outcome returned] in *; [| |destruct X]; destruct E as [_ ->]; apply X.
Qed.
Lemma history_snoc w rs w1 o r w2 : history (keqf c) (moves c) w rs w1 -> spec w1 o r w2 -> history (V:=V) (keqf c) (moves c) w (rs ++ [(o, r)]) w2.
Proof.
  induction 1 as [w|w o' r' w1 rs w3 S H IH]; intros X; cbn [app].
  - econstructor; [exact X|constructor].
  - econstructor; [exact S|auto].
Qed.
Lemma runs_history rs w : runs c rs w -> history (keqf c) (moves c) [] rs (look_all c w).
Proof.
  induction 1 as [|rs w o n r w' R IH P E]; [constructor|].
  eapply history_snoc; [exact IH|]. pose proof (exec_ok o w n (runs_ok _ _ R) P) as X. unfold OK in X.
  destruct (exec c o w n); cbn [outcome returned] in *; [| |destruct X]; destruct E as [-> ->]; apply X.
Qed.
Lemma reachable_inv t : reachable c t -> Inv c t.
Proof. intros (rs & w & i & R & S). exact (runs_ok rs w R i t S). Qed.
End Run.
