(** Concurrent containers: a call whose thread is the only one inside the container completes. *)
From Coq Require Import NArith Bool List Arith Lia Permutation.
From Verif Require Import FloatModel SizeModel SizeProofs GroupModel GroupSpec FoaModel FoaGroup FoaBase FoaFind FoaArr FoaInv FoaRehash FoaSpec FoaWorld FoaRun
  ConcSpec ConcModel ConcInv ConcStep ConcStep2 ConcStep3 ConcSys ConcSys2 ConcLin1 ConcLin2 ConcLin3 ConcProps ConcProgress.
Import ListNotations.
Local Open Scope N_scope.
Notation set_nth := FoaModel.set_nth.

(** *** the prober, from any of its states, reaches every group *)
Fixpoint nexts (M : N) (j : nat) (pb : prober) : prober := match j with O => pb | S j => nexts M j (fst (pb_next pb M)) end.
Lemma tri_add a b : tri (a + b) = tri a + tri b + N.of_nat a * N.of_nat b.
Proof. pose proof (tri_eq a). pose proof (tri_eq b). pose proof (tri_eq (a + b)). rewrite Nat2N.inj_add in *. nia. Qed.
Lemma mod_pow_pow a k : k <= 60 -> (a mod 2 ^ 64) mod 2 ^ k = a mod 2 ^ k.
Proof.
  intros Hk. replace 64 with (k + (64 - k)) by lia. rewrite N.pow_add_r. pose proof (pow2_pos k). pose proof (pow2_pos (64 - k)).
  rewrite N.mod_mul_r by lia. rewrite N.mul_comm, N.mod_add by lia. apply N.mod_mod. lia.
Qed.
Lemma nexts_pos k : k <= 60 -> forall j pb, pb_pos pb < 2 ^ k ->
  pb_pos (nexts (2 ^ k - 1) j pb) = (pb_pos pb + N.of_nat j * pb_step pb + tri j) mod 2 ^ k.
Proof.
  intros Hk. pose proof (pow2_pos k) as P. induction j as [|j IH]; intros pb Hp.
  - cbn [nexts tri]. rewrite N.mod_small; lia.
  - cbn [nexts]. unfold pb_next. cbn [fst]. set (st := (pb_step pb + 1) mod 2 ^ 64).
    assert (N.land ((pb_pos pb + st) mod 2 ^ 64) (2 ^ k - 1) = (pb_pos pb + (pb_step pb + 1)) mod 2 ^ k) as E.
    { rewrite <- N.pred_sub, <- N.ones_equiv, N.land_ones, mod_pow_pow by exact Hk. unfold st.
      rewrite <- N.add_mod_idemp_r, mod_pow_pow, N.add_mod_idemp_r by lia. reflexivity. }
    rewrite E, IH by (cbn [pb_pos]; apply N.mod_lt; lia). cbn [pb_pos pb_step tri].
    rewrite <- N.add_assoc, N.add_mod_idemp_l by lia.
    assert ((N.of_nat j * st) mod 2 ^ k = (N.of_nat j * (pb_step pb + 1)) mod 2 ^ k) as E2.
    { unfold st. rewrite <- N.mul_mod_idemp_r, mod_pow_pow, N.mul_mod_idemp_r by lia. reflexivity. }
    transitivity ((pb_pos pb + (pb_step pb + 1) + tri j + N.of_nat j * st) mod 2 ^ k); [f_equal; lia|].
    rewrite <- N.add_mod_idemp_r, E2, N.add_mod_idemp_r by lia. f_equal. lia.
Qed.
Lemma nexts_covers k pb g : k <= 60 -> pb_pos pb < 2 ^ k -> N.of_nat g < 2 ^ k -> exists j, pb_pos (nexts (2 ^ k - 1) j pb) = N.of_nat g.
Proof.
  intros Hk Hp Hg. pose proof (pow2_pos k) as P. set (M := 2 ^ k) in *. set (st := N.to_nat (pb_step pb)).
  destruct (probe_covers k (pb_pos pb + (M - 1) * tri st) g Hg) as (i0 & _ & E). unfold probe_pos in E. fold M in E.
  set (n := (i0 + st * N.to_nat (2 * M))%nat). assert (st <= n)%nat as L by (unfold n; nia).
  exists (n - st)%nat. unfold M. rewrite nexts_pos by assumption. fold M. rewrite <- E.
  set (j := (n - st)%nat). assert (n = st + j)%nat as Ej by lia.
  assert (pb_step pb = N.of_nat st) as -> by (unfold st; lia).
  pose proof (tri_add st j) as T1. rewrite <- Ej in T1.
  pose proof (tri_eq i0) as T2. pose proof (tri_eq n) as T3.
  assert (N.of_nat n = N.of_nat i0 + N.of_nat st * (2 * M)) as En by (unfold n; lia).
  assert (tri n = tri i0 + M * (N.of_nat st * (N.of_nat n + N.of_nat i0 + 1))) as T4.
  { clear - T2 T3 En. assert (2 * tri n = 2 * (tri i0 + M * (N.of_nat st * (N.of_nat n + N.of_nat i0 + 1)))); [|lia].
    rewrite T3, (N.mul_add_distr_l 2 (tri i0)), T2, En. ring. }
  set (z := N.of_nat st * (N.of_nat n + N.of_nat i0 + 1)) in *.
  rewrite <- (N.mod_add (pb_pos pb + N.of_nat j * N.of_nat st + tri j) (tri st) M) by lia.
  rewrite <- (N.mod_add (pb_pos pb + (M - 1) * tri st + tri i0) z M) by lia. f_equal.
  assert ((M - 1) * tri st + tri st = M * tri st) as T5 by (rewrite N.mul_sub_distr_r; assert (1 * tri st <= M * tri st) by (apply N.mul_le_mono_r; lia); lia).
  rewrite (N.mul_comm (tri st) M), (N.mul_comm z M), (N.mul_comm (N.of_nat j)).
  generalize dependent ((M - 1) * tri st). generalize dependent (M * tri st). generalize dependent (M * z). generalize dependent (N.of_nat st * N.of_nat j).
  clear. intros. lia.
Qed.

Section Solo.
Context {K V : Type} (c : Cfg K V).
Hypothesis HC : good_cfg c.
Notation Sh := (@Sh K V).
Notation pop := (pop K V). Notation cop := (cop K V). Notation loc := (@loc K V). Notation cres := (cres K V).
Notation conf := (@conf K V). Notation pc := (@pc K V).
Notation GInv := (GInv c).
Notation event := (event K V).

(** a step of thread [t] *)
Definition own_step (t : nat) (C : conf) (e : option event) (C' : conf) : Prop :=
  gstep c C e C' /\ nth_error (th C') t <> nth_error (th C) t /\ forall t', t' <> t -> nth_error (th C') t' = nth_error (th C) t'.
(** if only thread [t] makes steps, its call returns: it can always make a step, and every sequence of its steps (along which the insertion
    counters do not wrap) ends with the return *)
Inductive completes (t : nat) : conf -> Prop :=
| comp_ret C : nth_error (th C) t = Some Idle -> completes t C
| comp_step C : (exists e C', own_step t C e C') -> (forall e C', own_step t C e C' -> counters_fit C' -> completes t C') -> completes t C.

Variables (t d : nat) (o : cop).
Record St (C : conf) (s : Sh) (l : loc) : Prop := {
  st_g : GInv C; st_fit : counters_fit C; st_at : nth_error (th C) t = Some (At d o l); st_box : box C d = Some s; st_alone : alone C t d = true }.
Definition Fin (s : Sh) (l : loc) : Prop := forall C, St C s l -> completes t C.
Definition Solo (s : Sh) (l : loc) : Prop := exists k vs, CInv c k s vs /\ nth_error vs t = Some (Some (o, l)) /\
  forall t' o' l', t' <> t -> nth_error vs t' = Some (Some (o', l')) -> outside l' = true.

Lemma st_solo C s l : St C s l -> Solo s l.
Proof.
  intros [G F Ht Hb Al]. destruct (gi_box _ _ G d s Hb) as [k Hk]. exists k, (views C d). split; [exact Hk|]. split; [apply view_at, Ht|].
  intros t' o' l' N H. apply view_at in H. unfold alone in Al. rewrite forallb_forall in Al. specialize (Al _ (in_others _ _ _ _ H N)). cbn in Al.
  rewrite Nat.eqb_refl in Al. destruct (outside l'); [reflexivity|discriminate].
Qed.
Lemma others_set {X} (l : list X) x : others (set_nth l t x) t = others l t.
Proof.
  unfold others, FoaModel.set_nth. destruct (Nat.lt_ge_cases t (length l)) as [L|L].
  - rewrite firstn_app, firstn_length_le, Nat.sub_diag, firstn_O, app_nil_r by lia. rewrite firstn_firstn, Nat.min_id. f_equal.
    rewrite skipn_app, firstn_length_le, skipn_all2 by (rewrite ?firstn_length; lia).
    destruct (skipn t l) as [|y r] eqn:E.
    + apply (f_equal (@length X)) in E. rewrite skipn_length in E. cbn in E. lia.
    + replace (S t - t)%nat with 1%nat by lia. cbn [skipn app].
      clear - E. revert t E. induction l as [|z l IH]; intros [|t] E; try discriminate; cbn in *; [congruence|]. apply IH, E.
  - rewrite firstn_all2 with (l := l), skipn_all2 with (l := l) by lia. rewrite skipn_all2 with (l := l) by lia.
    rewrite ?app_nil_r. rewrite firstn_all2 by lia. rewrite skipn_all2 by lia. rewrite ?app_nil_r. reflexivity.
Qed.
Lemma alone_free (C : conf) g x : alone C t d = true -> free_for C t d g x = true.
Proof.
  unfold alone, free_for. rewrite !forallb_forall. intros H p Hp. specialize (H p Hp). unfold allows. destruct p as [|d' o' l'| |]; try reflexivity.
  cbn [inside] in H. destruct (lock_of o' l') as [[g' x']|] eqn:E; [|reflexivity].
  assert (outside l' = false) as Eo by (destruct (outside l') eqn:Eo; [destruct (out_facts l' Eo) as (_ & _ & _ & Z & _); rewrite Z in E; discriminate|reflexivity]).
  rewrite Eo, andb_true_r in H. apply negb_true_iff in H. rewrite H. reflexivity.
Qed.

Lemma fin_back s l : l <> LFull -> (forall r, l <> LRet r) ->
  (Solo s l -> forall free i thr e l' a s', lstep c free s o l i thr = Step e l' a -> apply e s = Some s' -> Solo s' l' -> Fin s' l') -> Fin s l.
Proof.
  intros Nf Nr H C S. pose proof S as [G NW Ht Hb Al]. apply comp_step.
  - destruct (local_advance c C t d o l G NW Ht Nf Nr) as (d0 & o0 & l0 & e & C' & E1 & E2 & E3 & E4).
    { destruct (waits o l) as [[g x]|]; [apply alone_free, Al|exact Logic.I]. }
    exists e, C'. split; [exact E2|]. rewrite Ht in *. injection E1 as <- <- <-. auto.
  - intros e C' [Gs [Ne Fr]] Fit. pose proof (ginv_step c HC _ _ _ G NW Gs) as G'.
    assert (forall t1 (p q : pc), nth_error (th C) t1 = Some p -> nth_error (th C') t1 = Some q -> p <> q -> t1 = t) as Own.
    { intros t1 p q E1 E2 N. destruct (Nat.eq_dec t1 t) as [E|E]; [exact E|]. rewrite (Fr _ E), E1 in E2. congruence. }
    destruct Gs as [C t1 d1 o1 s1 Ht1 Hb1|C t1 d1 o1 l1 s1 i thr e l' a s' Ht1 Hb1 Hs Ha|C t1 d1 o1 s1 n t' n' cn Ht1 Hb1 Hal Hr Hc|
      C t1 d1 o1 s1 n kd t' n' cn Ht1 Hb1 Hal Hr Hc|C t1 d1 o1 r Ht1|C t1 o1 Ht1|C t1 o1 n r w bs Ht1 Hp He Hbk|C t1 r Ht1];
      (assert (t1 = t) as -> by (eapply Own; [exact Ht1|cbn [set_box set_th th]; eapply self_err; exact Ht1|try discriminate; try (intros E; injection E as E; eapply moves_on; eauto)]));
      rewrite Ht in Ht1; try discriminate Ht1; try (injection Ht1 as <- <- ->; try (now destruct (Nf eq_refl)); try (now destruct (Nr _ eq_refl))).
    rewrite Hb in Hb1. injection Hb1 as <-.
    assert (St (set_box (set_th C t (At d o l')) d s') s' l') as S'.
    { constructor; [exact G'|exact Fit|cbn [set_box set_th th]; eapply self_err; exact Ht| |].
      - assert (box (set_th C t (At d o l')) d = Some s) as Hb' by exact Hb. rewrite (box_set _ _ _ _ _ Hb'), Nat.eqb_refl. reflexivity.
      - unfold alone in *. cbn [set_box set_th th]. rewrite others_set. exact Al. }
    eapply H; [exact (st_solo _ _ _ S)|exact Hs|exact Ha|exact (st_solo _ _ _ S')|exact S'].
Qed.
Lemma fin_ret s r : Fin s (LRet r).
Proof.
  intros C [G NW Ht Hb Al]. apply comp_step.
  - eexists _, _. split; [eapply g_ret; exact Ht|]. cbn [set_th th]. rewrite (self_err _ _ _ _ Ht), Ht. split; [discriminate|]. intros t' N. apply others_err, N.
  - intros e C' [Gs [Ne Fr]] Fit.
    assert (forall t1 (p q : pc), nth_error (th C) t1 = Some p -> nth_error (th C') t1 = Some q -> p <> q -> t1 = t) as Own.
    { intros t1 p q E1 E2 N. destruct (Nat.eq_dec t1 t) as [E|E]; [exact E|]. rewrite (Fr _ E), E1 in E2. congruence. }
    destruct Gs as [C t1 d1 o1 s1 Ht1 Hb1|C t1 d1 o1 l1 s1 i thr e l' a s' Ht1 Hb1 Hs Ha|C t1 d1 o1 s1 n t' n' cn Ht1 Hb1 Hal Hr Hc|
      C t1 d1 o1 s1 n kd t' n' cn Ht1 Hb1 Hal Hr Hc|C t1 d1 o1 r1 Ht1|C t1 o1 Ht1|C t1 o1 n r1 w bs Ht1 Hp He Hbk|C t1 r1 Ht1];
      (assert (t1 = t) as -> by (eapply Own; [exact Ht1|cbn [set_box set_th th]; eapply self_err; exact Ht1|try discriminate; try (intros E; injection E as E; eapply moves_on; eauto)]));
      rewrite Ht in Ht1; try discriminate Ht1.
    + injection Ht1 as <- <- <-. destruct o; discriminate Hs.
    + apply comp_ret. cbn [set_th th]. eapply self_err; exact Ht.
Qed.
Lemma full_room s n t' n' : Inv c (tb s) -> rehash_if_full c (tb s) n = Ret tt t' n' -> sz t' < ml t'.
Proof.
  intros I H. unfold rehash_if_full in H. destruct (N.eqb_spec (sz (tb s)) (ml (tb s))) as [E|E].
  2:{ injection H as <- _. pose proof (i_szml _ _ I). lia. }
  destruct (growth_ok c (tb s) HC I) as (Hp & Hm & Hb & Hr). set (m := growth_request (sz (tb s))) in *.
  destruct (N.le_gt_cases (groups_for m) (gmax c)) as [Lg|Lg].
  - pose proof (unchecked_rehash_ok c (tb s) m n HC I Hm Hb) as X. rewrite H in X. cbn [FoaBase.outcome] in X. specialize (Hr Lg).
    destruct X as (_ & _ & _ & E1 & E2 & E3); [lia|intros _; lia|]. rewrite E1, E2. unfold init_ml. rewrite E3.
    destruct (N.eqb_spec m 0); [lia|]. lia.
  - exfalso. unfold unchecked_rehash in H. rewrite bind_get in H.
    pose proof (new_arrays_ok c (aid (tb s)) m (tb s) n HC Hm Hb) as X. unfold bind at 1 in H.
    destruct (new_arrays c (aid (tb s)) m (tb s) n) as [a s1 n1|kd s1 n1|]; try discriminate H. cbn [FoaBase.outcome] in X.
    destruct X as (_ & [[? _]|(_ & k & Eg & Hk & _)]); lia.
Qed.
Lemma fin_full : (forall s, Solo s LEnter -> sz (tb s) < ml (tb s) -> Fin s LEnter) -> forall s, Fin s LFull.
Proof.
  intros H s C S. pose proof S as [G NW Ht Hb Al]. apply comp_step.
  - pose proof (ginv_defined_full c HC C t d o s O G Ht Hb Al) as X. destruct (rehash_if_full c (tb s) O) as [[] t' n'|k t' n'|] eqn:R; [| |destruct (X eq_refl)].
    + eexists _, _. split; [eapply g_full with (cn := map (fun _ => 0) (a_groups (arr t'))); try eassumption; apply map_length|].
      cbn [set_box set_th th]. rewrite (self_err _ _ _ _ Ht), Ht. split; [discriminate|]. intros t1 N. apply others_err, N.
    + eexists _, _. split; [eapply g_full_exn with (cn := map (fun _ => 0) (a_groups (arr t'))); try eassumption; apply map_length|].
      cbn [set_box set_th th]. rewrite (self_err _ _ _ _ Ht), Ht. split; [discriminate|]. intros t1 N. apply others_err, N.
  - intros e C' [Gs [Ne Fr]] Fit. pose proof (ginv_step c HC _ _ _ G NW Gs) as G'.
    assert (forall t1 (p q : pc), nth_error (th C) t1 = Some p -> nth_error (th C') t1 = Some q -> p <> q -> t1 = t) as Own.
    { intros t1 p q E1 E2 N. destruct (Nat.eq_dec t1 t) as [E|E]; [exact E|]. rewrite (Fr _ E), E1 in E2. congruence. }
    destruct Gs as [C t1 d1 o1 s1 Ht1 Hb1|C t1 d1 o1 l1 s1 i thr e l' a s' Ht1 Hb1 Hs Ha|C t1 d1 o1 s1 n t' n' cn Ht1 Hb1 Hal Hr Hc|
      C t1 d1 o1 s1 n kd t' n' cn Ht1 Hb1 Hal Hr Hc|C t1 d1 o1 r Ht1|C t1 o1 Ht1|C t1 o1 n r w bs Ht1 Hp He Hbk|C t1 r Ht1];
      (assert (t1 = t) as -> by (eapply Own; [exact Ht1|cbn [set_box set_th th]; eapply self_err; exact Ht1|try discriminate; try (intros E; injection E as E; eapply moves_on; eauto)]));
      rewrite Ht in Ht1; try discriminate Ht1.
    + injection Ht1 as <- <- <-. destruct o; discriminate Hs.
    + injection Ht1 as <- <-. rewrite Hb in Hb1. injection Hb1 as <-.
      assert (St (set_box (set_th C t (At d o LEnter)) d (MkSh t' cn)) (MkSh t' cn) LEnter) as S'.
      { constructor; [exact G'|exact Fit|cbn [set_box set_th th]; eapply self_err; exact Ht| |].
        - assert (box (set_th C t (At d o LEnter)) d = Some s) as Hb' by exact Hb. rewrite (box_set _ _ _ _ _ Hb'), Nat.eqb_refl. reflexivity.
        - unfold alone in *. cbn [set_box set_th th]. rewrite others_set. exact Al. }
      apply (H (MkSh t' cn)); [exact (st_solo _ _ _ S')| |exact S']. cbn [tb].
      destruct (gi_box _ _ G d s Hb) as [k Hk]. eapply full_room; [|exact Hr].
      eapply out_inv; [exact Hk|]. eapply alone_out; [exact Ht|reflexivity|exact Al].
    + injection Ht1 as <- <-. rewrite Hb in Hb1. injection Hb1 as <-.
      apply (fin_ret (MkSh t' cn) RThrew). constructor; [exact G'|exact Fit|cbn [set_box set_th th]; eapply self_err; exact Ht| |].
      * assert (box (set_th C t (At d o (LRet RThrew))) d = Some s) as Hb' by exact Hb. rewrite (box_set _ _ _ _ _ Hb'), Nat.eqb_refl. reflexivity.
      * unfold alone in *. cbn [set_box set_th th]. rewrite others_set. exact Al.
Qed.

Ltac back := apply fin_back; [discriminate|discriminate|]; intros HS free i thr e l' a s' Hs Ha HS'.
Lemma fin_done s r : Fin s (LDone r).
Proof. back. destruct o; cbn in Hs; injection Hs as <- <- <-; apply fin_ret. Qed.
Lemma fin_unl s g x r : Fin s (LUnl g x r).
Proof. back. destruct o; cbn in Hs; try discriminate Hs; injection Hs as <- <- <-; apply fin_done. Qed.
Lemma apply_shape e (s s' : Sh) : apply e s = Some s' -> a_gsi (arr (tb s')) = a_gsi (arr (tb s)) /\ a_mask (arr (tb s')) = a_mask (arr (tb s)) /\
  ((forall g, e <> ECnt g) -> cnt s' = cnt s).
Proof.
  intros H. assert (forall g f a u n, put_group g f (arr (tb s)) O = Ret u a n -> a_gsi a = a_gsi (arr (tb s)) /\ a_mask a = a_mask (arr (tb s))) as P.
  { unfold put_group. intros g f a u n. destruct (a_elems (arr (tb s))); [|discriminate]. destruct (nth_error (a_groups (arr (tb s))) g); [|discriminate]. intros [= _ <- _]. auto. }
  destruct e; cbn [apply] in H; unfold on_groups in H.
  - injection H as <-. auto.
  - injection H as <-. auto.
  - destruct (sz (tb s) =? 0); [discriminate|]. injection H as <-. auto.
  - destruct b; [|injection H as <-; auto]. destruct (ml (tb s) =? 0); [discriminate|]. injection H as <-. auto.
  - destruct (put_group _ _ _ _) eqn:E; try discriminate. injection H as <-. cbn [tb set_arr arr cnt]. destruct (P _ _ _ _ _ E). auto.
  - destruct (put_group _ _ _ _) eqn:E; try discriminate. injection H as <-. cbn [tb set_arr arr cnt]. destruct (P _ _ _ _ _ E). auto.
  - destruct (put_group _ _ _ _) eqn:E; try discriminate. injection H as <-. cbn [tb set_arr arr cnt]. destruct (P _ _ _ _ _ E). auto.
  - destruct (nth_error (cnt s) g); [|discriminate]. injection H as <-. cbn [tb]. repeat split. intros N. destruct (N g eq_refl).
  - unfold put_cell in H. destruct (a_elems (arr (tb s))); [|discriminate]. destruct (nth_error l i); [|discriminate]. injection H as <-. auto.
Qed.
End Solo.
