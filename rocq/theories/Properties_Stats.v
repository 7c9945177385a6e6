(** C44: running statistics. *)
From Coq Require Import NArith ZArith QArith List Lia Arith Field ZifyN ZifyNat ZifyBool.
From Verif Require Import StatsModel.
Import ListNotations.
Local Open Scope Q_scope.

(** * Specification *)
Definition sum (l : list Q) : Q := fold_right Qplus 0 l.
Definition mean (l : list Q) : Q := sum l / inject_Z (Z.of_nat (length l)).
Definition true_variance (l : list Q) : Q := mean (map (fun x => (x - mean l) * (x - mean l)) l).
(** the last k elements *)
Definition last_n {A} (k : nat) (l : list A) : list A := skipn (length l - k) l.

(** * Proofs *)
Definition sq (l : list Q) : Q := sum (map (fun x => x * x) l).
Lemma sum_app a b : sum (a ++ b) == sum a + sum b.
Proof. induction a as [|x a IH]; cbn [app]; unfold sum in *; cbn [fold_right]; [ring|]. rewrite IH. ring. Qed.
Lemma sq_app a b : sq (a ++ b) == sq a + sq b.
Proof. unfold sq. rewrite map_app. apply sum_app. Qed.
Lemma dev_sum c l : sum (map (fun x => (x - c) * (x - c)) l) == sq l - 2 * c * sum l + inject_Z (Z.of_nat (length l)) * c * c.
Proof.
  induction l as [|x l IH]; [unfold sq, sum; cbn [map fold_right length]; change (inject_Z (Z.of_nat 0)) with 0; ring|]. cbn [map length]. unfold sq in *. cbn [map sum fold_right]. fold (sum (map (fun x => (x - c) * (x - c)) l)) (sum (map (fun x => x * x) l)) (sum l).
  rewrite IH. rewrite Nat2Z.inj_succ, <- Z.add_1_r, inject_Z_plus. ring.
Qed.
Lemma inject_pos n : (0 < n)%Z -> ~ inject_Z n == 0.
Proof. intros H E. unfold Qeq in E. cbn in E. lia. Qed.

Definition good (n : nat) (l : list Q) (d : sequence_stats_data) : Prop :=
  length l = n /\ (n = 0%nat -> m d == 0 /\ s d == 0) /\ (n <> 0%nat -> m d == mean l /\ s d == sq l - sum l * sum l / inject_Z (Z.of_nat n)).
Lemma welford_good n l d x : good n l d -> good (S n) (l ++ [x]) (welford (N.of_nat (S n)) x d).
Proof.
  intros (L & Z0 & G). assert (length (l ++ [x]) = S n) as L' by (rewrite app_length; cbn; lia). split; [exact L'|]. split; [discriminate|]. intros _.
  unfold mean. rewrite L'. rewrite sum_app, sq_app. replace (sum [x]) with (x + 0) by reflexivity. replace (sq [x]) with (x * x + 0) by reflexivity.
  unfold welford, Q_of. cbn [m s]. 
  replace (Z.of_N (N.of_nat (S n))) with (Z.of_nat (S n)) by lia.
  destruct (Nat.eq_dec n 0) as [E|Ne].
  - destruct (Z0 E) as [Em Es]. rewrite E in *. destruct l; [|discriminate L]. rewrite Em, Es. unfold sum, sq, sum. cbn [map fold_right]. change (inject_Z (Z.of_nat 1)) with 1. change ((N.of_nat 1 =? 1)%N) with true. cbv iota. split; field.
  - destruct (G Ne) as [Em Es]. rewrite Em, Es. replace (N.eqb (N.of_nat (S n)) 1) with false by (symmetry; apply N.eqb_neq; lia).
    unfold mean. rewrite L. rewrite Nat2Z.inj_succ, <- Z.add_1_r, inject_Z_plus.
    assert (~ inject_Z (Z.of_nat n) == 0) as H1 by (apply inject_pos; lia).
    assert (~ inject_Z (Z.of_nat n) + inject_Z 1 == 0) as H2 by (rewrite <- inject_Z_plus; apply inject_pos; lia).
    change (inject_Z 1) with 1 in *. set (N_ := inject_Z (Z.of_nat n)) in *. split; field; auto.
Qed.
Lemma good_variance n l d : good n l d -> n <> 0%nat -> s d / inject_Z (Z.of_nat n) == true_variance l.
Proof.
  intros (L & _ & G) Ne. destruct (G Ne) as [_ Es]. unfold true_variance. unfold mean at 1. rewrite dev_sum, map_length, Es, L. unfold mean. rewrite L.
  assert (~ inject_Z (Z.of_nat n) == 0) as H1 by (apply inject_pos; lia). field. exact H1.
Qed.

(** column i of the samples *)
Definition column (i : nat) (xss : list (list Q)) : list Q := map (fun xs => nth i xs 0) xss.
Definition count_after (k : nat) : nat := match k with O => O | S j => S (N.to_nat (N.of_nat j mod (2 ^ 64 - 1))) end.
Definition Good (k : nat) (xss : list (list Q)) (c : cumulative_stats) : Prop :=
  length (data c) = k /\ count c = N.of_nat (count_after (length xss)) /\
  forall i, (i < k)%nat -> good (count_after (length xss)) (column i (last_n (count_after (length xss)) xss)) (nth i (data c) data0).
Lemma count_le k : (count_after k <= k)%nat.
Proof. destruct k as [|j]; [apply le_n|]. unfold count_after. pose proof (N.mod_le (N.of_nat j) (2 ^ 64 - 1) ltac:(discriminate)). lia. Qed.
Lemma count_bound k : (N.of_nat (count_after k) < 2 ^ 64)%N.
Proof. destruct k as [|j]; [reflexivity|]. unfold count_after. pose proof (N.mod_lt (N.of_nat j) (2 ^ 64 - 1) ltac:(discriminate)). change (2 ^ 64)%N with 18446744073709551616%N in *. lia. Qed.
Lemma count_next k : (N.of_nat (count_after k) + 1 < 2 ^ 64)%N -> count_after (S k) = S (count_after k).
Proof.
  destruct k as [|j]; [reflexivity|]. unfold count_after. intros H. f_equal. rewrite Nat2N.inj_succ, <- N.add_1_r.
  change (2 ^ 64 - 1)%N with 18446744073709551615%N in *. change (2 ^ 64)%N with 18446744073709551616%N in *.
  pose proof (N.mod_lt (N.of_nat j) 18446744073709551615 ltac:(discriminate)). pose proof (N.div_mod (N.of_nat j) 18446744073709551615 ltac:(discriminate)).
  rewrite <- (N.mod_unique (N.of_nat j + 1) 18446744073709551615 (N.of_nat j / 18446744073709551615) (N.of_nat j mod 18446744073709551615 + 1)); lia.
Qed.
Lemma count_wrap k : (N.of_nat (count_after k) + 1 = 2 ^ 64)%N -> count_after (S k) = 1%nat.
Proof.
  destruct k as [|j]; [discriminate|]. unfold count_after. intros H. f_equal. rewrite Nat2N.inj_succ, <- N.add_1_r.
  change (2 ^ 64 - 1)%N with 18446744073709551615%N in *. change (2 ^ 64)%N with 18446744073709551616%N in *.
  pose proof (N.mod_lt (N.of_nat j) 18446744073709551615 ltac:(discriminate)). pose proof (N.div_mod (N.of_nat j) 18446744073709551615 ltac:(discriminate)).
  rewrite <- (N.mod_unique (N.of_nat j + 1) 18446744073709551615 (N.of_nat j / 18446744073709551615 + 1) 0); lia.
Qed.
Lemma last_snoc (A : Type) k (l : list A) x : (k <= length l)%nat -> last_n (S k) (l ++ [x]) = last_n k l ++ [x].
Proof.
  intros H. unfold last_n. rewrite app_length. cbn [length]. replace (length l + 1 - S k)%nat with (length l - k)%nat by lia.
  rewrite skipn_app. replace (length l - k - length l)%nat with 0%nat by lia. reflexivity.
Qed.
Lemma nth_welford n xs ds i : length xs = length ds -> (i < length ds)%nat ->
  nth i (map (fun p => welford n (fst p) (snd p)) (combine xs ds)) data0 = welford n (nth i xs 0) (nth i ds data0).
Proof.
  revert ds i. induction xs as [|x xs IH]; intros [|d ds] i L H; try discriminate L; cbn in H; [lia|]. destruct i; [reflexivity|]. cbn. apply IH; [now injection L|lia].
Qed.
Lemma repeat_nth i k : nth i (repeat data0 k) data0 = data0.
Proof. revert i. induction k as [|k IH]; intros [|i]; cbn; auto. Qed.
Lemma good0 : good 0 [] data0.
Proof. split; [reflexivity|]. split; [intros _; split; reflexivity|]. intros H. now destruct H. Qed.

Lemma add_Good k xss c xs : length xs = k -> Good k xss c -> Good k (xss ++ [xs]) (add xs c).
Proof.
  intros Lx (Ld & Hc & G). unfold Good. rewrite app_length. cbn [length]. rewrite Nat.add_1_r. unfold add. rewrite Hc.
  pose proof (count_bound (length xss)) as B. change (2 ^ 64)%N with 18446744073709551616%N in B.
  set (ca := count_after (length xss)) in *.
  destruct (N.eq_dec (N.of_nat ca + 1) 18446744073709551616) as [W|W].
  - (* wraparound *) rewrite W. change (18446744073709551616 mod 2 ^ 64)%N with 0%N. change ((0 =? 0)%N) with true. cbn [count data reset]. cbv iota.
    rewrite (count_wrap (length xss)) by exact W. split; [rewrite map_length, combine_length, repeat_length; lia|]. split; [reflexivity|].
    intros i Hi. rewrite nth_welford by (rewrite ?repeat_length; lia). rewrite repeat_nth. rewrite last_snoc by lia. unfold column. rewrite map_app. cbn [map].
    replace (last_n 0 xss) with (@nil (list Q)) by (unfold last_n; rewrite Nat.sub_0_r, skipn_all; reflexivity). cbn [map app].
    apply (welford_good 0 [] data0). apply good0.
  - assert ((N.of_nat ca + 1) mod 2 ^ 64 = N.of_nat ca + 1)%N as -> by (apply N.mod_small; change (2 ^ 64)%N with 18446744073709551616%N; lia).
    replace ((N.of_nat ca + 1 =? 0)%N) with false by (symmetry; apply N.eqb_neq; lia). cbn [count data]. cbv iota.
    rewrite (count_next (length xss)) by (fold ca; change (2 ^ 64)%N with 18446744073709551616%N; lia). fold ca.
    split; [rewrite map_length, combine_length; lia|]. split; [lia|].
    intros i Hi. rewrite nth_welford by lia. pose proof (count_le (length xss)) as CL. fold ca in CL. rewrite last_snoc by exact CL. unfold column. rewrite map_app. cbn [map].
    replace (N.of_nat ca + 1)%N with (N.of_nat (S ca)) by lia. apply welford_good. apply G. exact Hi.
Qed.
Lemma record_Good k xss : Forall (fun xs => length xs = k) xss -> Good k xss (record k xss).
Proof.
  intros F. unfold record. induction xss as [|xs xss IH] using rev_ind.
  - split; [apply repeat_length|]. split; [reflexivity|]. intros i Hi. cbn [fold_left data reset]. rewrite repeat_nth. apply good0.
  - apply Forall_app in F as [F1 F2]. rewrite fold_left_app. cbn [fold_left]. apply add_Good; [now inversion F2|apply IH; exact F1].
Qed.

(** * C44 *)
(** with fewer than 2^64 samples, the count, average and variance of every sequence are the exact ones of all samples recorded *)
Theorem C44_statistics_are_exact : forall k xss, Forall (fun xs => length xs = k) xss -> xss <> [] -> (N.of_nat (length xss) < 2 ^ 64)%N ->
  count (record k xss) = N.of_nat (length xss) /\
  forall i, (i < k)%nat -> average (record k xss) i == mean (column i xss) /\ variance (record k xss) i == true_variance (column i xss).
Proof.
  intros k xss F Ne B. destruct (record_Good k xss F) as (L & Hc & G).
  assert (count_after (length xss) = length xss) as E.
  { destruct (length xss) as [|j]; [reflexivity|]. unfold count_after. rewrite N.mod_small; [lia|]. change (2 ^ 64)%N with 18446744073709551616%N in *. lia. }
  rewrite E in *. split; [exact Hc|]. intros i Hi. specialize (G i Hi). unfold last_n in G. rewrite Nat.sub_diag in G. cbn [skipn] in G.
  assert (length xss <> 0)%nat as Nz by (destruct xss; [now destruct Ne|discriminate]).
  unfold average, variance. rewrite Hc. replace ((N.of_nat (length xss) =? 0)%N) with false by (symmetry; apply N.eqb_neq; lia). split; [apply G; exact Nz|].
  unfold Q_of. rewrite nat_N_Z. eapply good_variance; eauto.
Qed.
Print Assumptions C44_statistics_are_exact.
(** in general they are the exact ones of the last count samples, count running through 1, 2, ..., 2^64 - 1, 1, ... *)
Theorem C44_counting_restarts_cleanly : forall k xss, Forall (fun xs => length xs = k) xss -> xss <> [] ->
  count (record k xss) = (N.of_nat (length xss - 1) mod (2 ^ 64 - 1) + 1)%N /\
  forall i, (i < k)%nat -> average (record k xss) i == mean (column i (last_n (N.to_nat (count (record k xss))) xss)) /\
                           variance (record k xss) i == true_variance (column i (last_n (N.to_nat (count (record k xss))) xss)).
Proof.
  intros k xss F Ne. destruct (record_Good k xss F) as (L & Hc & G).
  assert (count_after (length xss) = N.to_nat (N.of_nat (length xss - 1) mod (2 ^ 64 - 1) + 1)) as E.
  { destruct xss as [|x xss]; [now destruct Ne|]. cbn [length count_after]. rewrite Nat.sub_1_r. cbn [pred]. lia. }
  rewrite Hc. rewrite Nat2N.id. split; [lia|]. intros i Hi. specialize (G i Hi).
  assert (count_after (length xss) <> 0)%nat as Nz by lia. unfold average, variance. rewrite Hc. replace ((N.of_nat (count_after (length xss)) =? 0)%N) with false by (symmetry; apply N.eqb_neq; lia).
  split; [apply G; exact Nz|]. unfold Q_of. rewrite nat_N_Z. eapply good_variance; eauto.
Qed.
Print Assumptions C44_counting_restarts_cleanly.
(** without samples everything is 0 *)
Theorem C44_empty_statistics : forall k i, count (record k []) = 0%N /\ average (record k []) i == 0 /\ variance (record k []) i == 0.
Proof. intros k i. split; [reflexivity|]. unfold average. cbn [record fold_left reset data]. rewrite repeat_nth. split; reflexivity. Qed.
Print Assumptions C44_empty_statistics.
Example C44_example : let c := record 2 [[1; 0]; [2; 1]; [6; 0]; [1; 1]] in
  count c = 4%N /\ average c 0 == 5 # 2 /\ variance c 0 == 17 # 4 /\ average c 1 == 1 # 2 /\ variance c 1 == 1 # 4.
Proof. vm_compute. repeat split; reflexivity. Qed.
