(** Growth of the closed-addressing containers. *)
From Coq Require Import NArith ZArith Bool List Arith Lia Permutation.
From Verif Require Import FloatModel FloatProofs HashArithModel HashArithProofs FoaModel FoaGroup FoaBase FcaLinks FcaLinksProofs FcaModel FcaInv FcaIter FcaTab FcaRehash FcaLoad FcaOps FcaSpec FcaWorld FcaApi FcaRun FcaRun4 FcaProps FcaProps2 FcaReserve FcaCopy FcaGrowSpec.
From Verif Require FcaGrowKeep.
Import ListNotations.
Local Open Scope N_scope.

(** *** bucket counts *)
Definition max_prime : N := 1649267441651.
Lemma sizes_ratio a b : In a sizes -> In b sizes -> a < b -> 9 * a <= 5 * b.
Proof.
  assert (forallb (fun a => forallb (fun b => (b <=? a) || (9 * a <=? 5 * b)) sizes) sizes = true) as X by (vm_compute; reflexivity).
  intros A B L. rewrite forallb_forall in X. specialize (X a A). rewrite forallb_forall in X. specialize (X b B).
  apply orb_prop in X as [X|X]; apply N.leb_le in X; [lia|exact X].
Qed.
Lemma sizes_max a : In a sizes -> a <= max_prime.
Proof.
  assert (forallb (fun a => a <=? max_prime) sizes = true) as X by (vm_compute; reflexivity). rewrite forallb_forall in X. intros H. apply N.leb_le, X, H.
Qed.
(** the bucket count for n is the first of the table, or less than 29/13 times n *)
Lemma index_tight l : forall i n p, l <> [] -> (forall a b k, nth_error (p :: l) k = Some a -> nth_error (p :: l) (S k) = Some b -> 13 * b <= 29 * a) -> p < n ->
  forall b, nth_error l (size_index_from l i n - i) = Some b -> 13 * b <= 29 * n.
Proof.
  induction l as [|e l IH]; intros i n p N0 R L b Hb; [contradiction|].
  assert (13 * e <= 29 * p) as Re by (apply (R p e O); reflexivity).
  destruct l as [|e2 l].
  - cbn [size_index_from] in Hb. rewrite Nat.sub_diag in Hb. cbn in Hb. injection Hb as <-. lia.
  - change (size_index_from (e :: e2 :: l) i n) with (if (n <=? e) then i else size_index_from (e2 :: l) (S i) n) in Hb. destruct (N.leb_spec n e) as [Le|Le].
    + rewrite Nat.sub_diag in Hb. cbn in Hb. injection Hb as <-. lia.
    + destruct (size_index_from_spec (e2 :: l) (S i) n ltac:(discriminate)) as (_ & _ & Li & _).
      apply (IH (S i) n e); [discriminate| |exact Le|].
      * intros a b0 k A B. apply (R a b0 (S k)); assumption.
      * assert (S i <= size_index_from (e2 :: l) (S i) n)%nat as G by (clear - Li; lia). clear - Hb G.
        replace (size_index_from (e2 :: l) (S i) n - i)%nat with (S (size_index_from (e2 :: l) (S i) n - S i)) in Hb by lia. exact Hb.
Qed.
Lemma ratio_check : forallb (fun k => match nth_error sizes k, nth_error sizes (S k) with Some a, Some b => 13 * b <=? 29 * a | _, _ => true end) (seq 0 38) = true.
Proof. vm_compute. reflexivity. Qed.
Lemma bcf_tight n b : bucket_count_for n = Some b -> b <= 13 \/ 13 * b <= 29 * n.
Proof.
  unfold bucket_count_for. destruct (N.eqb_spec n 0) as [->|Z]; [intros [= <-]; lia|]. unfold fca_size, fca_size_index. intros H.
  change (size_index_from sizes 0 n) with (if n <=? 13 then 0%nat else size_index_from (tl sizes) 1 n) in H. destruct (N.leb_spec n 13) as [L|L].
  - left. injection H as <-. apply N.le_refl.
  - right. apply (index_tight (tl sizes) 1 n 13) with (b := b); [discriminate| |exact L|].
    + intros a b0 k A B. change (13 :: tl sizes) with sizes in A, B. pose proof ratio_check as X. rewrite forallb_forall in X.
      assert (S k < length sizes)%nat as Lk by (apply nth_error_Some; congruence). change (length sizes) with 38%nat in Lk.
      specialize (X k ltac:(apply in_seq; clear - Lk; lia)). rewrite A, B in X. apply N.leb_le in X. exact X.
    + destruct (size_index_from_spec (tl sizes) 1 n ltac:(discriminate)) as (_ & _ & Li & _).
      assert (1 <= size_index_from (tl sizes) 1 n)%nat as G by (clear - Li; lia). remember (size_index_from (tl sizes) 1 n) as q. clear - H G.
      destruct q as [|q]; [lia|]. cbn [Nat.sub]. rewrite Nat.sub_0_r. exact H.
Qed.

Section Step.
Context {K V : Type} (c : FCfg K V).
Notation table := (FcaModel.table K V).
Notation St := (table * heap)%type.
Notation mlf s := (f_mlf (fst s)). Notation mxl s := (f_ml (fst s)).
Notation prog s := (in_program_arena c (fst s) (snd s)).
(** how an operation changes bucket_count(), size() *)
Inductive change (o : op1 K V) (s s' : St) : Prop :=
| c_less : inserts o = false -> buckets s' = buckets s -> size s' <= size s -> change o s s'
| c_same : buckets s' = buckets s -> size s' = size s -> change o s s'
| c_put : buckets s' = buckets s -> size s' = size s + 1 -> change o s s'
| c_grow : inserts o = true -> buckets s < buckets s' -> size s' = size s + 1 -> mxl s < size s + 1 -> bucket_count_for (min_buckets (size s + 1) (mlf s)) = Some (buckets s') -> change o s s'
| c_lost : inserts o = true -> buckets s' = buckets s -> size s' < size s -> mxl s < size s + 1 -> change o s s'.
Lemma inserts_strong (o : op1 K V) : inserts o = true -> strong1 o. Proof. destruct o; cbn; intros H; try discriminate; exact I. Qed.
Lemma erases_removes (o : op1 K V) : erases o = true -> removes o. Proof. destruct o; cbn; intros H; try discriminate; exact I. Qed.
Lemma single_cases (o : op1 K V) : single o = true -> inserts o = true \/ erases o = true \/ reads o.
Proof. destruct o; cbn; intros H; try discriminate; auto. Qed.
Lemma prog_next s o s' : prog s -> pre1 c o (fst s) -> after1 c s o s' -> prog s'.
Proof.
  intros (rs & w & i & R & Hs & Eh) P (n & E).
  assert (forall res, returned (exec c (On i o) w n) res (put_tab w i (Some (fst s')) (snd s')) -> prog s') as NX.
  { intros res X. exists (rs ++ [(On i o, res)]), (put_tab w i (Some (fst s')) (snd s')), i. split; [|split; [|reflexivity]].
    - apply (runs_snoc c _ rs w (On i o) n res); [exact R|exists (fst s); split; assumption|exact Logic.I|exact X].
    - rewrite (put_slot w i _ _ i (fst s) Hs), Nat.eqb_refl. reflexivity. }
  unfold exec, run1 in NX. rewrite Hs, Eh in NX. rewrite <- surjective_pairing in NX.
  destruct (exec1 c o s n) as [v x n'|k x n'|]; [| |contradiction]; subst x; [apply (NX (Done v))|apply (NX (Threw k))]; split; reflexivity.
Qed.
Lemma filter_len {A} (f : A -> bool) l : (length (filter f l) <= length l)%nat.
Proof. induction l as [|a l IH]; cbn; [lia|]. destruct (f a); cbn; lia. Qed.
Lemma erase_shrinks (t : table) o p l res l' : erases o = true -> pre1 c o t -> FcaSpec.spec1 (V:=V) (keqf (base c)) (multi c) p o l res l' -> (length l' <= length l)%nat.
Proof.
  intros He Hp H. destruct o; try discriminate He; destruct res as [v|k0]; cbn [FcaSpec.spec1] in H; try destruct v; try contradiction.
  - destruct H as [_ ->]. apply filter_len.
  - destruct H as [->|(_ & gone & P & _)]; [lia|]. rewrite (Permutation_length P), app_length. lia.
  - destruct H as (l1 & l2 & _ & -> & -> & _). rewrite !app_length. cbn. lia.
  - subst l'. cbn [pre1] in Hp. destruct Hp as [Hp _]. rewrite app_length, firstn_length, skipn_length. lia.
  - destruct H as [_ ->]. apply filter_len.
  - destruct H as (d & u & -> & ->). rewrite !app_length. pose proof (filter_len (fun x => negb (pr (snd x))) d). lia.
  - subst l'. cbn. lia.
Qed.
Lemma step_change s o s' : prog s -> single o = true -> pre1 c o (fst s) -> after1 c s o s' -> mlf s' = mlf s /\ change o s s'.
Proof.
  intros H So P A. pose proof (prog_next s o s' H P A) as H'. destruct (arena_program c _ _ H) as [HP M]. destruct (arena_program c _ _ H') as [HP' M'].
  destruct A as (n & E). pose proof (step1 c (fst s) (snd s) o n HP P) as Q. rewrite <- surjective_pairing in Q.
  pose proof (size_ok c _ _ HP) as Sz. pose proof (size_ok c _ _ HP') as Sz'.
  destruct (single_cases o So) as [Hi|[He|Hr]].
  - pose proof (inserts_strong o Hi) as St1. destruct (exec1 c o s n) as [v x n'|k x n'|] eqn:Ex; [| |contradiction]; subst x.
    + rewrite (surjective_pairing s) in Ex. destruct (insert_frame c _ _ o n v s' n' HP P St1 Ex) as [Fm Fs]. split; [exact Fm|].
      pose proof (insert_bc c _ _ o n v s' n' H P St1 Ex) as [Up _].
      destruct (prog_si c _ _ HP) as (r & I). pose proof (insert_cases c _ _ r o n I P St1) as X. rewrite Ex in X.
      destruct Fs as [[Fs Fb]|Fs]; [apply c_same; assumption|].
      destruct (N.eq_dec (buckets s') (buckets s)) as [Eb|Eb]; [apply c_put; assumption|].
      assert (buckets s < buckets s') as Lt. { clear - Up Eb. unfold buckets in *. lia. }
      destruct X as [[X|(_ & X & _)]|(hint & y & it & (l0 & l' & Pm & _ & S' & F & _ & B) & G)]; cbn [fst] in *.
      * exfalso. apply Eb. unfold buckets. rewrite X. reflexivity.
      * exfalso. apply Eb. exact X.
      * destruct (N.le_gt_cases (f_size (fst s) + 1) (f_ml (fst s))) as [Lm|Lm]; [exfalso; apply Eb; apply (B Lm)|].
        destruct G as [G|G]; cbn [fst] in G; [clear - G Lm; lia|].
        apply c_grow; try assumption. pose proof (mlf_ok c _ _ (si_t _ _ _ _ I)) as Hm. cbn [fst] in Hm.
        rewrite N.max_r in G by (apply mb_mono; [lia|exact Hm]). exact G.
    + pose proof (FcaGrowKeep.insert_throws_keeps c o ltac:(destruct o; cbn in *; try discriminate; exact Logic.I) s n) as Xk. rewrite Ex in Xk.
      unfold FcaGrowKeep.sh, FcaGrowKeep.tsh, FcaGrowKeep.bsh in Xk. injection Xk as _ Xb Xm Xl. split; [exact Xm|].
      rewrite (surjective_pairing s) in Ex. destruct (insert_exn c _ _ o n k s' n' HP P St1 Ex) as (_ & _ & Kp & lost & Pm & _).
      assert (buckets s' = buckets s) as Eb. { unfold buckets, bucket_count. rewrite Xb. reflexivity. }
      destruct (N.le_gt_cases (f_size (fst s) + 1) (f_ml (fst s))) as [Lm|Lm].
      * destruct (Kp (or_intror Lm)) as [Et _]. apply c_same; [exact Eb|]. unfold size. rewrite Et. reflexivity.
      * apply Permutation_length in Pm. rewrite app_length in Pm. destruct (N.eq_dec (size s') (size s)) as [Es|Es]; [apply c_same; assumption|].
        apply c_lost; try assumption. clear - Es Sz Sz' Pm. unfold size in *. rewrite Sz, Sz' in *. clear Sz Sz'. lia.
  - pose proof (FcaGrowKeep.erase_keeps_load c o ltac:(destruct o; cbn in *; try discriminate; exact Logic.I) s n) as Xk.
    assert (FcaGrowKeep.sh s' = FcaGrowKeep.sh s /\ exists res, FcaSpec.spec1 (V:=V) (keqf (base c)) (multi c) (f_pid (fst s)) o (elems (fst s)) res (elems (fst s'))) as [Y (res & Sp)].
    { destruct (exec1 c o s n) as [v x n'|k x n'|]; [| |contradiction]; subst x; (split; [exact Xk|]); destruct Q as (_ & Sp & _); eauto. }
    unfold FcaGrowKeep.sh, FcaGrowKeep.tsh, FcaGrowKeep.bsh in Y. injection Y as _ Yb Ym _. split; [exact Ym|].
    pose proof (erase_shrinks _ _ _ _ _ _ He P Sp) as Ls. apply c_less.
    + destruct o; try discriminate He; reflexivity.
    + unfold buckets, bucket_count. rewrite Yb. reflexivity.
    + unfold size. rewrite Sz, Sz'. clear - Ls. lia.
  - pose proof (reads_same c _ _ o n HP Hr) as X. rewrite <- surjective_pairing in X.
    assert (s' = s) as -> by (destruct (exec1 c o s n); cbn [ends] in X; [congruence|congruence|contradiction]). split; [reflexivity|apply c_same; reflexivity].
Qed.

(** *** the potential *)
Section Arith.
Local Open Scope Z_scope.
Variable F : Z.
Hypothesis HF : 0 < F.
(** T elements moved so far, X inserted or there at the beginning, s present; A = F * (maximum load, without rounding) *)
Definition Pot (A T X s : Z) : Prop := F * (T + s) <= 4 * F * X + 3 * (A - F * s).
Lemma pot_grow A A' T X s : Pot A T X s -> 9 * A <= 5 * A' -> (s + 1) * (2 ^ 23 - 1) * F <= 2 ^ 23 * A' -> 0 <= s -> Pot A' (T + s) (X + 1) (s + 1).
Proof. unfold Pot. intros P R N0 S0. set (Y := F * s) in *. assert (0 <= Y) by (unfold Y; nia). replace ((s + 1) * (2 ^ 23 - 1) * F) with ((2 ^ 23 - 1) * Y + (2 ^ 23 - 1) * F) in N0 by (unfold Y; ring).
  replace (F * (T + s + (s + 1))) with (F * (T + s) + Y + F) by (unfold Y; ring). replace (F * (s + 1)) with (Y + F) by (unfold Y; ring). clearbody Y.
  replace (4 * F * (X + 1)) with (4 * F * X + 4 * F) by ring. set (P1 := F * (T + s)) in *. set (P2 := 4 * F * X) in *. clearbody P1 P2. lia.
Qed.
Lemma pot_put A T X s : Pot A T X s -> Pot A T (X + 1) (s + 1).
Proof. unfold Pot. intros P. nia. Qed.
Lemma pot_less A T X s d : Pot A T X s -> 0 <= d -> Pot A T X (s - d).
Proof. unfold Pot. intros P D. assert (0 <= F * d) by nia. nia. Qed.
Lemma pot_lost A T X s d : Pot A T X s -> 0 <= d -> Pot A (T + d) X (s - d).
Proof. unfold Pot. intros P D. assert (0 <= F * d) by nia. nia. Qed.
Lemma pot_full A T X s D : Pot A T X s -> 3 * (A - F * s) < (D + 1) * F -> T + s <= 4 * X + D.
Proof. unfold Pot. intros P L. assert (F * (T + s) < F * (4 * X + D + 1)) as Q by nia. apply Z.mul_lt_mono_pos_l in Q; [lia|exact HF]. Qed.
Lemma full_9 A s : A * (2 ^ 53 - 1) <= (s + 1) * F * 2 ^ 53 -> 0 <= s < 2 ^ 53 -> 3 * (A - F * s) < (9 + 1) * F.
Proof.
  intros H L. set (Y := F * s). replace ((s + 1) * F * 2 ^ 53) with (2 ^ 53 * Y + 2 ^ 53 * F) in H by (unfold Y; ring).
  assert (Y <= F * (2 ^ 53 - 1)) as LY by (unfold Y; apply Z.mul_le_mono_nonneg_l; lia). clearbody Y. lia.
Qed.
Lemma full_3 A s : A * (2 ^ 53 - 1) <= (s + 1) * F * 2 ^ 53 -> 0 <= s <= 2 ^ 30 -> 3 * (A - F * s) < (3 + 1) * F.
Proof.
  intros H L. set (Y := F * s). replace ((s + 1) * F * 2 ^ 53) with (2 ^ 53 * Y + 2 ^ 53 * F) in H by (unfold Y; ring).
  assert (Y <= F * 2 ^ 30) as LY by (unfold Y; apply Z.mul_le_mono_nonneg_l; lia). clearbody Y. lia.
Qed.
End Arith.
Notation f1 := f32_one.
Definition load (m : Z) (s : St) : Z := (m * Z.of_N (buckets s))%Z.
Lemma f1_pos : (0 < f1)%Z. Proof. reflexivity. Qed.
Lemma no_buckets_no_elements s : prog s -> buckets s = 0 -> size s = 0.
Proof.
  intros H Z. destruct (arena_program c _ _ H) as [HP _]. pose proof (prog_inv c _ _ HP) as T. pose proof (ti_size _ _ _ T) as Sz. unfold size. rewrite Sz.
  destruct (ci_b _ _ _ (ti_c _ _ _ T)) as [[_ E]|(o & W & _)]; [rewrite E; reflexivity|exfalso].
  pose proof (fca_size_in _ _ (wb_size _ _ _ W)) as Q. destruct (In_nth_error _ _ Q) as (j & Ej). pose proof (sizes_pos _ _ Ej). unfold buckets, bucket_count in Z. lia.
Qed.
Lemma buckets_in s : prog s -> buckets s = 0 \/ In (buckets s) sizes.
Proof. intros H. destruct (arena_program c _ _ H) as [HP _]. apply (bc_size c _ _ (prog_inv c _ _ HP)). Qed.
Lemma size_room s : prog s -> size s < 2 ^ 53.
Proof.
  intros H. destruct (arena_program c _ _ H) as [HP _]. pose proof (prog_inv c _ _ HP) as T. pose proof (ti_size _ _ _ T) as Sz. pose proof (ti_room _ _ _ T) as Rm. unfold size, max_elems in *. rewrite Sz. exact Rm.
Qed.
Lemma infinite_never_full s : prog s -> mlf s = None -> mxl s < size s + 1 -> size s = 0.
Proof.
  intros H E L. destruct (N.eq_dec (buckets s) 0) as [Z|Z]; [apply no_buckets_no_elements; assumption|exfalso].
  destruct (arena_program c _ _ H) as [_ M]. rewrite M, E in L. unfold max_load_for in L. destruct (N.eqb_spec (bucket_count (f_b (fst s))) 0) as [Y|Y]; [apply Z; exact Y|].
  pose proof (size_room s H) as R. unfold size_max in L. clear - L R. unfold size in *. lia.
Qed.
Lemma full_load s m : prog s -> mlf s = Some m -> 0 < buckets s -> mxl s < size s + 1 -> (load m s * (2 ^ 53 - 1) <= (Z.of_N (size s) + 1) * f1 * 2 ^ 53)%Z.
Proof.
  intros H E B L. destruct (arena_program c _ _ H) as [HP M]. pose proof (prog_inv c _ _ HP) as T. pose proof (mlf_ok c _ _ T) as Hm. rewrite E in Hm.
  pose proof (size_room s H) as R. rewrite M, E in L. pose proof (bc_bound _ _ (ci_b _ _ _ (ti_c _ _ _ T))) as BB.
  pose proof (ml_lower (size s + 1) (buckets s) m ltac:(lia) ltac:(unfold buckets in *; lia) Hm L) as X.
  rewrite N2Z.inj_add in X. change (Z.of_N 1) with 1%Z in X. exact X.
Qed.
Lemma grow_load s s' m : prog s -> prog s' -> mlf s = Some m -> buckets s < buckets s' -> bucket_count_for (min_buckets (size s + 1) (mlf s)) = Some (buckets s') -> min_buckets (size s + 1) (mlf s) <= max_prime ->
  ((Z.of_N (size s) + 1) * (2 ^ 23 - 1) * f1 <= 2 ^ 23 * load m s')%Z.
Proof.
  intros H H' E L G Le. destruct (arena_program c _ _ H) as [HP _]. pose proof (mlf_ok c _ _ (prog_inv c _ _ HP)) as Hm. rewrite E in *.
  destruct (arena_program c _ _ H') as [HP' _]. pose proof (bc_bound _ _ (ci_b _ _ _ (ti_c _ _ _ (prog_inv c _ _ HP')))) as BB.
  destruct (bcf_ok (min_buckets (size s + 1) (Some m))) as (b & Eb & _ & _ & Q). assert (b = buckets s') as -> by congruence.
  pose proof (near_mb (size s + 1) (buckets s') m ltac:(lia) ltac:(unfold buckets in *; lia) Hm (Q Le)) as X. unfold Near in X.
  rewrite N2Z.inj_add in X. change (Z.of_N 1) with 1%Z in X. unfold load. rewrite Z.mul_assoc. exact X.
Qed.
Lemma load_ratio s s' m : prog s -> prog s' -> (0 <= m)%Z -> buckets s < buckets s' -> (9 * load m s <= 5 * load m s')%Z.
Proof.
  intros H H' Hm L. unfold load. assert (9 * buckets s <= 5 * buckets s') as X.
  { destruct (buckets_in s H) as [Z|Z]; [rewrite Z; lia|]. destruct (buckets_in s' H') as [Y|Y]; [lia|]. apply sizes_ratio; assumption. }
  nia.
Qed.
Lemma beyond (s s' : St) : prog s' -> bucket_count_for (min_buckets (size s + 1) (mlf s)) = Some (buckets s') -> max_prime < min_buckets (size s + 1) (mlf s) -> buckets s' = max_prime.
Proof.
  intros H' G L. destruct (bcf_in _ _ G) as [Z|Is]; [|].
  - exfalso. destruct (bcf_ok (min_buckets (size s + 1) (mlf s))) as (b & Eb & _ & Q & _). assert (b = buckets s') as -> by congruence. unfold max_prime in L. specialize (Q ltac:(lia)). lia.
  - apply N.le_antisymm; [apply sizes_max; exact Is|]. destruct (N.le_gt_cases max_prime (buckets s')) as [Y|Y]; [exact Y|exfalso].
    assert (In max_prime sizes) as Im by (vm_compute; tauto). pose proof (bcf_less _ _ _ G Im Y) as X. lia.
Qed.
(** without a bound on the number of elements; the largest bucket count may be too small *)
Definition Acc9 (m : Z) (x : N) (T : N) (s : St) : Prop :=
  (Pot f1 (load m s) (Z.of_N T) (Z.of_N x) (Z.of_N (size s)) /\ T <= 4 * x + 9) \/ (buckets s = max_prime /\ T + size s <= 5 * x + 9).
Lemma at_bound m x T s : Acc9 m x T s -> T <= 5 * x + 9. Proof. intros [[_ H]|[_ H]]; lia. Qed.
Lemma at_step m x T o s s' : prog s -> prog s' -> mlf s = Some m -> change o s s' -> size s <= x -> Acc9 m x T s -> Acc9 m (x + (size s' - size s)) (T + moved o s s') s'.
Proof.
  intros H H' E C Lx A. pose proof f1_pos as F0.
  destruct (arena_program c _ _ H) as [HP _]. pose proof (mlf_ok c _ _ (prog_inv c _ _ HP)) as Hm. rewrite E in Hm. assert (0 <= m)%Z as Hm0 by (clear - Hm; assert (0 <= min_mlf)%Z by (vm_compute; discriminate); lia).
  unfold moved. pose proof (size_room s H) as R.
  assert (forall d, buckets s' = buckets s -> Pot f1 (load m s) (Z.of_N T) d (Z.of_N (size s)) -> load m s' = load m s) as LE by (intros d Eb _; unfold load; rewrite Eb; reflexivity).
  destruct C as [Ni Eb Ls|Eb Es|Eb Es|Hi Lb Es Lm G|Hi Eb Ls Lm].
  - rewrite Ni. replace (size s' - size s) with 0 by (clear - Ls; lia). rewrite !N.add_0_r. destruct A as [[P B]|[B P]]; [left|right; rewrite Eb; split; [exact B|clear - P Ls; lia]].
    split; [|exact B]. unfold load in *. rewrite Eb. replace (Z.of_N (size s')) with (Z.of_N (size s) - (Z.of_N (size s) - Z.of_N (size s')))%Z by ring.
    apply pot_less; [exact F0|exact P|clear - Ls; lia].
  - rewrite Eb, Es, N.eqb_refl, N.sub_diag. rewrite !N.add_0_r. replace (if inserts o then 0 else 0) with 0 by (destruct (inserts o); reflexivity). rewrite N.add_0_r.
    unfold Acc9, load in *. rewrite Eb, Es. exact A.
  - rewrite Eb, Es, N.eqb_refl. replace (size s - (size s + 1)) with 0 by (clear; lia). replace (if inserts o then 0 else 0) with 0 by (destruct (inserts o); reflexivity).
    replace (size s + 1 - size s) with 1 by (clear; lia). rewrite N.add_0_r. destruct A as [[P B]|[B P]]; [left|right; rewrite Eb, Es; split; [exact B|clear - P; lia]].
    split; [|clear - B; lia]. unfold load in *. rewrite Eb, Es, !N2Z.inj_add. apply pot_put; assumption.
  - rewrite Hi. destruct (N.eqb_spec (buckets s) (buckets s')) as [X|_]; [clear - X Lb; lia|]. rewrite Es. replace (size s + 1 - size s) with 1 by (clear; lia).
    destruct A as [[P B]|[B _]].
    2: { exfalso. destruct (buckets_in s' H') as [Y|Y]; [clear - Y Lb; lia|]. pose proof (sizes_max _ Y). clear - H0 B Lb. lia. }
    assert (T + size s <= 4 * x + 9) as Tb.
    { destruct (N.eq_dec (buckets s) 0) as [Z|Z]; [rewrite (no_buckets_no_elements s H Z); clear - B; lia|].
      pose proof (full_load s m H E ltac:(clear - Z; lia) Lm) as Q. pose proof (full_9 f1 F0 _ _ Q ltac:(clear - R; lia)) as Q9.
      pose proof (pot_full f1 F0 _ _ _ _ 9 P Q9) as Q2. clear - Q2. lia. }
    destruct (N.le_gt_cases (min_buckets (size s + 1) (mlf s)) max_prime) as [Le|Gt].
    + left. split; [|clear - Tb; lia]. rewrite Es, !N2Z.inj_add. change (Z.of_N 1) with 1%Z. apply (pot_grow f1 F0 (load m s)); [exact P|apply load_ratio; assumption|apply (grow_load s s' m); assumption|clear; lia].
    + right. split; [apply (beyond s s'); assumption|]. rewrite Es. clear - Tb Lx. lia.
  - rewrite Hi, Eb, N.eqb_refl. replace (size s' - size s) with 0 by (clear - Ls; lia). rewrite N.add_0_r.
    destruct A as [[P B]|[B P]]; [left|right; rewrite Eb; split; [exact B|clear - P Ls; lia]].
    assert (T + size s <= 4 * x + 9) as Tb.
    { destruct (N.eq_dec (buckets s) 0) as [Z|Z]; [rewrite (no_buckets_no_elements s H Z) in Ls; clear - Ls; lia|].
      pose proof (full_load s m H E ltac:(clear - Z; lia) Lm) as Q. pose proof (full_9 f1 F0 _ _ Q ltac:(clear - R; lia)) as Q9.
      pose proof (pot_full f1 F0 _ _ _ _ 9 P Q9) as Q2. clear - Q2. lia. }
    split; [|clear - Tb; lia]. unfold load in *. rewrite Eb, N2Z.inj_add. replace (Z.of_N (size s')) with (Z.of_N (size s) - Z.of_N (size s - size s'))%Z by (clear - Ls; lia).
    apply pot_lost; [exact F0|exact P|clear; lia].
Qed.

(** with at most 2^30 elements *)
Definition Acc3 (m : Z) (x : N) (T : N) (s : St) : Prop := Pot f1 (load m s) (Z.of_N T) (Z.of_N x) (Z.of_N (size s)) /\ T <= 4 * x + 3.
Lemma acc3_step m x T o s s' : prog s -> prog s' -> mlf s = Some m -> change o s s' -> size s <= 2 ^ 30 -> size s' <= 2 ^ 30 -> Acc3 m x T s -> Acc3 m (x + (size s' - size s)) (T + moved o s s') s'.
Proof.
  intros H H' E C R R' [P B]. pose proof f1_pos as F0.
  destruct (arena_program c _ _ H) as [HP _]. pose proof (mlf_ok c _ _ (prog_inv c _ _ HP)) as Hm. rewrite E in Hm. assert (0 <= m)%Z as Hm0 by (clear - Hm; assert (0 <= min_mlf)%Z by (vm_compute; discriminate); lia).
  unfold moved, Acc3.
  destruct C as [Ni Eb Ls|Eb Es|Eb Es|Hi Lb Es Lm G|Hi Eb Ls Lm].
  - rewrite Ni. replace (size s' - size s) with 0 by (clear - Ls; lia). rewrite !N.add_0_r.
    split; [|exact B]. unfold load in *. rewrite Eb. replace (Z.of_N (size s')) with (Z.of_N (size s) - (Z.of_N (size s) - Z.of_N (size s')))%Z by ring.
    apply pot_less; [exact F0|exact P|clear - Ls; lia].
  - rewrite Eb, Es, N.eqb_refl, N.sub_diag. rewrite !N.add_0_r. replace (if inserts o then 0 else 0) with 0 by (destruct (inserts o); reflexivity). rewrite N.add_0_r.
    unfold load in *. rewrite Eb. split; [exact P|exact B].
  - rewrite Eb, Es, N.eqb_refl. replace (size s - (size s + 1)) with 0 by (clear; lia). replace (if inserts o then 0 else 0) with 0 by (destruct (inserts o); reflexivity).
    replace (size s + 1 - size s) with 1 by (clear; lia). rewrite N.add_0_r.
    split; [|clear - B; lia]. unfold load in *. rewrite Eb, !N2Z.inj_add. apply pot_put; assumption.
  - rewrite Hi. destruct (N.eqb_spec (buckets s) (buckets s')) as [X|_]; [clear - X Lb; lia|]. rewrite Es. replace (size s + 1 - size s) with 1 by (clear; lia).
    assert (T + size s <= 4 * x + 3) as Tb.
    { destruct (N.eq_dec (buckets s) 0) as [Z|Z]; [rewrite (no_buckets_no_elements s H Z); clear - B; lia|].
      pose proof (full_load s m H E ltac:(clear - Z; lia) Lm) as Q. pose proof (full_3 f1 F0 _ _ Q ltac:(clear - R; lia)) as Q9.
      pose proof (pot_full f1 F0 _ _ _ _ 3 P Q9) as Q2. clear - Q2. lia. }
    split; [|clear - Tb; lia]. rewrite !N2Z.inj_add. change (Z.of_N 1) with 1%Z.
    apply (pot_grow f1 F0 (load m s)); [exact P|apply load_ratio; assumption|apply (grow_load s s' m); try assumption|clear; lia].
    rewrite E. rewrite Es in R'. apply mb_bound; assumption.
  - rewrite Hi, Eb, N.eqb_refl. replace (size s' - size s) with 0 by (clear - Ls; lia). rewrite N.add_0_r.
    assert (T + size s <= 4 * x + 3) as Tb.
    { destruct (N.eq_dec (buckets s) 0) as [Z|Z]; [rewrite (no_buckets_no_elements s H Z) in Ls; clear - Ls; lia|].
      pose proof (full_load s m H E ltac:(clear - Z; lia) Lm) as Q. pose proof (full_3 f1 F0 _ _ Q ltac:(clear - R; lia)) as Q9.
      pose proof (pot_full f1 F0 _ _ _ _ 3 P Q9) as Q2. clear - Q2. lia. }
    split; [|clear - Tb; lia]. unfold load in *. rewrite Eb, N2Z.inj_add. replace (Z.of_N (size s')) with (Z.of_N (size s) - Z.of_N (size s - size s'))%Z by (clear - Ls; lia).
    apply pot_lost; [exact F0|exact P|clear; lia].
Qed.
Lemma inf_step o s s' : prog s -> mlf s = None -> change o s s' -> moved o s s' = 0.
Proof.
  intros H E C. unfold moved. destruct C as [Ni Eb Ls|Eb Es|Eb Es|Hi Lb Es Lm G|Hi Eb Ls Lm].
  - rewrite Ni. reflexivity.
  - rewrite Eb, Es, N.eqb_refl, N.sub_diag. destruct (inserts o); reflexivity.
  - rewrite Eb, Es, N.eqb_refl. replace (size s - (size s + 1)) with 0 by (clear; lia). destruct (inserts o); reflexivity.
  - rewrite (infinite_never_full s H E Lm), Hi. destruct (buckets s =? buckets s'); reflexivity.
  - rewrite (infinite_never_full s H E Lm) in Ls. clear - Ls. lia.
Qed.
Lemma uses_inv (P : St -> Prop) s0 i m s : prog s0 -> uses c P s0 i m s -> prog s /\ mlf s = mlf s0 /\ size s <= i + size s0 /\ P s.
Proof.
  intros H0 U. induction U as [H|i m s o s' U (H & E & L & _) So P1 A Ps]; [split; [exact H0|split; [reflexivity|split; [lia|exact H]]]|].
  destruct (step_change s o s' H So P1 A) as [E' _]. split; [apply (prog_next s o s' H P1 A)|]. split; [congruence|]. split; [clear - L; lia|exact Ps].
Qed.
Lemma start_pot m s : (0 <= m)%Z -> Pot f1 (load m s) 0 (Z.of_N (size s)) (Z.of_N (size s)).
Proof. intros Hm. unfold Pot. pose proof f1_pos as F0. assert (0 <= load m s)%Z by (unfold load; nia). nia. Qed.
Lemma mlf_nonneg s m : prog s -> mlf s = Some m -> (0 <= m)%Z.
Proof.
  intros H E. destruct (arena_program c _ _ H) as [HP _]. pose proof (mlf_ok c _ _ (prog_inv c _ _ HP)) as Hm. rewrite E in Hm. clear - Hm; assert (0 <= min_mlf)%Z by (vm_compute; discriminate); lia.
Qed.
Lemma uses_any P s0 i m s : prog s0 -> uses c P s0 i m s -> m <= 5 * (i + size s0) + 9.
Proof.
  intros H0 U. destruct (mlf s0) as [z|] eqn:Ez.
  - assert (Acc9 z (i + size s0) m s) as A; [|apply (at_bound z _ _ s A)].
    induction U as [H|i m s o s' U IH So P1 A Ps].
    + left. split; [apply start_pot, (mlf_nonneg s0 z H0 Ez)|lia].
    + destruct (uses_inv _ _ _ _ _ H0 U) as (H & E & L & _). destruct (step_change s o s' H So P1 A) as [E' C].
      replace (i + (size s' - size s) + size s0) with (i + size s0 + (size s' - size s)) by (clear; lia).
      apply at_step; try assumption; [apply (prog_next s o s' H P1 A)|congruence].
  - assert (m = 0) as ->; [|lia]. induction U as [H|i m s o s' U IH So P1 A Ps]; [reflexivity|].
    destruct (uses_inv _ _ _ _ _ H0 U) as (H & E & L & _). destruct (step_change s o s' H So P1 A) as [E' C].
    rewrite IH, (inf_step o s s' H ltac:(congruence) C). reflexivity.
Qed.
Lemma uses_30 s0 i m s : prog s0 -> uses c (fun s => size s <= 2 ^ 30) s0 i m s -> m <= 4 * (i + size s0) + 3.
Proof.
  intros H0 U. destruct (mlf s0) as [z|] eqn:Ez.
  - assert (Acc3 z (i + size s0) m s) as A; [|apply A].
    induction U as [H|i m s o s' U IH So P1 A Ps].
    + split; [apply start_pot, (mlf_nonneg s0 z H0 Ez)|lia].
    + destruct (uses_inv _ _ _ _ _ H0 U) as (H & E & L & Ps0). destruct (step_change s o s' H So P1 A) as [E' C].
      replace (i + (size s' - size s) + size s0) with (i + size s0 + (size s' - size s)) by (clear; lia).
      apply acc3_step; try assumption; [apply (prog_next s o s' H P1 A)|congruence].
  - assert (m = 0) as ->; [|lia]. induction U as [H|i m s o s' U IH So P1 A Ps]; [reflexivity|].
    destruct (uses_inv _ _ _ _ _ H0 U) as (H & E & L & _). destruct (step_change s o s' H So P1 A) as [E' C].
    rewrite IH, (inf_step o s s' H ltac:(congruence) C). reflexivity.
Qed.
End Step.

(** *** space *)
Lemma nb_le q n : min_buckets n q <= N.max 1 (match q with None => 0 | Some m => Z.to_N (f32_ceil (f32_div (f32_of_int (Z.of_N n)) m)) end).
Proof.
  unfold min_buckets, ceil_div. destruct q as [m|]; [|destruct (_ && _); cbn; lia].
  set (q := f32_div _ m). set (nb := match (if f32_inf q then None else Some (f32_ceil q)) with None => size_max | Some q => to_size q 0 end).
  assert (nb <= Z.to_N (f32_ceil q)) as L; [|destruct (_ && _); lia]. unfold nb. clear nb. destruct (f32_inf q) eqn:I.
  - unfold f32_inf in I. apply Z.leb_le in I. pose proof (ceil_ge q) as C. assert (0 < 2 ^ 149)%Z as P by reflexivity.
    assert (2 ^ 128 <= f32_ceil q)%Z as X. { apply (Z.mul_le_mono_pos_r _ _ (2 ^ 149) P). apply (Z.le_trans _ q); [|exact C]. rewrite <- Z.pow_add_r by lia. exact I. }
    unfold size_max. assert (2 ^ 64 <= 2 ^ 128)%Z by (vm_compute; discriminate). clear - X H. lia.
  - unfold to_size. destruct (Z.leb_spec (2 ^ (64 + 0)) (f32_ceil q)) as [S|S]; [unfold size_max; clear - S; lia|]. rewrite Z.div_1_r. lia.
Qed.
Lemma ceil_le q : (f32_ceil q * 2 ^ 149 <= q + 2 ^ 149)%Z.
Proof. unfold f32_ceil. assert (0 < 2 ^ 149)%Z as P by reflexivity. set (e := (2 ^ 149)%Z) in *. clearbody e. pose proof (Z.mod_pos_bound (- q) e P). pose proof (Z.div_mod (- q) e ltac:(lia)). nia. Qed.
Lemma f32_int_up n : (1 <= n)%Z -> (f32_of_int n * 2 ^ 24 <= n * 2 ^ 149 * (2 ^ 24 + 1))%Z.
Proof.
  intros H. destruct (fround_rel 24 149 n 1) as [_ U]; [lia|lia|lia|lia| |rewrite Z.mul_1_r in U; exact U].
  change (2 ^ (24 - 1))%Z with 8388608%Z. assert (8388608 <= 2 ^ 149)%Z as B by (vm_compute; discriminate). set (e := (2 ^ 149)%Z) in *. clearbody e. nia.
Qed.
(** min_buckets is not much more than n / mlf + 1 *)
Lemma mb_upper n m : 0 < n -> (min_mlf <= m)%Z -> (2 ^ 22 * m * Z.of_N (min_buckets n (Some m)) <= (2 ^ 22 + 1) * (Z.of_N n * f32_one) + 2 ^ 22 * m)%Z.
Proof.
  intros Ln Lm. pose proof (nb_le (Some m) n) as L. cbv beta iota in L. set (A := f32_of_int (Z.of_N n)) in *. set (q := f32_div A m) in *. set (mb := min_buckets n (Some m)) in *. clearbody mb.
  assert (0 < m)%Z as Pm by (apply (Z.lt_le_trans _ min_mlf); [reflexivity|exact Lm]).
  pose proof (f32_int_up (Z.of_N n) ltac:(lia)) as RA. fold A in RA. pose proof (ceil_le q) as C.
  assert (0 <= A)%Z as A0 by (apply f32_of_int_nonneg; lia). change f32_one with (2 ^ 149)%Z. assert (0 < 2 ^ 149)%Z as P by reflexivity.
  assert (0 < Z.of_N n)%Z as Pn by (clear - Ln; lia).
  destruct (Z.le_gt_cases A m) as [Le|Gt].
  - assert (q <= 2 ^ 149)%Z as Q. { unfold q, f32_div. apply (Z.le_trans _ (fround 24 149 1 1)); [apply fround_mono; lia|vm_compute; discriminate]. }
    assert (f32_ceil q <= 1)%Z as Q1. { unfold f32_ceil. assert (-1 <= - q / 2 ^ 149)%Z; [|lia]. apply Z.div_le_lower_bound; [exact P|]. clear - Q. lia. }
    assert (Z.of_N mb <= 1)%Z as Q2 by (clear - L Q1; lia). clear - Q2 P Pm Pn. set (e := (2 ^ 149)%Z) in *. clearbody e. change (2 ^ 22)%Z with 4194304%Z. nia.
  - destruct (fround_rel 24 149 A m) as [_ U]; [lia|exact A0|exact Pm|lia| |].
    + change (2 ^ (24 - 1))%Z with 8388608%Z. assert (8388608 <= 2 ^ 149)%Z as B by (vm_compute; discriminate). clear - B Gt Pm P A0. set (e := (2 ^ 149)%Z) in *. clearbody e. nia.
    + fold (f32_div A m) in U. fold q in U. assert (0 <= f32_ceil q)%Z as C0.
      { unfold f32_ceil. assert (0 <= q)%Z as Q0 by (unfold q, f32_div; apply fround_nonneg; lia). assert (- q / 2 ^ 149 <= 0)%Z; [|lia]. apply Z.div_le_upper_bound; [exact P|lia]. }
      assert (Z.of_N mb <= Z.max 1 (f32_ceil q))%Z as Lz by (clear - L C0; lia). set (k := f32_ceil q) in *. clearbody k q A. clear L.
      set (e := (2 ^ 149)%Z) in *. clearbody e. change (2 ^ 24)%Z with 16777216%Z in *. change (2 ^ 22)%Z with 4194304%Z.
      set (nn := Z.of_N n) in *. set (bb := Z.of_N mb) in *. clearbody nn bb. clear - C U RA Lz P Pm Pn A0 C0.
      assert (m * bb <= Z.max m (m * k))%Z as B by nia.
      assert (16777216 * (m * k) <= 16777217 * A + 16777216 * m)%Z as B2.
      { apply (Z.mul_le_mono_pos_r _ _ e P). assert (16777216 * (m * (k * e)) <= 16777216 * (m * (q + e)))%Z by (apply Z.mul_le_mono_nonneg_l; [lia|]; apply Z.mul_le_mono_nonneg_l; lia). nia. }
      assert (16777216 * A <= 16777217 * (nn * e))%Z as B3 by lia. assert (0 < nn * e)%Z by nia. assert (4194304 * m * bb = 4194304 * (m * bb))%Z as -> by ring. set (Y := (nn * e)%Z) in *. set (W := (m * bb)%Z) in *. set (W2 := (m * k)%Z) in *. clearbody Y W W2. lia.
Qed.
Section Space.
Context {K V : Type} (c : FCfg K V).
Notation table := (FcaModel.table K V).
Notation St := (table * heap)%type.
Notation mlf s := (f_mlf (fst s)).
Notation prog s := (in_program_arena c (fst s) (snd s)).
(** bucket_count() <= 9/4 * (p / max_load_factor() + 1) *)
Definition tight (p : N) (s : St) : Prop := match mlf s with None => False | Some m => (4 * m * Z.of_N (buckets s) <= 9 * (Z.of_N p * f32_one + m))%Z end.
Lemma grow_tight p s s' : prog s -> prog s' -> mlf s' = mlf s -> size s + 1 <= p -> bucket_count_for (min_buckets (size s + 1) (mlf s)) = Some (buckets s') -> buckets s' <= 13 \/ tight p s'.
Proof.
  intros H H' E Lp G. destruct (bcf_tight _ _ G) as [X|X]; [left; exact X|]. unfold tight. rewrite E. destruct (mlf s) as [m|] eqn:Em.
  - right. destruct (arena_program c _ _ H) as [HP _]. pose proof (mlf_ok c _ _ (prog_inv c _ _ HP)) as Hm. rewrite Em in Hm.
    pose proof (mb_upper (size s + 1) m ltac:(lia) Hm) as U. set (mb := min_buckets (size s + 1) (Some m)) in *. clearbody mb.
    assert (0 < m)%Z as Pm by (apply (Z.lt_le_trans _ min_mlf); [reflexivity|exact Hm]). assert (0 < f32_one)%Z as P by reflexivity.
    assert (13 * Z.of_N (buckets s') <= 29 * Z.of_N mb)%Z as Xz by (clear - X; lia). assert (Z.of_N (size s + 1) <= Z.of_N p)%Z as Lz by (clear - Lp; lia). 
    set (bb := Z.of_N (buckets s')) in *. set (nn := Z.of_N (size s + 1)) in *. assert (0 <= nn)%Z as N0 by (unfold nn; lia). set (mz := Z.of_N mb) in *. set (pp := Z.of_N p) in *. set (e := f32_one) in *. clearbody bb nn mz pp e. clear - U Xz Lz Pm P N0.
    assert (nn * e <= pp * e)%Z as B by (apply Z.mul_le_mono_nonneg_r; lia). assert (0 <= nn * e)%Z as B0 by nia. assert (13 * (m * bb) <= 29 * (m * mz))%Z as B1 by nia. replace (4 * m * bb)%Z with (4 * (m * bb))%Z by ring.
    replace (2 ^ 22 * m * mz)%Z with (2 ^ 22 * (m * mz))%Z in U by ring. change (2 ^ 22)%Z with 4194304%Z in U.
    set (Y := (nn * e)%Z) in *. set (W := (m * bb)%Z) in *. set (W2 := (m * mz)%Z) in *. set (Q := (pp * e)%Z) in *. clearbody Y W W2 Q. lia.
  - left. pose proof (nb_le None (size s + 1)) as U. cbv beta iota in U. clear - X U. lia.
Qed.
Lemma uses_space p s0 i m s : prog s0 -> uses c (fun s => size s <= p) s0 i m s -> buckets s <= N.max (buckets s0) 13 \/ tight p s.
Proof.
  intros H0 U. induction U as [H|i m s o s' U IH So P1 A Ps]; [left; lia|].
  destruct (uses_inv c _ _ _ _ _ H0 U) as (H & E & L & Ps0). destruct (step_change c s o s' H So P1 A) as [E' C].
  assert (buckets s' = buckets s -> buckets s' <= N.max (buckets s0) 13 \/ tight p s') as Same. { intros Eb. unfold tight in *. rewrite E', Eb. exact IH. }
  destruct C as [Ni Eb Ls|Eb Es|Eb Es|Hi Lb Es Lm G|Hi Eb Ls Lm]; try (apply Same; exact Eb).
  destruct (grow_tight p s s' H (prog_next c s o s' H P1 A) E' ltac:(rewrite <- Es; exact Ps) G) as [X|X]; [left; lia|right; exact X].
Qed.
End Space.
