(** Load factor after the insertion of a range (C25): one reservation for all elements in the multi containers. *)
From Coq Require Import NArith ZArith Bool List Arith Lia Permutation.
From Verif Require Import FloatModel FloatProofs HashArithModel HashArithProofs FoaModel FoaGroup FoaBase FcaLinks FcaLinksProofs FcaModel FcaInv FcaIter FcaTab FcaRehash FcaLoad FcaOps FcaIns FcaIns2 FcaSpec FcaWorld FcaApi FcaRun FcaRun4 FcaProps FcaProps2 FcaReserve FcaGrowSpec FcaGrow.
From Verif Require FcaGrowKeep FoaMemKeep.
Import ListNotations.
Local Open Scope m_scope.
(** *** rounding: a float is its own rounding; 1.0f + q is at least q *)
Section F.
Local Open Scope Z_scope.
Lemma fround_form p b n d : 1 < p -> 0 <= b -> 0 <= n -> 0 < d -> exists r s, 0 <= s /\ 0 <= r <= 2 ^ p /\ fround p b n d = r * 2 ^ s.
Proof.
  intros Hp Hb Hn Hd. unfold fround. cbv zeta. set (X := n * 2 ^ b). set (s := Z.max 0 (Z.log2 (X / d) - (p - 1))).
  assert (0 <= X) as HX by (apply Z.mul_nonneg_nonneg; [lia|apply Z.pow_nonneg; lia]). assert (0 <= s) as Hs by (unfold s; lia).
  assert (0 < 2 ^ s) as P by (apply Z.pow_pos_nonneg; lia). exists (rne X (d * 2 ^ s)), s. split; [exact Hs|]. split; [|reflexivity]. split.
  - apply rne_ge_int; nia.
  - apply rne_le_int; [nia|]. assert (X < 2 ^ p * 2 ^ s * d) as L; [|nia]. rewrite <- Z.pow_add_r by lia.
    assert (X / d < 2 ^ (p + s)) as L.
    { destruct (Z.le_gt_cases (X / d) 0) as [Z0|Z1]; [apply (Z.le_lt_trans _ 0); [exact Z0|apply Z.pow_pos_nonneg; lia]|]. pose proof (Z.log2_spec _ Z1) as [_ L]. eapply Z.lt_le_trans; [exact L|]. apply Z.pow_le_mono_r; [lia|]. unfold s. lia. }
    pose proof (Z.div_mod X d ltac:(lia)) as D. pose proof (Z.mod_pos_bound X d Hd). nia.
Qed.
Lemma fround_rep p b r s : 1 < p -> 0 <= b -> 0 <= s -> 0 <= r <= 2 ^ p -> fround p b (r * 2 ^ s) (2 ^ b) = r * 2 ^ s.
Proof.
  intros Hp Hb Hs Hr. unfold fround. cbv zeta. assert (0 < 2 ^ b) as Pb by (apply Z.pow_pos_nonneg; lia). assert (0 < 2 ^ s) as Ps by (apply Z.pow_pos_nonneg; lia).
  rewrite Z.div_mul by lia. set (x := r * 2 ^ s). set (s2 := Z.max 0 (Z.log2 x - (p - 1))). assert (0 <= s2) as H2 by (unfold s2; lia). assert (0 < 2 ^ s2) as P2 by (apply Z.pow_pos_nonneg; lia).
  assert (exists k, x = k * 2 ^ s2) as (k & Ek).
  { destruct (Z.le_gt_cases s2 s) as [L|L].
    - exists (r * 2 ^ (s - s2)). unfold x. rewrite <- Z.mul_assoc, <- Z.pow_add_r by lia. f_equal. f_equal. lia.
    - assert (x <= 2 ^ (p + s)) as U by (unfold x; rewrite Z.pow_add_r by lia; nia). assert (0 <= x) as X0 by (unfold x; nia).
      assert (p + s <= Z.log2 x) as Lg by (unfold s2 in L; lia). assert (0 < x) as X1 by (destruct (Z.eq_dec x 0) as [E|]; [rewrite E in Lg; cbn in Lg; lia|lia]).
      pose proof (Z.log2_spec x X1) as [G _]. pose proof (Z.log2_le_mono _ _ U) as G2. rewrite Z.log2_pow2 in G2 by lia. assert (Z.log2 x = p + s) as E by lia. rewrite E in G. assert (x = 2 ^ (p + s)) as -> by lia.
      assert (s2 = s + 1) as -> by (unfold s2; rewrite E; lia). exists (2 ^ (p - 1)). rewrite <- Z.pow_add_r by lia. f_equal. lia. }
  replace (x * 2 ^ b) with (k * (2 ^ b * 2 ^ s2)) by (rewrite Ek; ring). rewrite rne_exact by nia. symmetry. exact Ek.
Qed.
Lemma add_one_ge n d : 0 <= n -> 0 < d -> f32_ceil (f32_div n d) <= f32_trunc (f32_add (2 ^ 149) (f32_ceil (f32_div n d) * 2 ^ 149)).
Proof.
  intros Hn Hd. unfold f32_div. destruct (fround_form 24 149 n d ltac:(lia) ltac:(lia) Hn Hd) as (r & s & Hs & Hr & E). set (x := fround 24 149 n d) in *. set (q := f32_ceil x).
  assert (0 <= x) as X0 by (rewrite E; apply Z.mul_nonneg_nonneg; [lia|apply Z.pow_nonneg; lia]).
  assert (0 < 2 ^ 149) as P by reflexivity. assert (x <= q * 2 ^ 149 < x + 2 ^ 149) as Q.
  { unfold q, f32_ceil. pose proof (Z.div_mod (- x) (2 ^ 149) ltac:(lia)) as D. pose proof (Z.mod_pos_bound (- x) (2 ^ 149) P) as M. set (y := - x / 2 ^ 149) in *. revert D M P. generalize (2 ^ 149). intros. nia. }
  unfold f32_trunc. apply Z.div_le_lower_bound; [exact P|]. unfold f32_add.
  destruct (Z.lt_ge_cases q (2 ^ 24)) as [L|L].
  - assert (0 <= q) as Q0 by (revert Q X0 P; generalize (2 ^ 149); intros; nia). pose proof (fround_exact_int 24 149 ltac:(lia) ltac:(lia) q (conj Q0 L)) as F. rewrite Z.mul_comm, <- F. apply fround_mono; try lia.
  - assert (2 ^ 23 * 2 ^ 149 < x) as Lx. { revert L Q P. generalize (2 ^ 149). change (2 ^ 24) with 16777216. change (2 ^ 23) with 8388608. intros. nia. }
    assert (149 <= s) as Ls. { destruct (Z.le_gt_cases 149 s) as [|G]; [assumption|]. exfalso. assert (x <= 2 ^ 24 * 2 ^ 148) as U; [|apply (Z.lt_irrefl x); eapply Z.le_lt_trans; [exact U|exact Lx]].
      rewrite E. apply Z.mul_le_mono_nonneg; [lia|lia|apply Z.pow_nonneg; lia|apply Z.pow_le_mono_r; lia]. }
    assert (q * 2 ^ 149 = x) as Eq.
    { assert (x = r * 2 ^ (s - 149) * 2 ^ 149) as E2. { rewrite E, <- Z.mul_assoc, <- Z.pow_add_r by lia. f_equal. f_equal. lia. } revert Q E2 P. generalize (2 ^ 149) (r * 2 ^ (s - 149)). intros m k Q E2 P. assert (q = k) by nia. subst. nia. }
    rewrite Z.mul_comm, Eq. assert (x = fround 24 149 x (2 ^ 149)) as I. { symmetry. transitivity (fround 24 149 (r * 2 ^ s) (2 ^ 149)); [rewrite E; reflexivity|]. rewrite fround_rep by lia. symmetry. exact E. }
    rewrite I at 1. apply fround_mono; try lia.
Qed.
End F.
Lemma grow_request_ge n m r : (min_mlf <= m)%Z -> grow_request n (Some m) = Some r -> (min_buckets n (Some m) <= N.max 1 (Z.to_N r))%N.
Proof.
  intros Hm. unfold grow_request, min_buckets, ceil_div. destruct (f32_inf _) eqn:Ei; [discriminate|]. cbn [andb]. intros E.
  assert (0 < m)%Z as M0 by (eapply Z.lt_le_trans; [|exact Hm]; reflexivity).
  pose proof (add_one_ge (f32_of_int (Z.of_N n)) m (f32_of_int_nonneg _ (N2Z.is_nonneg n)) M0) as L. assert (r = f32_trunc (f32_add f32_one (f32_ceil (f32_div (f32_of_int (Z.of_N n)) m) * 2 ^ 149))) as Er by congruence. unfold f32_one in Er. rewrite <- Er in L. clear E Er.
  set (q := f32_ceil _) in *. assert (to_size q 0 <= Z.to_N r)%N as T.
  { unfold to_size. destruct (Z.leb_spec (2 ^ (64 + 0)) q) as [G|G]; [unfold size_max; change (2 ^ (64 + 0))%Z with (2 ^ 64)%Z in G; lia|]. change (2 ^ 0)%Z with 1%Z. rewrite Z.div_1_r. lia. }
  destruct (N.eqb (to_size q 0) 0 && N.ltb 0 n); lia.
Qed.

Section Range.
Context {K V : Type} (c : FCfg K V).
Notation cb := (base c).
Notation table := (FcaModel.table K V).
Notation St := (table * heap)%type.
Notation prog s := (in_program_arena c (fst s) (snd s)).
Notation near s := (Near (f_size (fst s)) (bucket_count (f_b (fst s))) (f_mlf (fst s))).
(** one element of the loops *)
Definition put_one (e : K * V) : M St unit := if multi c then (x <- new_node c KConstruct e ;; emplace_equiv c x ;;; ret tt) else (emplace_unique_nokey c KConstruct e ;;; ret tt).
Lemma deref_inv (it : eit) (s : St) n : (exists y, deref it s n = Ret y s n) \/ deref it s n = Undef.
Proof. unfold deref, get_t. rewrite bind_bind, bind_get, bind_ret. destruct (e_node (f_b (fst s)) it) as [x|]; [left; exists (el x); reflexivity|right; reflexivity]. Qed.
Lemma put_one_exec e s n s' n' : prog s -> pre1 c (Insert false e) (fst s) -> put_one e s n = Ret tt s' n' -> exists v n2, exec1 c (Insert false e) s n = Ret v s' n2.
Proof.
  intros H P E. destruct (arena_program c _ _ H) as [HP _]. pose proof (step1 c _ _ (Insert false e) n HP P) as Q. rewrite <- surjective_pairing in Q.
  unfold put_one in E. cbn [exec1] in *. destruct (multi c).
  - unfold bind in E |- *. unfold bind in Q. destruct (new_node c KConstruct e s n) as [x s1 n1| |]; try discriminate. destruct (emplace_equiv c x s1 n1) as [it s2 n2| |]; try discriminate.
    injection E as -> ->. destruct (deref_inv it s' n') as [(y & D)|D]; rewrite D in *; [eexists _, _; reflexivity|contradiction].
  - cbn [emplace_unique] in *. unfold bind in E |- *. unfold bind in Q. destruct (emplace_unique_nokey c KConstruct e s n) as [r s2 n2| |]; try discriminate.
    injection E as -> ->. destruct (deref_inv (fst r) s' n') as [(y & D)|D]; rewrite D in *; [eexists _, _; reflexivity|contradiction].
Qed.
Fixpoint put_all (l : list (K * V)) : M St unit := match l with [] => ret tt | e :: r => put_one e ;;; put_all r end.
Lemma put_all_load l : forall s n s' n', prog s -> (f_size (fst s) + N.of_nat (length l) < 2 ^ 53)%N -> put_all l s n = Ret tt s' n' -> (f_size (fst s') <= 2 ^ 30)%N ->
  f_mlf (fst s') = f_mlf (fst s) /\ (f_size (fst s) <= f_size (fst s'))%N /\
  (f_size (fst s') = f_size (fst s) /\ bucket_count (f_b (fst s')) = bucket_count (f_b (fst s)) \/ (f_size (fst s) < f_size (fst s'))%N /\ near s').
Proof.
  induction l as [|e l IH]; intros s n s' n' H Rm E L; cbn [put_all] in E.
  - injection E as -> ->. split; [reflexivity|]. split; [lia|]. left. auto.
  - unfold bind in E. destruct (put_one e s n) as [[] s1 n1| |] eqn:E1; try discriminate. cbn [length] in Rm.
    assert (pre1 c (Insert false e) (fst s)) as P. { cbn [pre1]. unfold FcaWorld.room. clear - Rm. lia. }
    destruct (put_one_exec e s n s1 n1 H P E1) as (v & n2 & X). destruct (arena_program c _ _ H) as [HP _].
    assert (prog s1) as H1. { apply (prog_next c s (Insert false e) s1 H P). exists n. rewrite X. reflexivity. }
    pose proof X as X0. rewrite (surjective_pairing s) in X0. destruct (insert_frame c _ _ _ n v s1 n2 HP P I X0) as [Fm Fs].
    assert (f_size (fst s) <= f_size (fst s1) <= f_size (fst s) + 1)%N as Ls by (destruct Fs as [[Z _]|Z]; rewrite Z; clear; lia).
    destruct (IH s1 n1 s' n' H1 ltac:(clear - Rm Ls; lia) E L) as (Em & Lm & D). split; [congruence|]. split; [clear - Ls Lm; lia|].
    destruct D as [[Es Eb]|[Es Nr]]; [|right; split; [clear - Es Ls; lia|exact Nr]].
    destruct Fs as [[Z Zb]|Z]; [left; split; congruence|right]. split; [rewrite Es, Z; clear; lia|]. rewrite Es, Eb, Em.
    apply (load_insert c _ _ _ n v s1 n2 H P I X0 Z). rewrite <- Es. exact L.
Qed.
Lemma rng_u l : forall s n, multi c = false -> insert_range_unique c l s n = put_all l s n.
Proof.
  induction l as [|e l IH]; intros s n M; [reflexivity|]. cbn [insert_range_unique put_all]. unfold put_one. rewrite M. unfold bind. destruct (emplace_unique_nokey c KConstruct e s n) as [r s1 n1| |]; [|reflexivity|reflexivity].
  cbn. apply IH. exact M.
Qed.
Lemma rng_e l : forall s n, multi c = true -> insert_each_equiv c l s n = put_all l s n.
Proof.
  induction l as [|e l IH]; intros s n M; [reflexivity|]. cbn [insert_each_equiv put_all]. unfold put_one. rewrite M. unfold bind. destruct (new_node c KConstruct e s n) as [x s1 n1| |]; [|reflexivity|reflexivity]. destruct (emplace_equiv c x s1 n1) as [r s2 n2| |]; [|reflexivity|reflexivity].
  cbn. apply IH. exact M.
Qed.
(** the reservation of the multi containers *)
Lemma reserved_load l s n s' n' : multi c = true -> prog s -> l <> [] -> (f_size (fst s) + N.of_nat (length l) < 2 ^ 53)%N ->
  (t <- get_t ;; reserve_for_insert c (uadd (f_size t) (N.of_nat (length l))) ;;; FcaModel.insert_no_rehash c l) s n = Ret tt s' n' -> (f_size (fst s') <= 2 ^ 30)%N ->
  f_mlf (fst s') = f_mlf (fst s) /\ f_size (fst s') = (f_size (fst s) + N.of_nat (length l))%N /\ near s'.
Proof.
  intros M H N0 Rm E L. destruct (arena_program c _ _ H) as [HP ML]. destruct s as [t h]. cbn [fst snd] in *. destruct (prog_si c t h HP) as (r & Is). pose proof (si_t _ _ _ _ Is) as T. cbn [fst] in T.
  assert (0 < length l) as Lp by (destruct l; [contradiction|cbn; lia]).
  unfold get_t in E. rewrite bind_bind, bind_get, bind_ret in E. cbn [fst] in E.
  assert (uadd (f_size t) (N.of_nat (length l)) = f_size t + N.of_nat (length l))%N as Eu. { unfold uadd. apply N.mod_small. clear - Rm. lia. } rewrite Eu in E. clear Eu.
  set (k := (f_size t + N.of_nat (length l))%N) in *. assert (0 < k)%N as K0 by (unfold k; lia).
  pose proof (reserve_for_insert_ok c t h (contents t) k n T (prog_live c t h r Is) K0 ltac:(unfold max_elems; clear - Rm; lia)) as Q.
  unfold bind in E. destruct (reserve_for_insert c k (t, h) n) as [[] s1 n1| |] eqn:E1; try discriminate. cbn [outcome] in Q. destruct Q as (Rh & Z & Qs & Qg).
  destruct (Rehashed_SI c r t h _ s1 Is Rh) as (l1 & I1 & P1 & F1). pose proof (si_t _ _ _ _ I1) as T1.
  assert (f_size (fst s1) = f_size t) as Sz1. { rewrite (ti_size _ _ _ T1), (ti_size _ _ _ T), (Permutation_length P1). reflexivity. }
  destruct F1 as ((_ & _ & _ & Fm1) & _). cbn [fst] in Fm1.
  assert (k <= 2 ^ 30 -> Near k (bucket_count (f_b (fst s1))) (f_mlf (fst s1)))%N as Nr.
  { intros Lk. destruct (N.le_gt_cases k (f_ml t)) as [Le|Gt].
    - rewrite (Qs Le). cbn [fst]. apply (near_of_ml c t _ _ T ML K0 Le). clear - Lk. lia.
    - destruct (Qg Gt) as (q & G & B & _). apply (near_of_mb c (fst s1) l1 k T1 K0 Lk). intros Y. rewrite Fm1 in *. pose proof (mlf_ok c t _ T) as Hm. destruct (f_mlf t) as [m|] eqn:Em; [|].
      + apply (bcf_ge _ _ _ B); [|exact Y]. pose proof (grow_request_ge k m q Hm G) as X. clear - X. lia.
      + apply (bcf_ge _ _ _ B); [|exact Y]. change (to_size 0 0) with 0%N. replace (min_buckets k None) with (if N.eqb 0 0 && N.ltb 0 k then 1%N else 0%N) by reflexivity. destruct (N.eqb 0 0 && N.ltb 0 k); lia. }
  pose proof (insert_no_rehash_ok c r l s1 l1 n1 M I1 Z) as Q2. rewrite E in Q2. cbn [outcome] in Q2.
  destruct Q2 as (xs & l2 & Ex & _ & I2 & P2 & F2). { unfold FcaIns2.room. unfold max_elems. rewrite <- (Permutation_length P1). unfold k in Rm. rewrite (ti_size _ _ _ T) in Rm. clear - Rm. lia. }
  destruct F2 as ((_ & _ & _ & Fm2) & _). pose proof (si_t _ _ _ _ I2) as T2.
  assert (f_size (fst s') = k) as Sz2.
  { rewrite (ti_size _ _ _ T2), (Permutation_length P2), app_length. apply (f_equal (@length _)) in Ex. rewrite map_length in Ex. rewrite (Nat.add_comm (length xs)).
    assert (forall p ks es, length (FcaIns2.added c p ks es) = length es) as Al. { intros p ks es. revert ks. induction es as [|e0 es IHe]; intros ks; cbn [FcaIns2.added]; [reflexivity|]. rewrite M. cbn [negb andb length]. rewrite IHe. reflexivity. }
    rewrite Al in Ex. rewrite Ex. unfold k. rewrite <- Sz1, (ti_size _ _ _ T1). clear. lia. }
  split; [congruence|]. split; [exact Sz2|]. rewrite Sz2, Fm2.
  pose proof (FcaGrowKeep.keeps_inr c l s1 n1) as Kp. rewrite E in Kp. unfold FcaGrowKeep.sh, FcaGrowKeep.tsh, FcaGrowKeep.bsh in Kp.
  assert (bucket_count (f_b (fst s')) = bucket_count (f_b (fst s1))) as ->. { unfold bucket_count. congruence. }
  apply Nr. rewrite <- Sz2. exact L.
Qed.
Lemma range_load fwd l s n v s' n' : prog s -> pre1 c (InsertRange fwd l) (fst s) -> exec1 c (InsertRange fwd l) s n = Ret v s' n' -> (f_size (fst s') <= 2 ^ 30)%N ->
  f_mlf (fst s') = f_mlf (fst s) /\ (f_size (fst s) <= f_size (fst s'))%N /\
  (f_size (fst s') = f_size (fst s) /\ bucket_count (f_b (fst s')) = bucket_count (f_b (fst s)) \/ (f_size (fst s) < f_size (fst s'))%N /\ near s').
Proof.
  intros H P E L. cbn [exec1 pre1] in *. unfold FcaWorld.room in P. unfold bind in E.
  assert (put_all l s n = Ret tt s' n' -> f_mlf (fst s') = f_mlf (fst s) /\ (f_size (fst s) <= f_size (fst s'))%N /\
    (f_size (fst s') = f_size (fst s) /\ bucket_count (f_b (fst s')) = bucket_count (f_b (fst s)) \/ (f_size (fst s) < f_size (fst s'))%N /\ near s')) as G by (intros X; apply (put_all_load l s n s' n' H P X L)).
  destruct (multi c) eqn:M; cycle 1.
  { rewrite (rng_u l s n M) in E. apply G. destruct (put_all l s n) as [[] s1 n1| |]; try discriminate. unfold ret in E. injection E as <- <- <-. reflexivity. }
  assert (insert_each_equiv c l s n = insert_range_equiv c fwd l s n \/ (l <> [] /\ insert_range_equiv c fwd l = (t <- get_t ;; reserve_for_insert c (uadd (f_size t) (N.of_nat (length l))) ;;; FcaModel.insert_no_rehash c l))) as D.
  { unfold insert_range_equiv. destruct fwd; [|left; reflexivity]. destruct l as [|e [|e2 l]]; [left; reflexivity|left; reflexivity|right]. split; [discriminate|reflexivity]. }
  destruct D as [D|[N0 D]].
  - rewrite <- D, (rng_e l s n M) in E. apply G. destruct (put_all l s n) as [[] s1 n1| |]; try discriminate. unfold ret in E. injection E as <- <- <-. reflexivity.
  - rewrite D in E. clear D G. match type of E with match ?m s n with _ => _ end = _ => destruct (m s n) as [[] s1 n1| |] eqn:E1; try discriminate end.
    assert (s1 = s') as -> by (unfold ret in E; congruence). destruct (reserved_load l s n s' n1 M H N0 P E1 L) as (A & B & C). split; [exact A|]. assert (0 < length l) by (destruct l; [contradiction|cbn; lia]). split; [rewrite B; lia|]. right. split; [rewrite B; lia|exact C].
Qed.
End Range.
Section Assign.
Context {K V : Type} (c : FCfg K V).
Notation prog s := (in_program_arena c (fst s) (snd s)).
Lemma assign_load l s n v s' n' : prog s -> pre1 c (AssignList l) (fst s) -> exec1 c (AssignList l) s n = Ret v s' n' -> (f_size (fst s') <= 2 ^ 30)%N ->
  Near (f_size (fst s')) (bucket_count (f_b (fst s'))) (f_mlf (fst s')).
Proof.
  intros H P E L. cbn [exec1 pre1] in *. destruct (arena_program c _ _ H) as [HP _]. pose proof (step1 c _ _ Clear n HP Logic.I) as Q. rewrite <- surjective_pairing in Q.
  unfold bind in E at 1. destruct (exec1 c Clear s n) as [v1 s1 n1|k1 s1 n1|] eqn:E1; [|cbn [exec1] in E1; unfold bind in E1; destruct (clear s n); unfold ret in E1; congruence|contradiction].
  assert (prog s1) as H1. { apply (prog_next c s Clear s1 H Logic.I). exists n. rewrite E1. reflexivity. }
  destruct Q as (HP1 & Q & _). cbn [FcaSpec.spec1] in Q. destruct v1; try contradiction. pose proof (size_ok c _ _ HP1) as Z. rewrite Q in Z. cbn in Z.
  cbn [exec1] in E1. unfold bind in E1. destruct (clear s n) as [a s2 n2| |]; try discriminate. unfold ret in E1. injection E1 as -> ->.
  assert (pre1 c (InsertRange true l) (fst s1)) as P1. { cbn [pre1]. unfold FcaWorld.room. rewrite Z. clear - P. lia. }
  destruct (range_load c true l s1 n1 v s' n' H1 P1 E L) as (Em & _ & [[Es Eb]|[_ Nr]]); [|exact Nr].
  rewrite Es, Z. unfold Near. destruct (f_mlf (fst s')) as [m|] eqn:Ef; [|exact Logic.I]. pose proof (mlf_ok c _ _ (prog_inv c _ _ HP1)) as Hm. rewrite <- Em in Hm. assert (0 <= min_mlf)%Z as M0 by (vm_compute; discriminate).
  assert (0 <= m * Z.of_N (bucket_count (f_b (fst s'))))%Z as X by (apply Z.mul_nonneg_nonneg; [clear - Hm M0; lia|apply N2Z.is_nonneg]).
  rewrite !Z.mul_0_l. rewrite <- Z.mul_assoc. apply Z.mul_nonneg_nonneg; [apply Z.pow_nonneg; discriminate|exact X].
Qed.
End Assign.
