(** The circular list of non-empty bucket groups and the occupancy bitmaps stay consistent. *)
From Coq Require Import NArith Bool List Arith Lia.
From Verif Require Import FoaModel FoaGroup FcaLinks.
Import ListNotations.

Lemma app_inj_len {A} (a b c d : list A) : a ++ b = c ++ d -> length a = length c -> a = c /\ b = d.
Proof.
  revert c. induction a as [|x a IH]; intros [|y c] E L; cbn in *; try discriminate; [auto|]. injection E as -> E. injection L as L.
  apply IH in E; [|exact L]. destruct E as [-> ->]. auto.
Qed.
Lemma NoDup_app_intro {A} (a b : list A) : NoDup a -> NoDup b -> (forall x, In x a -> In x b -> False) -> NoDup (a ++ b).
Proof.
  intros Ha Hb D. induction Ha as [|x a Hx Ha IH]; cbn; [exact Hb|]. constructor.
  - rewrite in_app_iff. intros [X|X]; [contradiction|]. apply (D x); [left; reflexivity|exact X].
  - apply IH. intros y Y1 Y2. apply (D y); [right; exact Y1|exact Y2].
Qed.
Definition gn (gs : list group) g := match nth_error gs g with Some G => g_next G | None => None end.
Definition gp (gs : list group) g := match nth_error gs g with Some G => g_prev G | None => None end.
Definition gb (gs : list group) g := match nth_error gs g with Some G => g_base G | None => None end.
Definition gm (gs : list group) g := match nth_error gs g with Some G => g_mask G | None => 0%N end.

Fixpoint Links (gs : list group) (l : list nat) : Prop :=
  match l with
  | a :: ((b :: _) as r) => gn gs a = Some b /\ gp gs b = Some a /\ Links gs r
  | _ => True
  end.

Lemma Links_cons2 gs a b r : Links gs (a :: b :: r) <-> gn gs a = Some b /\ gp gs b = Some a /\ Links gs (b :: r).
Proof. reflexivity. Qed.
Lemma Links_app gs l1 a l2 : Links gs (l1 ++ a :: l2) <-> Links gs (l1 ++ [a]) /\ Links gs (a :: l2).
Proof.
  induction l1 as [|x l1 IH]; cbn [app].
  - split; [intros H; split; [exact Logic.I|exact H]|tauto].
  - destruct l1 as [|y l1]; cbn [app] in *.
    + rewrite !Links_cons2. cbn. tauto.
    + rewrite !Links_cons2, IH. tauto.
Qed.
Lemma Links_frame gs gs' l : (forall a, In a (removelast l) -> gn gs' a = gn gs a) -> (forall b, In b (tl l) -> gp gs' b = gp gs b) ->
  Links gs l -> Links gs' l.
Proof.
  induction l as [|a [|b r] IH]; intros Hn Hp H; [exact Logic.I|exact Logic.I|].
  rewrite Links_cons2 in *. destruct H as (H1 & H2 & H3). split; [rewrite Hn; [exact H1|cbn; left; reflexivity]|]. split; [rewrite Hp; [exact H2|cbn; auto]|].
  apply IH; [|intros x Hx; apply Hp; cbn in *; tauto|exact H3]. intros x Hx. apply Hn. change (In x (a :: removelast (b :: r))). right. exact Hx.
Qed.

(** elementary updates *)
Lemma upd_some gs g f : g < length gs -> exists gs', upd gs g f = Some gs'.
Proof. intros L. unfold upd. destruct (nth_error gs g) eqn:E; [eauto|]. apply nth_error_None in E. lia. Qed.
Lemma upd_inv gs g f gs' : upd gs g f = Some gs' -> exists x, nth_error gs g = Some x /\ gs' = FoaModel.set_nth gs g (f x) /\ g < length gs.
Proof. unfold upd. destruct (nth_error gs g) eqn:E; [|discriminate]. intros [= <-]. exists g0. split; [reflexivity|]. split; [reflexivity|]. apply nth_error_Some. congruence. Qed.
Lemma upd_len gs g f gs' : upd gs g f = Some gs' -> length gs' = length gs.
Proof. intros H. apply upd_inv in H as (x & _ & -> & _). apply set_nth_len. Qed.
Lemma upd_get gs g f gs' j : upd gs g f = Some gs' -> nth_error gs' j = if Nat.eqb j g then option_map f (nth_error gs j) else nth_error gs j.
Proof.
  intros H. apply upd_inv in H as (x & E & -> & L). rewrite set_nth_err by exact L.
  destruct (Nat.eqb_spec j g) as [->|N]; [rewrite E; reflexivity|reflexivity].
Qed.

(** the state of the groups: [P] says which buckets are marked non-empty, [o] is the list of the groups that are
    linked, apart from the last group *)
Definition marked (sz : nat) (P : nat -> bool) (i : nat) : bool := (P i && (i <? sz)) || (i =? sz).
Record LInv (sz : nat) (gs : list group) (P : nat -> bool) (o : list nat) : Prop := {
  li_len : length gs = sz / 64 + 1;
  li_nodup : NoDup (o ++ [sz / 64]);
  li_lt : forall g, In g o -> g < sz / 64;
  li_links : Links gs (sz / 64 :: o ++ [sz / 64]);
  li_base : forall g, In g (o ++ [sz / 64]) -> gb gs g = Some (64 * g);
  li_base0 : forall g b, gb gs g = Some b -> b = 64 * g;
  li_in : forall g, g <= sz / 64 -> In g (o ++ [sz / 64]) <-> gm gs g <> 0%N;
  li_out : forall g, g < sz / 64 -> ~ In g o -> gn gs g = None;
  li_bits : forall g i, g <= sz / 64 -> N.testbit (gm gs g) (N.of_nat i) = ((i <? 64) && marked sz P (64 * g + i))
}.

Lemma set_bit_spec n i : N.testbit (set_bit n) (N.of_nat i) = (i =? n).
Proof.
  unfold set_bit. rewrite N.shiftl_1_l, N.pow2_bits_eqb. destruct (Nat.eqb_spec i n) as [->|H].
  - apply N.eqb_refl.
  - apply N.eqb_neq. lia.
Qed.
Lemma reset_bit_spec n i : N.testbit (reset_bit n) (N.of_nat i) = xorb (i <? 64) (i =? n).
Proof.
  unfold reset_bit, ones64. rewrite N.lxor_spec, N.shiftl_1_l, N.pow2_bits_eqb.
  assert (N.testbit (N.ones 64) (N.of_nat i) = (i <? 64)) as ->.
  { destruct (Nat.ltb_spec i 64). - apply N.ones_spec_low. lia. - apply N.ones_spec_high. lia. }
  f_equal. destruct (Nat.eqb_spec i n) as [->|H].
  - apply N.eqb_refl.
  - apply N.eqb_neq. lia.
Qed.
Lemma reset_first_bits_spec n i : 1 <= n <= 64 -> N.testbit (reset_first_bits n) (N.of_nat i) = ((i <? 64) && (n <=? i)).
Proof.
  intros Hn. unfold reset_first_bits, ones64. rewrite N.lxor_spec, N.shiftr_spec by lia.
  assert (forall j, N.testbit (N.ones 64) (N.of_nat j) = (j <? 64)) as O.
  { intros j. destruct (Nat.ltb_spec j 64). - apply N.ones_spec_low. lia. - apply N.ones_spec_high. lia. }
  rewrite <- Nat2N.inj_add, !O. destruct (Nat.ltb_spec i 64); destruct (Nat.leb_spec n i); destruct (Nat.ltb_spec (i + (64 - n)) 64); cbn; lia.
Qed.

Lemma find_seq_spec (f : nat -> bool) n len : match List.find f (seq n len) with
  | Some i => f i = true /\ n <= i < n + len /\ forall j, n <= j < i -> f j = false
  | None => forall j, n <= j < n + len -> f j = false end.
Proof.
  revert n. induction len as [|len IH]; intros n; cbn [seq List.find]; [intros j H; lia|].
  destruct (f n) eqn:E.
  - split; [exact E|]. split; [lia|]. intros j H. lia.
  - specialize (IH (S n)). destruct (List.find f (seq (S n) len)).
    + destruct IH as (A & B & C). split; [exact A|]. split; [lia|]. intros j H. destruct (Nat.eq_dec j n) as [->|]; [exact E|]. apply C. lia.
    + intros j H. destruct (Nat.eq_dec j n) as [->|]; [exact E|]. apply IH. lia.
Qed.
Lemma countr_spec x : (countr_zero x < 64 /\ N.testbit x (N.of_nat (countr_zero x)) = true /\ forall j, j < countr_zero x -> N.testbit x (N.of_nat j) = false)
   \/ (countr_zero x = 64 /\ forall j, j < 64 -> N.testbit x (N.of_nat j) = false).
Proof.
  unfold countr_zero. pose proof (find_seq_spec (fun i => N.testbit x (N.of_nat i)) 0 64) as H.
  destruct (List.find _ _) as [i|].
  - left. destruct H as (A & B & C). split; [lia|]. split; [exact A|]. intros j Hj. apply C. lia.
  - right. split; [reflexivity|]. intros j Hj. apply H. lia.
Qed.

Lemma testbit_ext a b : (forall i : nat, N.testbit a (N.of_nat i) = N.testbit b (N.of_nat i)) -> a = b.
Proof. intros H. apply N.bits_inj. intros n. rewrite <- (N2Nat.id n). apply H. Qed.
Lemma nonzero_bit m : m <> 0%N <-> exists i : nat, N.testbit m (N.of_nat i) = true.
Proof.
  split.
  - intros H. destruct (N.eq_dec m 0) as [->|]; [congruence|]. exists (N.to_nat (N.log2 m)). rewrite N2Nat.id. apply N.bit_log2. exact H.
  - intros [i H] ->. rewrite N.bits_0 in H. discriminate.
Qed.
(** the buckets marked non-empty (and the end bucket), in iteration order *)
Definition gseq (sz : nat) (P : nat -> bool) (g : nat) : list nat := filter (marked sz P) (seq (64 * g) 64).
Definition bseq (sz : nat) (P : nat -> bool) (o : list nat) : list nat := flat_map (gseq sz P) (o ++ [sz / 64]).

Lemma gseq_ext sz P P' g : (forall i, 64 * g <= i < 64 * g + 64 -> i < sz -> P i = P' i) -> gseq sz P g = gseq sz P' g.
Proof.
  intros H. unfold gseq. apply filter_ext_in. intros i Hi. apply in_seq in Hi. unfold marked.
  destruct (Nat.ltb_spec i sz) as [L|L]; [rewrite (H i) by lia; reflexivity|rewrite !andb_false_r; reflexivity].
Qed.

Section Inc.
Variables (sz : nat) (gs : list group) (P : nat -> bool) (o : list nat).
Hypothesis H : LInv sz gs P o.

Lemma grp_exists g : g <= sz / 64 -> exists G, nth_error gs g = Some G /\ gb gs g = g_base G /\ gm gs g = g_mask G /\ gn gs g = g_next G /\ gp gs g = g_prev G.
Proof.
  intros L. unfold gb, gm, gn, gp. destruct (nth_error gs g) as [G|] eqn:E; [exists G; auto|].
  apply nth_error_None in E. pose proof (li_len _ _ _ _ H). lia.
Qed.
Lemma in_order_le g : In g (o ++ [sz / 64]) -> g <= sz / 64.
Proof. intros Hi. apply in_app_or in Hi as [Hi|[<-|[]]]; [apply (li_lt _ _ _ _ H) in Hi; lia|lia]. Qed.

Definition later (g off : nat) : list nat := filter (marked sz P) (seq (64 * g + S off) (63 - off)).
Lemma gseq_split g off : off < 64 -> marked sz P (64 * g + off) = true ->
  gseq sz P g = filter (marked sz P) (seq (64 * g) off) ++ (64 * g + off) :: later g off.
Proof.
  intros L M. unfold gseq, later. replace 64 with (off + (1 + (63 - off))) at 2 by lia. rewrite seq_app, filter_app. f_equal.
  rewrite seq_app, filter_app. cbn [seq filter]. rewrite M. cbn [app]. f_equal. f_equal. f_equal. lia.
Qed.
Lemma mod_div p : 64 * (p / 64) + p mod 64 = p. Proof. symmetry. apply Nat.div_mod. lia. Qed.
Lemma mod_lt p : p mod 64 < 64. Proof. apply Nat.mod_upper_bound. lia. Qed.

Lemma find_filter (f : nat -> bool) l : List.find f l = hd_error (filter f l).
Proof. induction l as [|x l IH]; [reflexivity|]. cbn. destruct (f x); [reflexivity|exact IH]. Qed.

Lemma gseq_find g : hd_error (gseq sz P g) = List.find (marked sz P) (seq (64 * g) 64).
Proof. unfold gseq. symmetry. apply find_filter. Qed.
Lemma in_later g off q : In q (later g off) <-> 64 * g + S off <= q < 64 * g + S off + (63 - off) /\ marked sz P q = true.
Proof. unfold later. rewrite filter_In, in_seq. tauto. Qed.
(** from bucket p, the next bucket of the sequence *)
Lemma increment_in p q r : p / 64 <= sz / 64 -> In (p / 64) (o ++ [sz / 64]) -> later (p / 64) (p mod 64) = q :: r ->
  increment gs (BI p (Some (p / 64))) = Some (BI q (Some (p / 64))) /\ q / 64 = p / 64.
Proof.
  intros Lg Ig E. destruct (grp_exists (p / 64) Lg) as (G & EG & Eb & Em & _ & _).
  unfold increment. cbn [bi_g bi_p bindo]. rewrite EG. cbn [bindo]. rewrite <- Eb, (li_base _ _ _ _ H) by exact Ig. cbn [bindo].
  pose proof (mod_div p) as D. pose proof (mod_lt p) as ML.
  assert ((p <? 64 * (p / 64)) = false) as -> by (apply Nat.ltb_ge; lia).
  replace (p - 64 * (p / 64)) with (p mod 64) by lia.
  assert ((64 <=? p mod 64) = false) as -> by (apply Nat.leb_gt; lia). cbn [orb].
  rewrite <- Em. set (x := N.land _ _).
  assert (forall i, N.testbit x (N.of_nat i) = ((i <? 64) && (S (p mod 64) <=? i) && marked sz P (64 * (p / 64) + i))) as Bx.
  { intros i. unfold x. rewrite N.land_spec, (li_bits _ _ _ _ H) by exact Lg. rewrite reset_first_bits_spec by lia.
    replace (p mod 64 + 1) with (S (p mod 64)) by lia. destruct (i <? 64), (marked sz P (64 * (p / 64) + i)), (S (p mod 64) <=? i); reflexivity. }
  unfold later in E. assert (hd_error (filter (marked sz P) (seq (64 * (p / 64) + S (p mod 64)) (63 - p mod 64))) = Some q) as E1 by (rewrite E; reflexivity).
  rewrite <- find_filter in E1. pose proof (find_seq_spec (marked sz P) (64 * (p / 64) + S (p mod 64)) (63 - p mod 64)) as F. rewrite E1 in F.
  destruct F as (F1 & F2 & F3). destruct (countr_spec x) as [(C1 & C2 & C3)|(C1 & C2)].
  - assert (64 * (p / 64) + countr_zero x = q) as Eq.
    { rewrite Bx in C2. apply andb_true_iff in C2 as [C2 M]. apply andb_true_iff in C2 as [C2 C4]. apply Nat.leb_le in C4.
      destruct (Nat.lt_trichotomy (64 * (p / 64) + countr_zero x) q) as [L|[L|L]]; [|exact L|].
      - rewrite F3 in M by lia. discriminate.
      - specialize (C3 (q - 64 * (p / 64)) ltac:(lia)). rewrite Bx in C3. replace (64 * (p / 64) + (q - 64 * (p / 64))) with q in C3 by lia.
        rewrite F1 in C3. assert ((q - 64 * (p / 64) <? 64) = true) as X by (apply Nat.ltb_lt; lia). assert ((S (p mod 64) <=? q - 64 * (p / 64)) = true) as Y by (apply Nat.leb_le; lia).
        rewrite X, Y in C3. discriminate. }
    apply Nat.ltb_lt in C1. rewrite C1, Eq. split; [reflexivity|]. symmetry. apply (Nat.div_unique q 64 (p / 64) (q - 64 * (p / 64))); lia.
  - exfalso. specialize (C2 (q - 64 * (p / 64)) ltac:(lia)). rewrite Bx in C2. replace (64 * (p / 64) + (q - 64 * (p / 64))) with q in C2 by lia.
    rewrite F1 in C2. assert ((q - 64 * (p / 64) <? 64) = true) as X by (apply Nat.ltb_lt; lia). assert ((S (p mod 64) <=? q - 64 * (p / 64)) = true) as Y by (apply Nat.leb_le; lia).
    rewrite X, Y in C2. discriminate.
Qed.
Lemma gseq_nonempty g : In g (o ++ [sz / 64]) -> gseq sz P g <> [].
Proof.
  intros Ig E. pose proof (in_order_le g Ig) as Lg. apply (li_in _ _ _ _ H g Lg), nonzero_bit in Ig. destruct Ig as [i Hi].
  rewrite (li_bits _ _ _ _ H) in Hi by exact Lg. apply andb_true_iff in Hi as [L M]. apply Nat.ltb_lt in L.
  assert (In (64 * g + i) (gseq sz P g)) as X by (apply filter_In; split; [apply in_seq; lia|exact M]). rewrite E in X. destruct X.
Qed.
Lemma increment_out p g2 : p / 64 <= sz / 64 -> In (p / 64) (o ++ [sz / 64]) -> later (p / 64) (p mod 64) = [] ->
  gn gs (p / 64) = Some g2 -> In g2 (o ++ [sz / 64]) ->
  exists q r, gseq sz P g2 = q :: r /\ increment gs (BI p (Some (p / 64))) = Some (BI q (Some g2)) /\ q / 64 = g2.
Proof.
  intros Lg Ig E En I2. destruct (grp_exists (p / 64) Lg) as (G & EG & Eb & Em & Enx & _).
  pose proof (in_order_le g2 I2) as L2. destruct (grp_exists g2 L2) as (G2 & EG2 & Eb2 & Em2 & _).
  unfold increment. cbn [bi_g bi_p bindo]. rewrite EG. cbn [bindo]. rewrite <- Eb, (li_base _ _ _ _ H) by exact Ig. cbn [bindo].
  pose proof (mod_div p) as D. pose proof (mod_lt p) as ML.
  assert ((p <? 64 * (p / 64)) = false) as -> by (apply Nat.ltb_ge; lia).
  replace (p - 64 * (p / 64)) with (p mod 64) by lia.
  assert ((64 <=? p mod 64) = false) as -> by (apply Nat.leb_gt; lia). cbn [orb].
  rewrite <- Em. set (x := N.land _ _).
  assert (forall i, N.testbit x (N.of_nat i) = ((i <? 64) && (S (p mod 64) <=? i) && marked sz P (64 * (p / 64) + i))) as Bx.
  { intros i. unfold x. rewrite N.land_spec, (li_bits _ _ _ _ H) by exact Lg. rewrite reset_first_bits_spec by lia.
    replace (p mod 64 + 1) with (S (p mod 64)) by lia. destruct (i <? 64), (marked sz P (64 * (p / 64) + i)), (S (p mod 64) <=? i); reflexivity. }
  destruct (countr_spec x) as [(C1 & C2 & _)|(C1 & _)].
  { exfalso. rewrite Bx in C2. apply andb_true_iff in C2 as [C2 M]. apply andb_true_iff in C2 as [_ C4]. apply Nat.leb_le in C4.
    assert (In (64 * (p / 64) + countr_zero x) (later (p / 64) (p mod 64))) as X by (apply in_later; split; [lia|exact M]).
    rewrite E in X. destruct X. }
  rewrite C1, Nat.ltb_irrefl, <- Enx, En. cbn [bindo]. rewrite EG2. cbn [bindo]. rewrite <- Eb2, (li_base _ _ _ _ H) by exact I2. cbn [bindo]. rewrite <- Em2.
  destruct (gseq sz P g2) as [|q r] eqn:Eg; [exfalso; exact (gseq_nonempty g2 I2 Eg)|]. exists q, r. split; [reflexivity|].
  assert (List.find (marked sz P) (seq (64 * g2) 64) = Some q) as F by (rewrite <- gseq_find, Eg; reflexivity).
  pose proof (find_seq_spec (marked sz P) (64 * g2) 64) as FS. rewrite F in FS. destruct FS as (F1 & F2 & F3).
  assert (forall i, i < 64 -> N.testbit (gm gs g2) (N.of_nat i) = marked sz P (64 * g2 + i)) as B2.
  { intros i Li. rewrite (li_bits _ _ _ _ H) by exact L2. apply Nat.ltb_lt in Li. rewrite Li. reflexivity. }
  assert (64 * g2 + countr_zero (gm gs g2) = q) as Eq.
  { destruct (countr_spec (gm gs g2)) as [(K1 & K2 & K3)|(K1 & K2)].
    - rewrite B2 in K2 by lia. destruct (Nat.lt_trichotomy (64 * g2 + countr_zero (gm gs g2)) q) as [L|[L|L]]; [|exact L|].
      + rewrite F3 in K2 by lia. discriminate.
      + specialize (K3 (q - 64 * g2) ltac:(lia)). rewrite B2 in K3 by lia. replace (64 * g2 + (q - 64 * g2)) with q in K3 by lia. congruence.
    - specialize (K2 (q - 64 * g2) ltac:(lia)). rewrite B2 in K2 by lia. replace (64 * g2 + (q - 64 * g2)) with q in K2 by lia. congruence. }
  rewrite Eq. split; [reflexivity|]. symmetry. apply (Nat.div_unique q 64 g2 (q - 64 * g2)); lia.
Qed.

Lemma flat_map_split {A} (f : A -> list nat) (L : list A) : (forall g, In g L -> f g <> []) -> forall l1 p q l2, flat_map f L = l1 ++ p :: q :: l2 ->
  (exists g m1 m2, In g L /\ f g = m1 ++ p :: q :: m2) \/
  (exists L1 g g' L2 m1 m2, L = L1 ++ g :: g' :: L2 /\ f g = m1 ++ [p] /\ f g' = q :: m2).
Proof.
  induction L as [|g L IH]; intros Hne l1 p q l2 E; cbn [flat_map] in E; [destruct l1; discriminate|].
  assert (forall g0, In g0 L -> f g0 <> []) as Hne' by (intros g0 Hg; apply Hne; right; exact Hg).
  destruct (Nat.le_gt_cases (length (f g)) (length l1)) as [C|C].
  - (* p, q in the rest *)
    assert (exists l1', l1 = f g ++ l1') as [l1' ->].
    { exists (skipn (length (f g)) l1). rewrite <- (firstn_skipn (length (f g)) l1) at 1. f_equal.
      assert (firstn (length (f g)) (f g ++ flat_map f L) = firstn (length (f g)) (l1 ++ p :: q :: l2)) as X by (rewrite E; reflexivity).
      rewrite firstn_app, Nat.sub_diag, firstn_all, firstn_O, app_nil_r in X. rewrite firstn_app in X.
      replace (length (f g) - length l1) with 0 in X by lia. rewrite firstn_O, app_nil_r in X. symmetry. exact X. }
    rewrite <- app_assoc in E. apply app_inv_head in E. destruct (IH Hne' _ _ _ _ E) as [(g0 & m1 & m2 & I & X)|(L1 & a & b & L2 & m1 & m2 & X & Y & Z)].
    + left. exists g0, m1, m2. split; [right; exact I|exact X].
    + right. exists (g :: L1), a, b, L2, m1, m2. subst L. auto.
  - destruct (Nat.eq_dec (length (f g)) (S (length l1))) as [C1|C1].
    + assert (f g = l1 ++ [p] /\ flat_map f L = q :: l2) as [X Y].
      { assert (f g ++ flat_map f L = (l1 ++ [p]) ++ q :: l2) as E' by (rewrite E, <- app_assoc; reflexivity).
        apply app_inj_len in E'; [exact E'|]. rewrite app_length. cbn. lia. }
      destruct L as [|g' L]; [discriminate|]. right. cbn [flat_map] in Y. pose proof (Hne' g' (or_introl eq_refl)) as N.
      destruct (f g') as [|q' m2] eqn:Eg; [congruence|]. cbn in Y. injection Y as -> Y.
      exists [], g, g', L, l1, m2. auto.
    + left. exists g, l1. assert (exists m2, f g = l1 ++ p :: q :: m2) as [m2 X].
      { exists (skipn (S (S (length l1))) (f g)).
        assert (firstn (S (S (length l1))) (f g ++ flat_map f L) = firstn (S (S (length l1))) (l1 ++ p :: q :: l2)) as X by (rewrite E; reflexivity).
        rewrite firstn_app in X. replace (S (S (length l1)) - length (f g)) with 0 in X by lia. rewrite firstn_O, app_nil_r in X.
        rewrite firstn_app in X. rewrite (@firstn_all2 _ (S (S (length l1))) l1) in X by lia. replace (S (S (length l1)) - length l1) with 2 in X by lia. change (firstn 2 (p :: q :: l2)) with [p; q] in X.
        rewrite <- (firstn_skipn (S (S (length l1))) (f g)) at 1. rewrite X, <- app_assoc. reflexivity. }
      exists m2. split; [left; reflexivity|exact X].
Qed.
Lemma nodup_split {A} (m1 m1' : list A) p x y : NoDup (m1 ++ p :: x) -> m1 ++ p :: x = m1' ++ p :: y -> m1 = m1' /\ x = y.
Proof.
  revert m1'. induction m1 as [|a m1 IH]; intros [|b m1'] N E; cbn in *.
  - injection E as ->. auto.
  - injection E as -> ->. inversion N. subst. exfalso. apply H2. apply in_elt.
  - injection E as -> E. subst. inversion N. subst. exfalso. apply H2. apply in_elt.
  - injection E as -> E. inversion N. subst. apply IH in E; [|assumption]. destruct E as [-> ->]. auto.
Qed.
Lemma gseq_nodup g : NoDup (gseq sz P g). Proof. apply NoDup_filter, seq_NoDup. Qed.
Lemma in_gseq g p : In p (gseq sz P g) <-> p / 64 = g /\ marked sz P p = true.
Proof.
  unfold gseq. rewrite filter_In, in_seq. pose proof (mod_div p). pose proof (mod_lt p). split; intros [A B]; (split; [|exact B]).
  - symmetry. apply (Nat.div_unique p 64 g (p - 64 * g)); lia.
  - subst g. lia.
Qed.
Lemma later_last : later (sz / 64) (sz mod 64) = [].
Proof.
  destruct (later (sz / 64) (sz mod 64)) as [|q r] eqn:E; [reflexivity|]. exfalso.
  assert (In q (later (sz / 64) (sz mod 64))) as X by (rewrite E; left; reflexivity). apply in_later in X as [X M].
  pose proof (mod_div sz). unfold marked in M. assert ((q <? sz) = false) as F by (apply Nat.ltb_ge; lia). assert ((q =? sz) = false) as F2 by (apply Nat.eqb_neq; lia).
  rewrite F, F2, andb_false_r in M. discriminate.
Qed.
Lemma order_split L1 g g' L2 : o ++ [sz / 64] = L1 ++ g :: g' :: L2 -> gn gs g = Some g'.
Proof.
  intros E. pose proof (li_links _ _ _ _ H) as L. rewrite E in L. change (sz / 64 :: L1 ++ g :: g' :: L2) with ((sz / 64 :: L1) ++ g :: g' :: L2) in L.
  apply Links_app in L as [_ L]. apply Links_cons2 in L as [L _]. exact L.
Qed.
Lemma later_of g m1 p x : gseq sz P g = m1 ++ p :: x -> p / 64 = g /\ later g (p mod 64) = x.
Proof.
  intros E. assert (In p (gseq sz P g)) as I by (rewrite E; apply in_elt). apply in_gseq in I as [D M]. split; [exact D|].
  assert (64 * g + p mod 64 = p) as E3 by (subst g; apply mod_div).
  assert (marked sz P (64 * g + p mod 64) = true) as M2 by (rewrite E3; exact M).
  pose proof (gseq_split g (p mod 64) (mod_lt p) M2) as S. rewrite E3 in S.
  pose proof (gseq_nodup g) as N. rewrite S in N. rewrite E in S. symmetry in S. apply (nodup_split _ _ _ _ _ N) in S. symmetry. symmetry. apply S.
Qed.

Lemma hd_flat_map {A} (f : A -> list nat) g r q' r' : f g = q' :: r' -> hd_error (flat_map f (g :: r)) = Some q'.
Proof. intros E. cbn [flat_map]. rewrite E. reflexivity. Qed.
Lemma increment_first q l2 : bseq sz P o = q :: l2 -> increment gs (BI sz (Some (sz / 64))) = Some (BI q (Some (q / 64))).
Proof.
  intros E. assert (In (sz / 64) (o ++ [sz / 64])) as Il by (apply in_elt).
  assert (exists g2 r, o ++ [sz / 64] = g2 :: r) as (g2 & r & Eo) by (destruct o; cbn [app]; eauto).
  unfold bseq in E. assert (In g2 (o ++ [sz / 64])) as I2 by (rewrite Eo; left; reflexivity).
  assert (gn gs (sz / 64) = Some g2) as En by (pose proof (li_links _ _ _ _ H) as L; rewrite Eo in L; apply Links_cons2 in L; apply L).
  destruct (increment_out sz g2 (le_n _) Il later_last En I2) as (q' & r' & Eg & Ei & D).
  assert (hd_error (flat_map (gseq sz P) (o ++ [sz / 64])) = Some q') as X by (rewrite Eo; apply (hd_flat_map _ _ _ _ _ Eg)).
  rewrite E in X. injection X as X. rewrite X, Ei, D. reflexivity.
Qed.
Lemma increment_next l1 p q l2 : bseq sz P o = l1 ++ p :: q :: l2 ->
  increment gs (BI p (Some (p / 64))) = Some (BI q (Some (q / 64))).
Proof.
  intros E. unfold bseq in E. destruct (flat_map_split (gseq sz P) (o ++ [sz / 64]) gseq_nonempty _ _ _ _ E) as [(g & m1 & m2 & Ig & X)|(L1 & g & g' & L2 & m1 & m2 & X & Y & Z)].
  + apply later_of in X as X2. destruct X2 as [D X2]. pose proof (in_order_le g Ig) as Lg. subst g.
    destruct (increment_in p q m2 Lg Ig X2) as [A B]. rewrite A, B. reflexivity.
  + apply later_of in Y as Y2. destruct Y2 as [D Y2]. assert (In g (o ++ [sz / 64])) as Ig by (rewrite X; apply in_elt).
    assert (In g' (o ++ [sz / 64])) as Ig' by (rewrite X; apply in_or_app; right; right; left; reflexivity).
    pose proof (in_order_le g Ig) as Lg. pose proof (order_split _ _ _ _ X) as En. subst g.
    destruct (increment_out p g' Lg Ig Y2 En Ig') as (q' & r' & Eg & Ei & D2). rewrite Z in Eg. injection Eg as <- _. rewrite Ei, D2. reflexivity.
Qed.
Theorem increment_seq l1 p q l2 : sz :: bseq sz P o = l1 ++ p :: q :: l2 ->
  increment gs (BI p (Some (p / 64))) = Some (BI q (Some (q / 64))).
Proof.
  intros E. destruct l1 as [|a l1]; cbn [app] in E.
  - injection E as <- E. exact (increment_first q l2 E).
  - injection E as _ E. exact (increment_next l1 p q l2 E).
Qed.

(** the sequence ends with the end bucket, and holds every marked bucket once *)
Lemma bseq_last : exists l, bseq sz P o = l ++ [sz] /\ ~ In sz l.
Proof.
  pose proof (mod_div sz) as D. pose proof (mod_lt sz) as ML.
  assert (marked sz P sz = true) as M by (unfold marked; rewrite Nat.eqb_refl, orb_true_r; reflexivity).
  assert (marked sz P (64 * (sz / 64) + sz mod 64) = true) as M2 by (rewrite D; exact M).
  pose proof (gseq_split (sz / 64) (sz mod 64) ML M2) as S. rewrite D, later_last in S.
  exists (flat_map (gseq sz P) o ++ filter (marked sz P) (seq (64 * (sz / 64)) (sz mod 64))). split.
  - unfold bseq. rewrite flat_map_app. cbn [flat_map]. rewrite S, app_nil_r, app_assoc. reflexivity.
  - rewrite in_app_iff, in_flat_map, filter_In, in_seq. intros [(g & Ig & X)|[X _]].
    + apply in_gseq in X as [X _]. apply (li_lt _ _ _ _ H) in Ig. lia.
    + lia.
Qed.
Lemma in_bseq i : In i (bseq sz P o) <-> marked sz P i = true.
Proof.
  unfold bseq. rewrite in_flat_map. split.
  - intros (g & Ig & X). apply in_gseq in X. apply X.
  - intros M. exists (i / 64). split; [|apply in_gseq; auto].
    assert (i <= sz) as L.
    { unfold marked in M. destruct (Nat.ltb_spec i sz); [lia|]. rewrite andb_false_r in M. cbn in M. apply Nat.eqb_eq in M. lia. }
    assert (i / 64 <= sz / 64) as Lg by (apply Nat.div_le_mono; lia).
    apply (li_in _ _ _ _ H _ Lg). apply nonzero_bit. exists (i mod 64). rewrite (li_bits _ _ _ _ H) by exact Lg.
    rewrite mod_div, M. pose proof (mod_lt i) as ML. apply Nat.ltb_lt in ML. rewrite ML. reflexivity.
Qed.
Lemma bseq_nodup : NoDup (bseq sz P o).
Proof.
  unfold bseq. pose proof (li_nodup _ _ _ _ H) as N. induction (o ++ [sz / 64]) as [|g L IH]; cbn [flat_map]; [constructor|].
  inversion N. subst. apply NoDup_app_intro; [apply gseq_nodup|apply IH; assumption|].
  intros x Hx Hy. apply in_gseq in Hx as [<- _]. apply in_flat_map in Hy as (g & Ig & Hy). apply in_gseq in Hy as [<- _]. contradiction.
Qed.
End Inc.

(** *** effect of each field update *)
Ltac upd_tac :=
  let H := fresh in let x := fresh in let E := fresh in let j := fresh "j" in intros H;
  pose proof (upd_inv _ _ _ _ H) as (x & E & _ & _);
  repeat match goal with |- _ /\ _ => split end;
  intros j; unfold gn, gp, gb, gm; rewrite (upd_get _ _ _ _ j H); 
  (match goal with |- context [Nat.eqb j ?y] => destruct (Nat.eqb_spec j y) as [->|] end); try rewrite E; reflexivity.
Lemma upd_set_next gs g v gs' : upd gs g (set_next v) = Some gs' ->
  (forall j, gn gs' j = if j =? g then v else gn gs j) /\ (forall j, gp gs' j = gp gs j) /\ (forall j, gb gs' j = gb gs j) /\ (forall j, gm gs' j = gm gs j).
Proof. upd_tac. Qed.
Lemma upd_set_prev gs g v gs' : upd gs g (set_prev v) = Some gs' ->
  (forall j, gn gs' j = gn gs j) /\ (forall j, gp gs' j = if j =? g then v else gp gs j) /\ (forall j, gb gs' j = gb gs j) /\ (forall j, gm gs' j = gm gs j).
Proof. upd_tac. Qed.
Lemma upd_set_base gs g v gs' : upd gs g (set_base v) = Some gs' ->
  (forall j, gn gs' j = gn gs j) /\ (forall j, gp gs' j = gp gs j) /\ (forall j, gb gs' j = if j =? g then v else gb gs j) /\ (forall j, gm gs' j = gm gs j).
Proof. upd_tac. Qed.
Lemma upd_set_mask gs g v gs' : upd gs g (set_mask v) = Some gs' ->
  (forall j, gn gs' j = gn gs j) /\ (forall j, gp gs' j = gp gs j) /\ (forall j, gb gs' j = gb gs j) /\ (forall j, gm gs' j = if j =? g then v else gm gs j).
Proof. upd_tac. Qed.
Lemma upd_set_null gs g gs' : upd gs g (fun x => set_prev None (set_next None x)) = Some gs' ->
  (forall j, gn gs' j = if j =? g then None else gn gs j) /\ (forall j, gp gs' j = if j =? g then None else gp gs j) /\ (forall j, gb gs' j = gb gs j) /\ (forall j, gm gs' j = gm gs j).
Proof. upd_tac. Qed.

Lemma nth_some gs g : g < length gs -> exists G, nth_error gs g = Some G /\ gn gs g = g_next G /\ gp gs g = g_prev G /\ gb gs g = g_base G /\ gm gs g = g_mask G.
Proof. intros L. unfold gn, gp, gb, gm. destruct (nth_error gs g) as [G|] eqn:E; [exists G; auto|]. apply nth_error_None in E. lia. Qed.

(** *** a new array *)
Lemma new_groups_ok sz : exists gs, new_groups sz = Some gs /\ LInv sz gs (fun _ => false) [].
Proof.
  unfold new_groups. assert (sz / 64 < length (repeat g_empty (sz / 64 + 1))) as L by (rewrite repeat_length; lia).
  destruct (upd_some _ _ (fun _ => Grp (Some (64 * (sz / 64))) (set_bit (sz mod 64)) (Some (sz / 64)) (Some (sz / 64))) L) as [gs E]. rewrite E. exists gs. split; [reflexivity|].
  pose proof (upd_len _ _ _ _ E) as Ln. rewrite repeat_length in Ln.
  assert (forall j, nth_error gs j = if j =? sz / 64 then Some (Grp (Some (64 * (sz / 64))) (set_bit (sz mod 64)) (Some (sz / 64)) (Some (sz / 64))) else nth_error (repeat g_empty (sz / 64 + 1)) j) as G.
  { intros j. rewrite (upd_get _ _ _ _ j E). destruct (Nat.eqb_spec j (sz / 64)) as [->|]; [|reflexivity].
    destruct (nth_error (repeat g_empty (sz / 64 + 1)) (sz / 64)) eqn:X; [reflexivity|]. apply nth_error_None in X. lia. }
  assert (forall j, j < sz / 64 -> nth_error gs j = Some g_empty) as Ge.
  { intros j Lj. rewrite G. destruct (Nat.eqb_spec j (sz / 64)); [lia|]. rewrite (nth_error_nth' _ g_empty) by (rewrite repeat_length; lia). rewrite nth_repeat. reflexivity. }
  assert (nth_error gs (sz / 64) = Some (Grp (Some (64 * (sz / 64))) (set_bit (sz mod 64)) (Some (sz / 64)) (Some (sz / 64)))) as Gl by (rewrite G, Nat.eqb_refl; reflexivity).
  pose proof (mod_div sz) as D. pose proof (mod_lt sz) as ML.
  constructor.
  - exact Ln.
  - constructor; [intros []|constructor].
  - intros g [].
  - cbn [app]. rewrite Links_cons2. unfold gn, gp. rewrite Gl. repeat (split; [reflexivity|]). exact Logic.I.
  - intros g [<-|[]]. unfold gb. rewrite Gl. reflexivity.
  - intros g b. unfold gb. rewrite G. destruct (Nat.eqb_spec g (sz / 64)) as [->|Ng]; [cbn; congruence|].
    destruct (nth_error (repeat g_empty (sz / 64 + 1)) g) as [x|] eqn:X; [|discriminate]. apply nth_error_In, repeat_spec in X. subst x. discriminate.
  - intros g Lg. unfold gm. destruct (Nat.eq_dec g (sz / 64)) as [->|Ng].
    + rewrite Gl. split; [|intros _; left; reflexivity]. intros _. apply nonzero_bit. exists (sz mod 64). cbn [g_mask]. rewrite set_bit_spec. apply Nat.eqb_refl.
    + rewrite Ge by lia. split; [intros [X|[]]; congruence|intros X; exfalso; apply X; reflexivity].
  - intros g Lg _. unfold gn. rewrite Ge by lia. reflexivity.
  - intros g i Lg. unfold gm, marked. cbn [andb orb]. destruct (Nat.eq_dec g (sz / 64)) as [->|Ng].
    + rewrite Gl. cbn [g_mask]. rewrite set_bit_spec. destruct (Nat.eqb_spec i (sz mod 64)) as [->|Ni].
      * rewrite D, Nat.eqb_refl. apply Nat.ltb_lt in ML. rewrite ML. reflexivity.
      * assert ((64 * (sz / 64) + i =? sz) = false) as -> by (apply Nat.eqb_neq; lia). rewrite andb_false_r. reflexivity.
    + rewrite Ge by lia. cbn [g_mask g_empty]. rewrite N.bits_0. destruct (Nat.ltb_spec i 64); [|reflexivity].
      assert ((64 * g + i =? sz) = false) as -> by (apply Nat.eqb_neq; lia). reflexivity.
Qed.

(** *** marking a bucket *)
Definition add_mark (P : nat -> bool) (p i : nat) : bool := P i || (i =? p).
Definition del_mark (P : nat -> bool) (p i : nat) : bool := P i && negb (i =? p).

Lemma marked_add sz P p i : p < sz -> marked sz (add_mark P p) i = marked sz P i || (i =? p).
Proof.
  intros L. unfold marked, add_mark. destruct (Nat.eqb_spec i p) as [->|]; [|rewrite !orb_false_r; reflexivity].
  apply Nat.ltb_lt in L. rewrite L. destruct (P p), (p =? sz); reflexivity.
Qed.
Lemma marked_del sz P p i : p < sz -> marked sz (del_mark P p) i = marked sz P i && negb (i =? p).
Proof.
  intros L. unfold marked, del_mark. destruct (Nat.eqb_spec i p) as [->|]; cbn [negb]; rewrite ?andb_true_r, ?andb_false_r; [|reflexivity].
  cbn. apply Nat.eqb_neq. lia.
Qed.

Lemma removelast_snoc {A} (l : list A) x : removelast (l ++ [x]) = l.
Proof. apply removelast_last. Qed.

Lemma append_bits_ok sz gs P o p : LInv sz gs P o -> p < sz ->
  exists gs' o', append_bits sz gs (BI p (Some (p / 64))) = Some gs' /\ LInv sz gs' (add_mark P p) o' /\
  (o' = o \/ (o' = p / 64 :: o /\ ~ In (p / 64) (o ++ [sz / 64]) /\ p / 64 <= sz / 64)).
Proof.
  intros H Lp. pose proof (li_len _ _ _ _ H) as Ln. assert (p / 64 <= sz / 64) as Lg by (apply Nat.div_le_mono; lia).
  pose proof (mod_div p) as D. pose proof (mod_lt p) as ML.
  unfold append_bits. cbn [bi_g bi_p bindo]. destruct (nth_some gs (p / 64) ltac:(lia)) as (G & EG & Gn & Gp & Gb & Gm). rewrite EG. cbn [bindo].
  (* the mask update, common to both cases *)
  assert (forall gs1 o1, length gs1 = length gs -> (forall g, gm gs1 g = gm gs g) ->
      NoDup (o1 ++ [sz / 64]) -> (forall g, In g o1 -> g < sz / 64) -> Links gs1 (sz / 64 :: o1 ++ [sz / 64]) ->
      (forall g, In g (o1 ++ [sz / 64]) -> gb gs1 g = Some (64 * g)) ->
      (forall g b, gb gs1 g = Some b -> b = 64 * g) ->
      (forall g, g <= sz / 64 -> (In g (o1 ++ [sz / 64]) <-> In g (o ++ [sz / 64]) \/ g = p / 64)) ->
      (forall g, g < sz / 64 -> ~ In g o1 -> gn gs1 g = None) ->
      exists gs', bindo (nth_error gs1 (p / 64)) (fun G1 => upd gs1 (p / 64) (set_mask (N.lor (g_mask G1) (set_bit (p mod 64))))) = Some gs' /\ LInv sz gs' (add_mark P p) o1) as Fin.
  { intros gs1 o1 L1 M1 A1 A2 A3 A4 A4' A5 A6. destruct (nth_some gs1 (p / 64) ltac:(lia)) as (G1 & EG1 & _ & _ & _ & Gm1). rewrite EG1. cbn [bindo].
    destruct (upd_some gs1 (p / 64) (set_mask (N.lor (g_mask G1) (set_bit (p mod 64)))) ltac:(lia)) as [gs' U]. rewrite U. exists gs'. split; [reflexivity|].
    pose proof (upd_len _ _ _ _ U) as L2. apply upd_set_mask in U as (U1 & U2 & U3 & U4).
    assert (forall g i, g <= sz / 64 -> N.testbit (gm gs' g) (N.of_nat i) = (i <? 64) && marked sz (add_mark P p) (64 * g + i)) as BITS.
    { intros g i Lgg. rewrite marked_add, U4 by exact Lp. destruct (Nat.eqb_spec g (p / 64)) as [->|Ng].
      - rewrite N.lor_spec, set_bit_spec, <- Gm1, M1, (li_bits _ _ _ _ H) by exact Lg.
        destruct (Nat.ltb_spec i 64).
        + cbn [andb]. destruct (Nat.eqb_spec i (p mod 64)), (Nat.eqb_spec (64 * (p / 64) + i) p); try reflexivity; lia.
        + cbn [andb orb]. apply Nat.eqb_neq. lia.
      - rewrite M1, (li_bits _ _ _ _ H) by exact Lgg. destruct (Nat.ltb_spec i 64); [|reflexivity].
        assert ((64 * g + i =? p) = false) as ->.
        { apply Nat.eqb_neq. intros E. apply Ng. apply (Nat.div_unique p 64 g i); lia. }
        rewrite orb_false_r. reflexivity. }
    constructor.
    - lia.
    - exact A1.
    - exact A2.
    - apply (Links_frame gs1); [intros a _; apply U1|intros b _; apply U2|exact A3].
    - intros g Ig. rewrite U3. apply A4. exact Ig.
    - intros g b. rewrite U3. apply A4'.
    - intros g Lgg. rewrite (A5 g Lgg). split.
      + intros X. apply nonzero_bit. destruct X as [X| ->].
        * apply (li_in _ _ _ _ H g Lgg), nonzero_bit in X. destruct X as [i X]. exists i. rewrite BITS, marked_add by assumption.
          rewrite (li_bits _ _ _ _ H) in X by exact Lgg. apply andb_true_iff in X as [X Y]. rewrite X, Y. reflexivity.
        * exists (p mod 64). rewrite BITS, marked_add, D, Nat.eqb_refl, orb_true_r by assumption. apply Nat.ltb_lt in ML. rewrite ML. reflexivity.
      + intros X. destruct (Nat.eq_dec g (p / 64)) as [->|Ng]; [right; reflexivity|left]. apply (li_in _ _ _ _ H g Lgg).
        rewrite U4, M1 in X. apply Nat.eqb_neq in Ng. rewrite Ng in X. exact X.
    - intros g Lgg Ng. rewrite U1. apply A6; assumption.
    - exact BITS. }
  destruct (N.eqb_spec (g_mask G) 0) as [Z|Z]; rewrite <- Gm in Z.
  - (* an empty group is linked after the last one *)
    assert (~ In (p / 64) (o ++ [sz / 64])) as NI by (intros I; apply (li_in _ _ _ _ H _ Lg) in I; contradiction).
    assert (p / 64 <> sz / 64) as Nl by (intros E; apply NI; rewrite E; apply in_elt).
    assert (~ In (p / 64) o) as NIo by (intros I; apply NI; apply in_or_app; left; exact I).
    destruct (upd_some gs (p / 64) (set_base (Some (64 * (p / 64)))) ltac:(lia)) as [ga Ua]. rewrite Ua. cbn [bindo].
    pose proof (upd_len _ _ _ _ Ua) as La. apply upd_set_base in Ua as (a1 & a2 & a3 & a4).
    destruct (nth_some ga (sz / 64) ltac:(lia)) as (L & EL & Lnx & _). rewrite EL. cbn [bindo].
    assert (exists x rest, o ++ [sz / 64] = x :: rest) as (x & rest & Ex) by (destruct o; cbn [app]; eauto).
    pose proof (li_links _ _ _ _ H) as Lk. rewrite Ex in Lk. apply Links_cons2 in Lk as (Lx1 & Lx2 & Lx3).
    rewrite a1, Lx1 in Lnx. rewrite <- Lnx.
    destruct (upd_some ga (p / 64) (set_next (Some x)) ltac:(lia)) as [gb' Ub]. rewrite Ub. cbn [bindo].
    pose proof (upd_len _ _ _ _ Ub) as Lb. apply upd_set_next in Ub as (b1 & b2 & b3 & b4).
    destruct (nth_some gb' (p / 64) ltac:(lia)) as (G3 & EG3 & G3n & _). rewrite EG3. cbn [bindo]. rewrite b1, Nat.eqb_refl in G3n. rewrite <- G3n. cbn [bindo].
    assert (In x (o ++ [sz / 64])) as Ix by (rewrite Ex; left; reflexivity).
    pose proof (in_order_le _ _ _ _ H x Ix) as Lex.
    destruct (upd_some gb' x (set_prev (Some (p / 64))) ltac:(lia)) as [gc Uc]. rewrite Uc. cbn [bindo].
    pose proof (upd_len _ _ _ _ Uc) as Lc. apply upd_set_prev in Uc as (c1 & c2 & c3 & c4).
    destruct (upd_some gc (p / 64) (set_prev (Some (sz / 64))) ltac:(lia)) as [gd Ud]. rewrite Ud. cbn [bindo].
    pose proof (upd_len _ _ _ _ Ud) as Ld. apply upd_set_prev in Ud as (d1 & d2 & d3 & d4).
    destruct (upd_some gd (sz / 64) (set_next (Some (p / 64))) ltac:(lia)) as [ge Ue]. rewrite Ue. cbn [bindo].
    pose proof (upd_len _ _ _ _ Ue) as Le. apply upd_set_next in Ue as (e1 & e2 & e3 & e4).
    assert (forall j, gn ge j = if j =? sz / 64 then Some (p / 64) else if j =? p / 64 then Some x else gn gs j) as NX by (intros j; rewrite e1, d1, c1, b1, a1; reflexivity).
    assert (forall j, gp ge j = if j =? p / 64 then Some (sz / 64) else if j =? x then Some (p / 64) else gp gs j) as PX by (intros j; rewrite e2, d2, c2, b2, a2; reflexivity).
    assert (forall j, gb ge j = if j =? p / 64 then Some (64 * (p / 64)) else gb gs j) as BX by (intros j; rewrite e3, d3, c3, b3, a3; reflexivity).
    assert (forall j, gm ge j = gm gs j) as MX by (intros j; rewrite e4, d4, c4, b4, a4; reflexivity).
    assert (x <> p / 64) as Nx by (intros ->; contradiction).
    destruct (Fin ge (p / 64 :: o)) as (gs' & A & B).
    + lia.
    + exact MX.
    + cbn [app]. constructor; [exact NI|apply (li_nodup _ _ _ _ H)].
    + intros g [<-|Ig]; [lia|apply (li_lt _ _ _ _ H g Ig)].
    + cbn [app]. rewrite Ex. rewrite !Links_cons2. rewrite NX, Nat.eqb_refl. split; [reflexivity|]. rewrite PX, Nat.eqb_refl. split; [reflexivity|].
      rewrite NX. replace (p / 64 =? sz / 64) with false by (symmetry; apply Nat.eqb_neq; exact Nl). rewrite Nat.eqb_refl. split; [reflexivity|].
      rewrite PX. replace (x =? p / 64) with false by (symmetry; apply Nat.eqb_neq; exact Nx). rewrite Nat.eqb_refl. split; [reflexivity|].
      apply (Links_frame gs); [| |exact Lx3].
      * rewrite <- Ex, removelast_snoc. intros a Ia. rewrite NX.
        replace (a =? sz / 64) with false by (symmetry; apply Nat.eqb_neq; apply (li_lt _ _ _ _ H) in Ia; lia).
        replace (a =? p / 64) with false by (symmetry; apply Nat.eqb_neq; intros ->; contradiction). reflexivity.
      * cbn [tl]. intros b Ib. rewrite PX.
        replace (b =? p / 64) with false by (symmetry; apply Nat.eqb_neq; intros ->; apply NI; rewrite Ex; right; exact Ib).
        replace (b =? x) with false; [reflexivity|]. symmetry. apply Nat.eqb_neq. intros ->. pose proof (li_nodup _ _ _ _ H) as N. rewrite Ex in N. inversion N. contradiction.
    + intros g Ig. rewrite BX. destruct (Nat.eqb_spec g (p / 64)) as [->|Ng]; [reflexivity|]. apply (li_base _ _ _ _ H). cbn [app] in Ig. destruct Ig; [congruence|assumption].
    + intros g b. rewrite BX. destruct (Nat.eqb_spec g (p / 64)) as [->|Ng]; [congruence|apply (li_base0 _ _ _ _ H)].
    + intros g Lgg. cbn [app In]. split; intros [X|X]; auto.
    + intros g Lgg Ng. cbn [In] in Ng. rewrite NX. replace (g =? sz / 64) with false by (symmetry; apply Nat.eqb_neq; lia).
      replace (g =? p / 64) with false by (symmetry; apply Nat.eqb_neq; intros ->; tauto). apply (li_out _ _ _ _ H); tauto.
    + exists gs', (p / 64 :: o). split; [exact A|]. split; [exact B|]. right. auto.
  - (* the group is already linked *)
    cbn [bindo]. assert (In (p / 64) (o ++ [sz / 64])) as I by (apply (li_in _ _ _ _ H _ Lg); exact Z).
    destruct (Fin gs o) as (gs' & A & B); try (destruct H; assumption); try reflexivity.
    + intros g Lgg. split; [auto|]. intros [X| ->]; assumption.
    + exists gs', o. split; [exact A|]. split; [exact B|]. left. reflexivity.
Qed.

(** *** unlinking *)
(** the part of the invariant that does not concern the bitmaps *)
Record Str (sz : nat) (gs : list group) (o : list nat) : Prop := {
  st_len : length gs = sz / 64 + 1;
  st_nodup : NoDup (o ++ [sz / 64]);
  st_lt : forall g, In g o -> g < sz / 64;
  st_links : Links gs (sz / 64 :: o ++ [sz / 64]);
  st_base : forall g, In g (o ++ [sz / 64]) -> gb gs g = Some (64 * g);
  st_base0 : forall g b, gb gs g = Some b -> b = 64 * g;
  st_out : forall g, g < sz / 64 -> ~ In g o -> gn gs g = None
}.
Lemma LInv_Str sz gs P o : LInv sz gs P o -> Str sz gs o. Proof. intros []; constructor; assumption. Qed.
Lemma Str_mask sz gs gs' o g m : Str sz gs o -> upd gs g (set_mask m) = Some gs' -> Str sz gs' o.
Proof.
  intros [] U. pose proof (upd_len _ _ _ _ U). apply upd_set_mask in U as (U1 & U2 & U3 & _). constructor; try assumption.
  - congruence.
  - apply (Links_frame gs); auto.
  - intros g0 I. rewrite U3. auto.
  - intros g0 b. rewrite U3. auto.
  - intros g0 L I. rewrite U1. auto.
Qed.

Lemma unlink_group_ok sz gs o g : Str sz gs o -> In g o ->
  exists gs' o1 o2, o = o1 ++ g :: o2 /\ unlink_group gs g = Some gs' /\ Str sz gs' (o1 ++ o2) /\ (forall j, gm gs' j = gm gs j) /\ (forall j, gb gs' j = gb gs j).
Proof.
  intros H Ig. pose proof (st_len _ _ _ H) as Ln. pose proof (st_lt _ _ _ H g Ig) as Lg. apply in_split in Ig as (o1 & o2 & Eo).
  pose proof (st_nodup _ _ _ H) as ND. pose proof (st_links _ _ _ H) as Lk. rewrite Eo in ND, Lk.
  assert (exists l1 a, sz / 64 :: o1 = l1 ++ [a]) as (l1 & a & Ea) by (destruct (@exists_last _ (sz / 64 :: o1)) as (l1 & a & E); [discriminate|eauto]).
  assert (exists b l2, o2 ++ [sz / 64] = b :: l2) as (b & l2 & Eb) by (destruct o2; cbn [app]; eauto).
  assert (sz / 64 :: (o1 ++ g :: o2) ++ [sz / 64] = l1 ++ a :: g :: b :: l2) as ES.
  { rewrite <- app_assoc. cbn [app]. rewrite Eb. change (sz / 64 :: o1 ++ g :: b :: l2) with ((sz / 64 :: o1) ++ g :: b :: l2). rewrite Ea, <- app_assoc. reflexivity. }
  rewrite ES in Lk. apply Links_app in Lk as [Lk1 Lk2]. apply Links_cons2 in Lk2 as (K1 & K2 & Lk2). apply Links_cons2 in Lk2 as (K3 & K4 & Lk2).
  assert (NoDup (o1 ++ o2 ++ [sz / 64]) /\ ~ In g (o1 ++ o2 ++ [sz / 64])) as [ND1 NG].
  { rewrite <- app_assoc in ND. cbn [app] in ND. split; [apply (NoDup_remove_1 _ _ _ ND)|apply (NoDup_remove_2 _ _ _ ND)]. }
  assert (In a (sz / 64 :: o1)) as Ia by (rewrite Ea; apply in_elt).
  assert (In b (o2 ++ [sz / 64])) as Ib by (rewrite Eb; left; reflexivity).
  assert (a <> g) as Nag.
  { intros ->. destruct Ia as [E|X]; [|apply NG; apply in_or_app; left; exact X]. apply NG. rewrite <- E. apply in_or_app; right; apply in_elt. }
  assert (b <> g) as Nbg by (intros ->; apply NG; apply in_or_app; right; exact Ib).
  assert (forall x, In x (o1 ++ g :: o2) -> x < sz / 64) as LT by (rewrite <- Eo; apply (st_lt _ _ _ H)).
  assert (forall x, In x (sz / 64 :: o1) -> x < length gs) as La.
  { intros x [<-|X]; [lia|]. assert (x < sz / 64) by (apply LT; apply in_or_app; left; exact X). lia. }
  assert (forall x, In x (o2 ++ [sz / 64]) -> x < length gs) as Lb.
  { intros x X. apply in_app_or in X as [X|[<-|[]]]; [|lia]. assert (x < sz / 64) by (apply LT; apply in_or_app; right; right; exact X). lia. }
  unfold unlink_group. destruct (nth_some gs g ltac:(lia)) as (G & EG & Gn & Gp & _ & _). rewrite EG. cbn [bindo]. rewrite <- Gn, K3. cbn [bindo]. rewrite <- Gp, K2.
  destruct (upd_some gs b (set_prev (Some a)) (Lb b Ib)) as [gs1 U]. rewrite U. cbn [bindo].
  pose proof (upd_len _ _ _ _ U) as L1. apply upd_set_prev in U as (u1 & u2 & u3 & u4).
  destruct (nth_some gs1 g ltac:(lia)) as (G1 & EG1 & Gn1 & Gp1 & _). rewrite EG1. cbn [bindo]. rewrite <- Gp1, <- Gn1, u1, u2, K3.
  replace (g =? b) with false by (symmetry; apply Nat.eqb_neq; congruence). rewrite K2. cbn [bindo].
  destruct (upd_some gs1 a (set_next (Some b)) ltac:(specialize (La a Ia); lia)) as [gs2 V]. rewrite V. cbn [bindo].
  pose proof (upd_len _ _ _ _ V) as L2. apply upd_set_next in V as (v1 & v2 & v3 & v4).
  destruct (upd_some gs2 g (fun x => set_prev None (set_next None x)) ltac:(lia)) as [gs3 W]. rewrite W.
  pose proof (upd_len _ _ _ _ W) as L3. apply upd_set_null in W as (w1 & w2 & w3 & w4).
  assert (forall j, gn gs3 j = if j =? g then None else if j =? a then Some b else gn gs j) as NX by (intros j; rewrite w1, v1, u1; reflexivity).
  assert (forall j, gp gs3 j = if j =? g then None else if j =? b then Some a else gp gs j) as PX by (intros j; rewrite w2, v2, u2; reflexivity).
  exists gs3, o1, o2. split; [exact Eo|]. split; [reflexivity|]. split; [|split; intros j; congruence].
  assert (NoDup (sz / 64 :: o1)) as NDa.
  { constructor; [intros X; assert (sz / 64 < sz / 64) by (apply LT; apply in_or_app; left; exact X); lia|]. clear - ND1. induction o1; [constructor|]. cbn in ND1. inversion ND1. subst. constructor; [intros X; apply H1; apply in_or_app; left; exact X|auto]. }
  assert (NoDup (o2 ++ [sz / 64])) as NDb by (clear - ND1; induction o1; [exact ND1|]; cbn in ND1; inversion ND1; auto).
  assert (forall x, In x o1 -> In x (o2 ++ [sz / 64]) -> False) as DJ.
  { clear - ND1. induction o1 as [|y o1 IH]; intros x X Y; [destruct X|]. cbn in ND1. inversion ND1. subst. destruct X as [->|X]; [apply H1; apply in_or_app; right; exact Y|]. apply (IH H2 x X Y). }
  constructor.
  - lia.
  - rewrite <- app_assoc. exact ND1.
  - intros x X. apply LT. apply in_app_or in X as [X|X]; apply in_or_app; [left; exact X|right; right; exact X].
  - rewrite <- app_assoc. change (sz / 64 :: o1 ++ o2 ++ [sz / 64]) with ((sz / 64 :: o1) ++ o2 ++ [sz / 64]). rewrite Ea, Eb, <- app_assoc. cbn [app].
    apply Links_app. split.
    + apply (Links_frame gs); [| |exact Lk1].
      * rewrite removelast_snoc. intros x X. rewrite NX. assert (x <> a) as N1 by (intros ->; rewrite Ea in NDa; apply NoDup_remove_2 in NDa; apply NDa; rewrite app_nil_r; exact X).
        assert (In x (sz / 64 :: o1)) as X1 by (rewrite Ea; apply in_or_app; left; exact X).
        assert (x <> g) as N2. { intros ->. destruct X1 as [X1|X1]; [lia|]. apply NG. apply in_or_app; left; exact X1. }
        apply Nat.eqb_neq in N1, N2. rewrite N1, N2. reflexivity.
      * rewrite <- Ea. cbn [tl]. intros x X. rewrite PX. assert (x <> g) as N2 by (intros ->; apply NG; apply in_or_app; left; exact X).
        assert (x <> b) as N1 by (intros ->; apply (DJ b X Ib)). apply Nat.eqb_neq in N1, N2. rewrite N1, N2. reflexivity.
    + rewrite Links_cons2, NX, PX. replace (a =? g) with false by (symmetry; apply Nat.eqb_neq; exact Nag). replace (b =? g) with false by (symmetry; apply Nat.eqb_neq; exact Nbg).
      rewrite !Nat.eqb_refl. split; [reflexivity|]. split; [reflexivity|].
      apply (Links_frame gs); [| |exact Lk2].
      * rewrite <- Eb, removelast_snoc. intros x X. rewrite NX.
        assert (x <> g) as N2 by (intros ->; apply NG; apply in_or_app; right; apply in_or_app; left; exact X).
        assert (x <> a) as N1. { intros ->. destruct Ia as [Ia|Ia]; [assert (a < sz / 64) by (apply LT; apply in_or_app; right; right; exact X); lia|]. apply (DJ a Ia). apply in_or_app; left; exact X. }
        apply Nat.eqb_neq in N1, N2. rewrite N1, N2. reflexivity.
      * cbn [tl]. intros x X. rewrite PX. assert (In x (o2 ++ [sz / 64])) as X1 by (rewrite Eb; right; exact X).
        assert (x <> g) as N2 by (intros ->; apply NG; apply in_or_app; right; exact X1).
        assert (x <> b) as N1 by (intros ->; rewrite Eb in NDb; inversion NDb; contradiction). apply Nat.eqb_neq in N1, N2. rewrite N1, N2. reflexivity.
  - intros x X. rewrite w3, v3, u3. apply (st_base _ _ _ H). rewrite Eo. rewrite <- app_assoc in X. rewrite <- app_assoc. apply in_app_or in X as [X|X]; apply in_or_app; [left; exact X|right; right; exact X].
  - intros x y. rewrite w3, v3, u3. apply (st_base0 _ _ _ H).
  - intros x Lx Nx. rewrite NX. destruct (Nat.eqb_spec x g) as [->|Ng]; [reflexivity|]. replace (x =? a) with false.
    + apply (st_out _ _ _ H x Lx). rewrite Eo. intros X. apply in_app_or in X as [X|[X|X]]; [apply Nx; apply in_or_app; left; exact X|congruence|apply Nx; apply in_or_app; right; exact X].
    + symmetry. apply Nat.eqb_neq. intros ->. destruct Ia as [Ia|Ia]; [lia|]. apply Nx. apply in_or_app. left. exact Ia.
Qed.

(** what happens to the groups when the marks shrink from P to P': those without marks disappear *)
Definition shrunk (sz : nat) (P' : nat -> bool) (o o' : list nat) : Prop :=
  exists f, o' = filter f o /\ forall g, In g o -> f g = false -> gseq sz P' g = [].

Lemma filter_flat_map {A} (f : A -> bool) (h : nat -> list A) l : filter f (flat_map h l) = flat_map (fun g => filter f (h g)) l.
Proof. induction l as [|g l IH]; [reflexivity|]. cbn [flat_map]. rewrite filter_app, IH. reflexivity. Qed.
Lemma flat_map_skip {A} (f : nat -> bool) (h : nat -> list A) l : (forall g, In g l -> f g = false -> h g = []) -> flat_map h (filter f l) = flat_map h l.
Proof.
  induction l as [|g l IH]; intros X; [reflexivity|]. cbn [filter flat_map]. assert (flat_map h (filter f l) = flat_map h l) as Y by (apply IH; intros; apply X; [right|]; assumption).
  destruct (f g) eqn:E; cbn [flat_map]; rewrite Y; [reflexivity|]. rewrite (X g (or_introl eq_refl) E). reflexivity.
Qed.
Lemma bseq_shrunk sz P P' o o' : shrunk sz P' o o' -> (forall i, marked sz P' i = true -> marked sz P i = true) ->
  bseq sz P' o' = filter (marked sz P') (bseq sz P o).
Proof.
  intros (f & -> & F) M. unfold bseq. rewrite filter_flat_map, !flat_map_app. f_equal.
  - rewrite (flat_map_skip f (gseq sz P')) by exact F. apply flat_map_ext. intros g. unfold gseq. induction (seq (64 * g) 64) as [|i l IH]; [reflexivity|].
    cbn [filter]. destruct (marked sz P' i) eqn:E1.
    + rewrite (M i E1). cbn [filter]. rewrite E1, IH. reflexivity.
    + rewrite IH. destruct (marked sz P i); cbn [filter]; [rewrite E1|]; reflexivity.
  - apply flat_map_ext. intros g. unfold gseq. induction (seq (64 * g) 64) as [|i l IH]; [reflexivity|].
    cbn [filter]. destruct (marked sz P' i) eqn:E1.
    + rewrite (M i E1). cbn [filter]. rewrite E1, IH. reflexivity.
    + rewrite IH. destruct (marked sz P i); cbn [filter]; [rewrite E1|]; reflexivity.
Qed.
Lemma shrunk_refl sz P' o : shrunk sz P' o o.
Proof. exists (fun _ => true). split; [|discriminate]. induction o as [|x o IH]; [reflexivity|]. cbn [filter]. rewrite <- IH. reflexivity. Qed.
Lemma shrunk_remove sz P' o1 g o2 : NoDup (o1 ++ g :: o2) -> gseq sz P' g = [] -> shrunk sz P' (o1 ++ g :: o2) (o1 ++ o2).
Proof.
  intros N E. exists (fun x => negb (x =? g)). split.
  - apply NoDup_remove_2 in N. rewrite filter_app. cbn [filter]. rewrite Nat.eqb_refl. cbn [negb].
    assert (forall l, ~ In g l -> filter (fun x => negb (x =? g)) l = l) as F.
    { induction l as [|x l IH]; intros X; [reflexivity|]. cbn [filter]. destruct (Nat.eqb_spec x g) as [->|]; [exfalso; apply X; left; reflexivity|]. cbn [negb]. f_equal. apply IH. intros Y. apply X. right. exact Y. }
    rewrite !F; [reflexivity| |]; intros X; apply N; apply in_or_app; auto.
  - intros x _ F. apply negb_false_iff, Nat.eqb_eq in F. rewrite F. exact E.
Qed.

Lemma unlink_bucket_ok sz gs P o p : LInv sz gs P o -> p < sz -> P p = true ->
  exists gs' o', unlink_bucket gs (BI p (Some (p / 64))) = Some gs' /\ LInv sz gs' (del_mark P p) o' /\ shrunk sz (del_mark P p) o o'.
Proof.
  intros H Lp Pp. pose proof (li_len _ _ _ _ H) as Ln. assert (p / 64 <= sz / 64) as Lg by (apply Nat.div_le_mono; lia).
  pose proof (mod_div p) as D. pose proof (mod_lt p) as ML.
  assert (In (p / 64) (o ++ [sz / 64])) as Ig.
  { apply (li_in _ _ _ _ H _ Lg), nonzero_bit. exists (p mod 64). rewrite (li_bits _ _ _ _ H), D by exact Lg. unfold marked. rewrite Pp.
    apply Nat.ltb_lt in ML, Lp. rewrite ML, Lp. reflexivity. }
  unfold unlink_bucket. cbn [bi_g bi_p bindo]. destruct (nth_some gs (p / 64) ltac:(lia)) as (G & EG & Gn & Gp & Gb & Gm). rewrite EG. cbn [bindo].
  rewrite <- Gb, (li_base _ _ _ _ H) by exact Ig. cbn [bindo].
  assert ((p <? 64 * (p / 64)) = false) as -> by (apply Nat.ltb_ge; lia).
  replace (p - 64 * (p / 64)) with (p mod 64) by lia.
  assert ((64 <=? p mod 64) = false) as -> by (apply Nat.leb_gt; lia). cbn [orb].
  set (m := N.land (g_mask G) (reset_bit (p mod 64))).
  destruct (upd_some gs (p / 64) (set_mask m) ltac:(lia)) as [gs1 U]. rewrite U. cbn [bindo].
  pose proof (Str_mask _ _ _ _ _ _ (LInv_Str _ _ _ _ H) U) as S1. pose proof (upd_len _ _ _ _ U) as L1. apply upd_set_mask in U as (u1 & u2 & u3 & u4).
  assert (forall g i, g <= sz / 64 -> N.testbit (gm gs1 g) (N.of_nat i) = (i <? 64) && marked sz (del_mark P p) (64 * g + i)) as BITS.
  { intros g i Lgg. rewrite u4, marked_del by exact Lp. destruct (Nat.eqb_spec g (p / 64)) as [->|Ng].
    - unfold m. rewrite N.land_spec, reset_bit_spec, <- Gm, (li_bits _ _ _ _ H) by exact Lg. destruct (Nat.ltb_spec i 64); cbn [andb xorb]; [|reflexivity].
      destruct (Nat.eqb_spec i (p mod 64)), (Nat.eqb_spec (64 * (p / 64) + i) p); try reflexivity; lia.
    - rewrite (li_bits _ _ _ _ H) by exact Lgg. destruct (Nat.ltb_spec i 64); [|reflexivity].
      assert ((64 * g + i =? p) = false) as ->.
      { apply Nat.eqb_neq. intros E. apply Ng. apply (Nat.div_unique p 64 g i); lia. }
      rewrite andb_true_r. reflexivity. }
  assert (forall g, g <= sz / 64 -> g <> p / 64 -> gm gs1 g = gm gs g) as MO.
  { intros g _ Ng. rewrite u4. apply Nat.eqb_neq in Ng. rewrite Ng. reflexivity. }
  assert (gm gs1 (p / 64) = m) as Mp by (rewrite u4, Nat.eqb_refl; reflexivity).
  destruct (N.eqb_spec m 0) as [Z|Z].
  - assert (p / 64 <> sz / 64) as Nl.
    { intros E. assert (N.testbit (gm gs1 (p / 64)) (N.of_nat (sz mod 64)) = true) as B.
      { rewrite BITS by exact Lg. rewrite marked_del by exact Lp. rewrite E, mod_div. unfold marked. rewrite Nat.eqb_refl, orb_true_r.
        pose proof (mod_lt sz) as M2. apply Nat.ltb_lt in M2. rewrite M2. replace (sz =? p) with false by (symmetry; apply Nat.eqb_neq; lia). reflexivity. }
      rewrite Mp, Z, N.bits_0 in B. discriminate. }
    assert (In (p / 64) o) as Io by (apply in_app_or in Ig as [X|[X|[]]]; [exact X|congruence]).
    destruct (unlink_group_ok sz gs1 o (p / 64) S1 Io) as (gs2 & o1 & o2 & Eo & Ug & S2 & M2 & B2). exists gs2, (o1 ++ o2). split; [exact Ug|]. split.
    + destruct S2. constructor; try assumption.
      * intros g Lgg. rewrite M2. destruct (Nat.eq_dec g (p / 64)) as [->|Ng].
        { rewrite Mp, Z. split; [|intros X; exfalso; apply X; reflexivity]. intros X. exfalso.
          pose proof (li_nodup _ _ _ _ H) as N. rewrite Eo, <- app_assoc in N. cbn [app] in N. apply NoDup_remove_2 in N. apply N. rewrite app_assoc. exact X. }
        rewrite MO by assumption. rewrite <- (li_in _ _ _ _ H g Lgg). rewrite Eo, !in_app_iff. cbn [In]. split; [tauto|]. intros X. assert (p / 64 <> g) by congruence. tauto.
      * intros g i Lgg. rewrite M2. apply BITS. exact Lgg.
    + rewrite Eo. apply shrunk_remove.
      * pose proof (li_nodup _ _ _ _ H) as N. rewrite Eo in N. clear - N. induction (o1 ++ p / 64 :: o2) as [|x l IH]; [constructor|]. cbn [app] in N. inversion N. subst. constructor; [intros X; apply H1; apply in_or_app; left; exact X|auto].
      * destruct (gseq sz (del_mark P p) (p / 64)) as [|i l] eqn:E; [reflexivity|]. exfalso.
        assert (In i (gseq sz (del_mark P p) (p / 64))) as X by (rewrite E; left; reflexivity). apply in_gseq in X as [X1 X2].
        assert (N.testbit (gm gs1 (p / 64)) (N.of_nat (i mod 64)) = true) as B.
        { rewrite BITS by exact Lg. rewrite <- X1, mod_div, X2. pose proof (mod_lt i) as M3. apply Nat.ltb_lt in M3. rewrite M3. reflexivity. }
        rewrite Mp, Z, N.bits_0 in B. discriminate.
  - exists gs1, o. split; [reflexivity|]. split; [|apply shrunk_refl]. destruct S1. constructor; try assumption.
    intros g Lgg. destruct (Nat.eq_dec g (p / 64)) as [->|Ng]; [rewrite Mp; tauto|]. rewrite MO by assumption. apply (li_in _ _ _ _ H g Lgg).
Qed.

(** *** [unlink_empty_buckets] *)
Lemma reset_empty_ok (ne : nat -> option bool) (Q : nat -> bool) base ns : (forall n, In n ns -> n < 64 /\ ne (base + n) = Some (Q (base + n))) -> NoDup ns ->
  forall m, (forall i, 64 <= i -> N.testbit m (N.of_nat i) = false) ->
  exists m', reset_empty ne base ns m = Some m' /\
    forall i, N.testbit m' (N.of_nat i) = N.testbit m (N.of_nat i) && (if existsb (Nat.eqb i) ns then Q (base + i) else true).
Proof.
  induction ns as [|n ns IH]; intros Hn ND m Hm; cbn [reset_empty].
  - exists m. split; [reflexivity|]. intros i. cbn. rewrite andb_true_r. reflexivity.
  - inversion ND. subst. destruct (Hn n (or_introl eq_refl)) as [Ln En]. rewrite En. cbn [bindo].
    set (m1 := if Q (base + n) then m else N.land m (reset_bit n)).
    assert (forall i, N.testbit m1 (N.of_nat i) = N.testbit m (N.of_nat i) && (if i =? n then Q (base + n) else true)) as B1.
    { intros i. unfold m1. destruct (Q (base + n)) eqn:EQ.
      - destruct (i =? n); rewrite andb_true_r; reflexivity.
      - rewrite N.land_spec, reset_bit_spec. destruct (Nat.ltb_spec i 64) as [L|L]; [destruct (i =? n); reflexivity|]. rewrite (Hm i L). reflexivity. }
    destruct (IH (fun x Hx => Hn x (or_intror Hx)) H2 m1) as (m' & E & B).
    + intros i Li. rewrite B1, (Hm i Li). reflexivity.
    + exists m'. split; [exact E|]. intros i. rewrite B, B1. cbn [existsb]. destruct (Nat.eqb_spec i n) as [->|Ni].
      * cbn [orb]. destruct (existsb (Nat.eqb n) ns) eqn:X; [|rewrite andb_true_r; reflexivity].
        rewrite <- andb_assoc. f_equal. apply andb_diag.
      * cbn [orb]. rewrite andb_true_r. reflexivity.
Qed.

Definition upto (P Q : nat -> bool) (k i : nat) : bool := P i && (Q i || (k <=? i / 64)).

Lemma shrunk_trans sz P1 P2 o o1 o2 : shrunk sz P1 o o1 -> shrunk sz P2 o1 o2 -> (forall i, marked sz P2 i = true -> marked sz P1 i = true) -> shrunk sz P2 o o2.
Proof.
  intros (f & -> & F) (f2 & -> & F2) M. exists (fun g => f g && f2 g). split.
  - clear. induction o as [|x o IH]; [reflexivity|]. cbn [filter]. destruct (f x); cbn [filter andb]; [|exact IH]. destruct (f2 x); [rewrite IH|]; try reflexivity. exact IH.
  - intros g Ig E. destruct (f g) eqn:Ef.
    + apply F2; [apply filter_In; auto|exact E].
    + specialize (F g Ig Ef). destruct (gseq sz P2 g) as [|i l] eqn:Eg; [reflexivity|]. exfalso.
      assert (In i (gseq sz P2 g)) as X by (rewrite Eg; left; reflexivity). apply in_gseq in X as [X1 X2]. assert (In i (gseq sz P1 g)) as Y by (apply in_gseq; auto). rewrite F in Y. destruct Y.
Qed.

Lemma existsb_seq i a n : existsb (Nat.eqb i) (seq a n) = (a <=? i) && (i <? a + n).
Proof.
  revert a. induction n as [|n IH]; intros a; cbn [seq existsb].
  - destruct (Nat.leb_spec a i), (Nat.ltb_spec i (a + 0)); try reflexivity. lia.
  - rewrite IH. destruct (Nat.eqb_spec i a), (Nat.leb_spec (S a) i), (Nat.leb_spec a i), (Nat.ltb_spec i (S a + n)), (Nat.ltb_spec i (a + S n)); try reflexivity; lia.
Qed.

Lemma unlink_empty_from_ok sz (ne : nat -> option bool) (Q : nat -> bool) (P : nat -> bool) : (forall i, i < sz -> ne i = Some (Q i)) ->
  forall n k gs o, n + k = sz / 64 -> LInv sz gs (upto P Q k) o ->
  exists gs' o', unlink_empty_from ne gs (seq k n) = Some gs' /\ LInv sz gs' (upto P Q (sz / 64)) o' /\ shrunk sz (upto P Q (sz / 64)) o o'.
Proof.
  intros Hne. induction n as [|n IH]; intros k gs o E H; [change (seq k 0) with (@nil nat)|change (seq k (S n)) with (k :: seq (S k) n)]; cbn [unlink_empty_from].
  - cbn in E. subst k. exists gs, o. split; [reflexivity|]. split; [exact H|apply shrunk_refl].
  - pose proof (li_len _ _ _ _ H) as Ln. destruct (nth_some gs k ltac:(lia)) as (G & EG & Gn & Gp & Gb & Gm). rewrite EG. cbn [bindo].
    pose proof (Nat.div_mod sz 64) as DM. 
    assert (k < sz / 64) as Lk by lia.
    assert (forall i, k * 64 <= i < k * 64 + 64 -> i < sz) as IN by (intros i Li; lia).
    assert (forall i, marked sz (upto P Q (S k)) i = true -> marked sz (upto P Q k) i = true) as Mono1.
    { intros i. unfold marked, upto. destruct (Nat.leb_spec (S k) (i / 64)), (Nat.leb_spec k (i / 64)); try lia; destruct (P i), (Q i), (i <? sz), (i =? sz); auto. }
    assert (forall i, marked sz (upto P Q (sz / 64)) i = true -> marked sz (upto P Q (S k)) i = true) as Mono2.
    { intros i. unfold marked, upto. destruct (Nat.leb_spec (S k) (i / 64)), (Nat.leb_spec (sz / 64) (i / 64)); try lia; destruct (P i), (Q i), (i <? sz), (i =? sz); auto. }
    assert (forall g i, g <> k -> i < 64 -> marked sz (upto P Q (S k)) (64 * g + i) = marked sz (upto P Q k) (64 * g + i)) as Other.
    { intros g i Ng Li. unfold marked, upto. assert ((64 * g + i) / 64 = g) as -> by (symmetry; apply (Nat.div_unique _ 64 g i); lia).
      destruct (Nat.leb_spec (S k) g), (Nat.leb_spec k g); try reflexivity; lia. }
    assert (forall i, i < 64 -> marked sz (upto P Q k) (64 * k + i) = P (64 * k + i)) as Here0.
    { intros i Li. unfold marked, upto. assert ((64 * k + i) / 64 = k) as -> by (symmetry; apply (Nat.div_unique _ 64 k i); lia).
      assert (64 * k + i < sz) as L by lia. assert ((64 * k + i =? sz) = false) as -> by (apply Nat.eqb_neq; lia). apply Nat.ltb_lt in L. rewrite L, Nat.leb_refl.
      rewrite !orb_true_r, !orb_false_r, !andb_true_r. reflexivity. }
    assert (forall i, i < 64 -> marked sz (upto P Q (S k)) (64 * k + i) = P (64 * k + i) && Q (64 * k + i)) as Here1.
    { intros i Li. unfold marked, upto. assert ((64 * k + i) / 64 = k) as -> by (symmetry; apply (Nat.div_unique _ 64 k i); lia).
      assert (64 * k + i < sz) as L by lia. assert ((64 * k + i =? sz) = false) as -> by (apply Nat.eqb_neq; lia). apply Nat.ltb_lt in L. rewrite L.
      replace (S k <=? k) with false by (symmetry; apply Nat.leb_gt; lia). rewrite !orb_false_r, !andb_true_r. reflexivity. }
    (* nothing changes if the group has no mark *)
    assert (gm gs k = 0%N -> LInv sz gs (upto P Q (S k)) o) as Idle.
    { intros Z. destruct H. constructor; try assumption. intros g i Lg. rewrite li_bits0 by exact Lg. destruct (Nat.ltb_spec i 64) as [Li|Li]; [|reflexivity]. cbn [andb].
      destruct (Nat.eq_dec g k) as [->|Ng]; [|symmetry; apply Other; assumption].
      assert (N.testbit (gm gs k) (N.of_nat i) = false) as B by (rewrite Z; apply N.bits_0). rewrite li_bits0 in B by lia.
      pose proof Li as Li2. apply Nat.ltb_lt in Li2. rewrite Li2 in B. cbn [andb] in B. rewrite B. rewrite Here0 in B by exact Li. rewrite Here1, B by exact Li. reflexivity. }
    destruct (g_base G) as [base|] eqn:EB; rewrite <- ?EB in *.
    2:{ assert (gm gs k = 0%N) as Z.
        { destruct (N.eq_dec (gm gs k) 0) as [Z|Z]; [exact Z|]. exfalso. apply (li_in _ _ _ _ H) in Z; [|lia]. apply (li_base _ _ _ _ H) in Z. congruence. }
        destruct (IH (S k) gs o ltac:(lia) (Idle Z)) as (gs' & o' & A & B & C). exists gs', o'. split; [exact A|]. split; assumption. }
    assert (base = 64 * k) as Ebase by (apply (li_base0 _ _ _ _ H); congruence). subst base.
    destruct (reset_empty_ok ne Q (64 * k) (seq 0 64)) with (m := g_mask G) as (m & Em & Bm).
    { intros x Hx. apply in_seq in Hx. split; [lia|]. apply Hne. lia. }
    { apply seq_NoDup. }
    { intros i Li. rewrite <- Gm, (li_bits _ _ _ _ H) by lia. apply Nat.ltb_ge in Li. rewrite Li. reflexivity. }
    rewrite Em. cbn [bindo]. destruct (upd_some gs k (set_mask m) ltac:(lia)) as [gs1 U]. rewrite U. cbn [bindo].
    pose proof (Str_mask _ _ _ _ _ _ (LInv_Str _ _ _ _ H) U) as S1. pose proof (upd_len _ _ _ _ U) as L1. apply upd_set_mask in U as (u1 & u2 & u3 & u4).
    assert (forall g i, g <= sz / 64 -> N.testbit (gm gs1 g) (N.of_nat i) = (i <? 64) && marked sz (upto P Q (S k)) (64 * g + i)) as BITS.
    { intros g i Lg. rewrite u4. destruct (Nat.eqb_spec g k) as [->|Ng].
      - rewrite Bm, existsb_seq, <- Gm, (li_bits _ _ _ _ H) by lia. cbn [Nat.leb andb]. replace (i <? 0 + 64) with (i <? 64) by reflexivity.
        destruct (Nat.ltb_spec i 64) as [Li|Li]; [|reflexivity]. cbn [andb]. rewrite Here0, Here1 by exact Li. reflexivity.
      - rewrite (li_bits _ _ _ _ H) by lia. destruct (Nat.ltb_spec i 64) as [Li|Li]; [|reflexivity]. cbn [andb]. symmetry. apply Other; assumption. }
    assert (gm gs1 k = m) as Mk by (rewrite u4, Nat.eqb_refl; reflexivity).
    assert (forall g, g <> k -> gm gs1 g = gm gs g) as MO by (intros g Ng; rewrite u4; apply Nat.eqb_neq in Ng; rewrite Ng; reflexivity).
    assert (m <> 0%N -> gm gs k <> 0%N) as Mm.
    { intros X. apply nonzero_bit in X as [i X]. apply nonzero_bit. exists i. rewrite Bm in X. apply andb_true_iff in X as [X _]. rewrite Gm. exact X. }
    rewrite <- Gn.
    destruct (N.eqb_spec m 0) as [Zm|Zm]; [destruct (gn gs k) as [nx|] eqn:En|]; cbn [andb].
    + (* unlink *)
      assert (In k o) as Ik by (destruct (in_dec Nat.eq_dec k o) as [I|I]; [exact I|]; apply (li_out _ _ _ _ H k Lk) in I; congruence).
      destruct (unlink_group_ok sz gs1 o k S1 Ik) as (gs2 & o1 & o2 & Eo & Ug & S2 & M2 & B2). rewrite Ug. cbn [bindo].
      assert (LInv sz gs2 (upto P Q (S k)) (o1 ++ o2)) as H2.
      { destruct S2. constructor; try assumption.
        - intros g Lg. rewrite M2. destruct (Nat.eq_dec g k) as [->|Ng].
          + rewrite Mk, Zm. split; [|intros X; exfalso; apply X; reflexivity]. intros X. exfalso.
            pose proof (li_nodup _ _ _ _ H) as N. rewrite Eo, <- app_assoc in N. cbn [app] in N. apply NoDup_remove_2 in N. apply N. rewrite app_assoc. exact X.
          + rewrite MO by assumption. rewrite <- (li_in _ _ _ _ H g Lg). rewrite Eo, !in_app_iff. cbn [In]. assert (k <> g) as Nk by congruence. clear - Nk. tauto.
        - intros g i Lg. rewrite M2. apply BITS. exact Lg. }
      destruct (IH (S k) gs2 (o1 ++ o2) ltac:(lia) H2) as (gs' & o' & A & B & C). exists gs', o'. split; [exact A|]. split; [exact B|].
      apply (shrunk_trans sz (upto P Q (S k)) _ _ (o1 ++ o2)); [|exact C|exact Mono2]. rewrite Eo. apply shrunk_remove.
      * pose proof (li_nodup _ _ _ _ H) as N. rewrite Eo in N. clear - N. induction (o1 ++ k :: o2) as [|x l IH]; [constructor|]. cbn [app] in N. inversion N. subst. constructor; [intros X; apply H1; apply in_or_app; left; exact X|auto].
      * destruct (gseq sz (upto P Q (S k)) k) as [|i l] eqn:Eg; [reflexivity|]. exfalso.
        assert (In i (gseq sz (upto P Q (S k)) k)) as X by (rewrite Eg; left; reflexivity). apply in_gseq in X as [X1 X2].
        assert (N.testbit (gm gs1 k) (N.of_nat (i mod 64)) = true) as B4.
        { rewrite BITS by lia. rewrite <- X1 at 2. rewrite mod_div, X2. pose proof (mod_lt i) as M3. apply Nat.ltb_lt in M3. rewrite M3. reflexivity. }
        rewrite Mk, Zm, N.bits_0 in B4. discriminate.
    + (* not linked *)
      cbn [bindo]. assert (~ In k o) as Nk.
      { intros Ik. pose proof (li_links _ _ _ _ H) as LL. apply in_split in Ik as (o1 & o2 & ->). rewrite <- app_assoc in LL. cbn [app] in LL.
        assert (exists b l2, o2 ++ [sz / 64] = b :: l2) as (b & l2 & Eb) by (destruct o2; cbn [app]; eauto). rewrite Eb in LL.
        change (sz / 64 :: o1 ++ k :: b :: l2) with ((sz / 64 :: o1) ++ k :: b :: l2) in LL. apply Links_app in LL as [_ LL]. apply Links_cons2 in LL as [LL _]. congruence. }
      assert (LInv sz gs1 (upto P Q (S k)) o) as H2.
      { destruct S1. constructor; try assumption. intros g Lg. destruct (Nat.eq_dec g k) as [->|Ng]; [|rewrite MO by assumption; apply (li_in _ _ _ _ H g Lg)].
        rewrite Mk, Zm. split; [|intros X; exfalso; apply X; reflexivity]. intros X. apply in_app_or in X as [X|[X|[]]]; [contradiction|lia]. }
      destruct (IH (S k) gs1 o ltac:(lia) H2) as (gs' & o' & A & B & C). exists gs', o'. auto.
    + cbn [bindo].
      assert (LInv sz gs1 (upto P Q (S k)) o) as H2.
      { destruct S1. constructor; try assumption. intros g Lg. destruct (Nat.eq_dec g k) as [->|Ng]; [|rewrite MO by assumption; apply (li_in _ _ _ _ H g Lg)].
        rewrite Mk. split; [intros _; exact Zm|]. intros _. apply (li_in _ _ _ _ H k ltac:(lia)). apply Mm. exact Zm. }
      destruct (IH (S k) gs1 o ltac:(lia) H2) as (gs' & o' & A & B & C). exists gs', o'. auto.
Qed.

Lemma LInv_ext sz gs P P' o : LInv sz gs P o -> (forall i, i < sz -> P i = P' i) -> LInv sz gs P' o.
Proof.
  intros [] E. constructor; try assumption. intros g i Lg. rewrite li_bits0 by exact Lg. f_equal. unfold marked.
  destruct (Nat.ltb_spec (64 * g + i) sz) as [L|L]; [rewrite (E _ L); reflexivity|rewrite !andb_false_r; reflexivity].
Qed.
Lemma marked_ext sz P P' i : (i < sz -> P i = P' i) -> marked sz P i = marked sz P' i.
Proof. intros E. unfold marked. destruct (Nat.ltb_spec i sz) as [L|L]; [rewrite (E L); reflexivity|rewrite !andb_false_r; reflexivity]. Qed.
Lemma shrunk_ext sz P P' o o' : (forall i, i < sz -> P i = P' i) -> shrunk sz P o o' -> shrunk sz P' o o'.
Proof. intros E (f & A & B). exists f. split; [exact A|]. intros g Ig F. rewrite <- (B g Ig F). apply gseq_ext. intros i _ Li. symmetry. apply E. exact Li. Qed.

Theorem unlink_empty_buckets_ok sz (ne : nat -> option bool) (P Q : nat -> bool) gs o : (forall i, i < sz -> ne i = Some (Q i)) ->
  (forall i, i < sz -> Q i = true -> P i = true) -> LInv sz gs P o ->
  exists gs' o', unlink_empty_buckets sz ne gs = Some gs' /\ LInv sz gs' Q o' /\ shrunk sz Q o o'.
Proof.
  intros Hne HQ H. pose proof (mod_div sz) as D. pose proof (mod_lt sz) as ML.
  assert (LInv sz gs (upto P Q 0) o) as H0 by (apply (LInv_ext sz gs P); [exact H|]; intros i _; unfold upto; cbn [Nat.leb]; rewrite orb_true_r, andb_true_r; reflexivity).
  destruct (unlink_empty_from_ok sz ne Q P Hne (sz / 64) 0 gs o ltac:(lia) H0) as (gs1 & o1 & E1 & H1 & S1).
  unfold unlink_empty_buckets. rewrite E1. cbn [bindo]. clear E1 H0.
  pose proof (li_len _ _ _ _ H1) as Ln. destruct (nth_some gs1 (sz / 64) ltac:(lia)) as (G & EG & _ & _ & Gb & Gm). rewrite EG. cbn [bindo].
  rewrite <- Gb, (li_base _ _ _ _ H1) by apply in_elt. cbn [bindo].
  destruct (reset_empty_ok ne Q (64 * (sz / 64)) (seq 0 (sz mod 64))) with (m := g_mask G) as (m & Em & Bm).
  { intros x Hx. apply in_seq in Hx. split; [lia|]. apply Hne. lia. }
  { apply seq_NoDup. }
  { intros i Li. rewrite <- Gm, (li_bits _ _ _ _ H1) by lia. apply Nat.ltb_ge in Li. rewrite Li. reflexivity. }
  rewrite Em. cbn [bindo]. destruct (upd_some gs1 (sz / 64) (set_mask m) ltac:(lia)) as [gs2 U]. rewrite U. exists gs2, o1. split; [reflexivity|].
  pose proof (Str_mask _ _ _ _ _ _ (LInv_Str _ _ _ _ H1) U) as St. apply upd_set_mask in U as (u1 & u2 & u3 & u4).
  assert (forall g i, g <= sz / 64 -> N.testbit (gm gs2 g) (N.of_nat i) = (i <? 64) && marked sz Q (64 * g + i)) as BITS.
  { intros g i Lg. rewrite u4. destruct (Nat.eqb_spec g (sz / 64)) as [->|Ng].
    - rewrite Bm, existsb_seq, <- Gm, (li_bits _ _ _ _ H1) by lia. cbn [Nat.leb andb]. replace (i <? 0 + sz mod 64) with (i <? sz mod 64) by reflexivity.
      destruct (Nat.ltb_spec i 64) as [Li|Li]; [|reflexivity]. cbn [andb]. unfold marked, upto.
      assert ((64 * (sz / 64) + i) / 64 = sz / 64) as -> by (symmetry; apply (Nat.div_unique _ 64 (sz / 64) i); lia). rewrite Nat.leb_refl, orb_true_r, andb_true_r.
      destruct (Nat.ltb_spec i (sz mod 64)) as [C|C].
      + assert (64 * (sz / 64) + i < sz) as L by lia. specialize (HQ _ L). replace (64 * (sz / 64) + i =? sz) with false by (symmetry; apply Nat.eqb_neq; lia).
        apply Nat.ltb_lt in L. rewrite L, !orb_false_r, !andb_true_r. destruct (Q (64 * (sz / 64) + i)), (P (64 * (sz / 64) + i)); try reflexivity; specialize (HQ eq_refl); discriminate.
      + replace (64 * (sz / 64) + i <? sz) with false by (symmetry; apply Nat.ltb_ge; lia). rewrite !andb_false_r, andb_true_r. reflexivity.
    - rewrite (li_bits _ _ _ _ H1) by lia. destruct (Nat.ltb_spec i 64) as [Li|Li]; [|reflexivity]. cbn [andb]. unfold marked, upto.
      assert (64 * g + i < sz) as L by lia. specialize (HQ _ L). assert ((64 * g + i) / 64 = g) as -> by (symmetry; apply (Nat.div_unique _ 64 g i); lia).
      replace (sz / 64 <=? g) with false by (symmetry; apply Nat.leb_gt; lia). rewrite orb_false_r.
      destruct (Q (64 * g + i)), (P (64 * g + i)); try reflexivity. specialize (HQ eq_refl). discriminate. }
  split.
  - destruct St. constructor; try assumption. intros g Lg. destruct (Nat.eq_dec g (sz / 64)) as [->|Ng].
    + split; [|intros _; apply in_elt]. intros _. apply nonzero_bit. exists (sz mod 64). rewrite BITS, D by lia. unfold marked. rewrite Nat.eqb_refl, orb_true_r. apply Nat.ltb_lt in ML. rewrite ML. reflexivity.
    + rewrite u4. apply Nat.eqb_neq in Ng. rewrite Ng. apply (li_in _ _ _ _ H1 g Lg).
  - apply (shrunk_trans sz (upto P Q (sz / 64)) _ _ o1); [exact S1|apply shrunk_refl|].
    intros i. unfold marked, upto. destruct (Nat.ltb_spec i sz) as [L|L]; [|rewrite !andb_false_r; auto]. specialize (HQ i L).
    destruct (Q i), (i =? sz); cbn [andb orb]; intros X; try discriminate X; rewrite ?orb_true_r; try reflexivity. rewrite HQ by reflexivity. reflexivity.
Qed.
