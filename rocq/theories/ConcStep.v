(** Steps of one thread preserve the invariant of a concurrent container. *)
From Coq Require Import NArith Bool List Arith Lia ZifyBool ZifyNat ZifyN Permutation.
From Verif Require Import FloatModel SizeModel SizeProofs GroupModel GroupSpec FoaModel FoaGroup FoaBase FoaFind FoaArr FoaInv FoaSpec ConcSpec ConcModel ConcInv.
Import ListNotations.
Local Open Scope N_scope.

Lemma nth_error_Some_lt {X} (l : list X) i x : nth_error l i = Some x -> (i < length l)%nat.
Proof. intros H. apply nth_error_Some. congruence. Qed.

Section CStep.
Context {K V : Type} (c : Cfg K V).
Notation arrays := (arrays K V).
Notation table := (table K V).
Notation Sh := (@Sh K V).
Notation pop := (pop K V). Notation cop := (cop K V). Notation loc := (@loc K V). Notation cres := (cres K V).
Notation ent := (option (cop * loc)).
Notation CBase := (CBase c). Notation CUniq := (CUniq c). Notation CInv := (CInv c). Notation TI := (TI c). Notation TI1 := (TI1 c).
Notation hk := (hk c). Notation Fr := (Fr c).

(** *** uniqueness *)
Lemma pk_mono (s : Sh) vs t o l (s' : Sh) l' : nth_error vs t = Some (Some (o, l)) ->
  (forall x n, l' <> LCons x n) ->
  (forall i e', nth_error (cells (A s')) i = Some (Live e') ->
     (exists e, nth_error (cells (A s)) i = Some (Live e) /\ fst e' = fst e) \/
     (exists p x n, o = Point p /\ l = LCons x n /\ slot_index (x_g x) n = i /\ fst e' = pkey p)) ->
  forall i q, Pk s' (set_nth vs t (Some (o, l'))) i q -> @Pk K V s vs i q.
Proof.
  intros Ht Hl Hc i q [(e' & H1 & ->)|(t2 & p & x & n & H1 & H2 & ->)].
  - destruct (Hc i e' H1) as [(e & E1 & E2)|(p & x & n & -> & -> & E1 & E2)].
    + left. exists e. auto.
    + right. exists t, p, x, n. auto.
  - destruct (set_cases _ _ _ _ _ _ Ht H1) as [[_ E]|[_ E]].
    + injection E as _ E. symmetry in E. destruct (Hl _ _ E).
    + right. exists t2, p, x, n. auto.
Qed.
Lemma ti1_mono k (s : Sh) vs (s' : Sh) vs' o l : hid (tb s') = hid (tb s) -> pid (tb s') = pid (tb s) ->
  (forall g n, nth_error (cnt s) g = Some n -> exists n', nth_error (cnt s') g = Some n' /\ n <= n') ->
  (forall i q, Pk s' vs' i q -> @Pk K V s vs i q) -> TI1 k s vs o l -> TI1 k s' vs' o l.
Proof.
  intros Eh Ep Hc HP H. destruct o as [p| |]; cbn [ConcInv.TI1] in *; auto. destruct (emplaces p); auto. destruct (ectx l) as [x|]; auto.
  destruct H as (n0 & E & L & H). assert (hk s' p = hk s p) as -> by (unfold ConcInv.hk; congruence).
  destruct (Hc _ _ E) as (n1 & E1 & L1). exists n1. split; [exact E1|]. split; [lia|]. intros -> i q Hq He. rewrite Ep in He.
  apply (H ltac:(lia) i q); auto.
Qed.
Lemma cuniq_step k s vs t o l s' l' G : CUniq k s vs -> nth_error vs t = Some (Some (o, l)) -> Foreign s s' G ->
  (forall i q, Pk s' (set_nth vs t (Some (o, l'))) i q -> Pk s vs i q) -> TI1 k s' (set_nth vs t (Some (o, l'))) o l' ->
  CUniq k s' (set_nth vs t (Some (o, l'))).
Proof.
  intros [U T] Ht F HP H1. constructor.
  - intros i j q q' Hi Hj E. rewrite (fo_p _ _ _ F) in E. eapply U; eauto.
  - intros t2 o2 l2 H. destruct (set_cases _ _ _ _ _ _ Ht H) as [[-> E]|[N E]].
    + injection E as -> ->. exact H1.
    + eapply ti1_mono; [apply (fo_h _ _ _ F)|apply (fo_p _ _ _ F)|apply (fo_cnt _ _ _ F)|exact HP|]. exact (T t2 o2 l2 E).
Qed.

Lemma pk_facts k s vs i q : CBase k s vs -> Pk s vs i q ->
  let h := hash_of c (hid (tb s)) q in ctrl (A s) i = low_class h /\ Reach k (A s) h (i / 15) /\ (i < length (cells (A s)))%nat.
Proof.
  intros B [(e & E & ->)|(t & p & x & n & E & <- & ->)] h.
  - destruct (cb_live _ _ _ _ B i e E). split; [assumption|]. split; [assumption|]. apply nth_error_Some. congruence.
  - destruct (cb_ti _ _ _ _ B _ _ _ E) as [_ T]. cbn [ConcInv.TI] in T. destruct T as [T1 [T2 T3] T4 T5]. unfold ConcInv.hk in T1. fold h in T1. rewrite <- T1.
    rewrite slot_div by exact T2. split; [exact T4|]. split; [exact T5|]. apply nth_error_Some. unfold A in *. congruence.
Qed.
Lemma eq_hash s p q : compat c (hid (tb s)) (pid (tb s)) -> keqf c (pid (tb s)) (pkey p) q = true -> hash_of c (hid (tb s)) q = hk s p.
Proof. intros [_ H] E. unfold ConcInv.hk, hash_of. rewrite (H _ _ E). reflexivity. Qed.
(** a locked group has no slot in the hands of another thread *)
Lemma locked_slot k s vs t o l g x n : CBase k s vs -> nth_error vs t = Some (Some (o, l)) -> lock_of o l = Some (g, x) -> infl l = None ->
  (n < 15)%nat -> nth_error (cells (A s)) (slot_index g n) = Some Raw -> ctrl (A s) (slot_index g n) = 0.
Proof.
  intros B Ht Hl Hi Hn Hr. destruct (cb_raw _ _ _ _ B _ Hr) as [E|(t2 & o2 & l2 & E1 & E2)]; [exact E|exfalso].
  destruct (cb_ti _ _ _ _ B _ _ _ E1) as [W T]. pose proof (lock_group c _ _ _ _ _ T W E2) as L2. rewrite slot_div in L2 by exact Hn.
  destruct (Nat.eq_dec t2 t) as [->|N]; [rewrite E1 in Ht; injection Ht as -> ->; congruence|].
  destruct (cb_lock _ _ _ _ B t2 t g true x N); [exists o2, l2; auto|exists o, l; auto|discriminate].
Qed.
Lemma locked_pk k s vs t o l g x n q : CBase k s vs -> nth_error vs t = Some (Some (o, l)) -> lock_of o l = Some (g, x) -> infl l = None ->
  (n < 15)%nat -> Pk s vs (slot_index g n) q -> exists e, nth_error (cells (A s)) (slot_index g n) = Some (Live e) /\ q = fst e.
Proof.
  intros B Ht Hl Hi Hn [H|(t2 & p & x2 & n2 & E1 & E2 & ->)]; [exact H|exfalso].
  destruct (cb_ti _ _ _ _ B _ _ _ E1) as [_ T]. cbn [ConcInv.TI] in T. destruct T as [_ [T2 _] _ _].
  assert (x_g x2 = g) as Eg by (rewrite <- (slot_div (x_g x2) n2 T2), E2; apply slot_div, Hn).
  destruct (Nat.eq_dec t2 t) as [->|N]; [rewrite E1 in Ht; injection Ht as <- <-; discriminate|].
  destruct (cb_lock _ _ _ _ B t2 t g true x N); [exists (Point p), (LCons x2 n2); split; [exact E1|cbn; rewrite Eg; reflexivity]|exists o, l; auto|discriminate].
Qed.

(** *** lookups *)
Lemma pb_lt k s p x m : Look c k s p x m -> (x_g x < N.to_nat (2 ^ k))%nat.
Proof. intros [_ (j & _ & E) _]. unfold x_g. rewrite E. cbn [pstate pb_pos]. apply pstate_group. Qed.
Lemma ahead_here k s p x m i ns : Look c k s p x m -> AheadAt k x ns i -> pb_step (x_pb x) = pb_step (x_pb x) ->
  (exists j, N.of_nat j < 2 ^ k /\ probe_pos k (p0 k (x_h x)) j = N.of_nat (i / 15) /\ pb_step (x_pb x) < N.of_nat j) \/
  (i = slot_index (x_g x) (i mod 15) /\ In (i mod 15)%nat ns).
Proof.
  intros [_ (j0 & L0 & E0) _] (j & L & E & [H|[H1 H2]]) _; [left; exists j; auto|right].
  split; [|exact H2]. rewrite E0 in H1. cbn [pstate pb_step] in H1. assert (j = j0) as -> by lia.
  unfold x_g. rewrite E0. cbn [pstate pb_pos]. rewrite E, Nat2N.id. symmetry. apply slot_of.
Qed.
Lemma in_order_in m n : In n (in_order m) <-> In n m /\ (n < 15)%nat.
Proof.
  unfold in_order, memb. rewrite filter_In, existsb_exists. unfold all15. rewrite in_seq. split.
  - intros [L (y & H & E)]. apply Nat.eqb_eq in E as ->. split; [exact H|lia].
  - intros [H L]. split; [lia|]. exists n. split; [exact H|apply Nat.eqb_refl].
Qed.
Lemma hk_lt s p : hk s p < 2 ^ 64. Proof. apply hash_lt. Qed.
Lemma look_init k s p cg : Geo k (A s) -> Look c k s p (Ctx (hk s p) cg (pb_init (p0 k (hk s p)))) [].
Proof.
  intros G. pose proof (ge_k _ _ G). constructor; cbn [x_h x_pb]; [reflexivity| |intros n []].
  exists O. split; [pose proof (pow2_pos k); lia|]. unfold pb_init, pstate. rewrite probe_pos_0; [reflexivity|].
  apply position_lt; [apply hk_lt|lia].
Qed.
Lemma ahead_init k s p cg i : Geo k (A s) -> (i < length (cells (A s)))%nat -> (i / 15 < N.to_nat (2 ^ k))%nat ->
  AheadAt k (Ctx (hk s p) cg (pb_init (p0 k (hk s p)))) (all15 ++ []) i.
Proof.
  intros G L D. destruct (probe_covers k (p0 k (hk s p)) (i / 15)) as (j & Lj & E); [lia|].
  exists j. split; [exact Lj|]. split; [exact E|]. cbn [x_pb pb_init pb_step]. destruct j as [|j]; [right|left; lia].
  split; [reflexivity|]. rewrite app_nil_r. unfold all15. apply in_seq. pose proof (mod15 i). lia.
Qed.
Lemma cell_group k s i : Fr k (A s) -> (i < length (cells (A s)))%nat -> (i / 15 < N.to_nat (2 ^ k))%nat.
Proof. intros F L. apply (shape_div k (A s)); [|exact L]. apply (fr_shape c); [exact F|lia]. Qed.

(** a lookup step leaves no equivalent key behind *)
Lemma ahead_ok k s vs t p l free i thr e l' a : CBase k s vs -> nth_error vs t = Some (Some (Point p, l)) ->
  pstep c free s p l i thr = Step e l' a ->
  forall i0 q, Pk s vs i0 q -> keqf c (pid (tb s)) (pkey p) q = true -> Ahead k l i0 -> Ahead k l' i0.
Proof.
  intros B Ht Hs i0 q Hq He Ha. destruct (cb_ti _ _ _ _ B _ _ _ Ht) as [W T]. cbn [ConcInv.TI wf] in W, T.
  destruct (pk_facts k s vs i0 q B Hq) as (C1 & C2 & C3). rewrite (eq_hash s p q (cb_compat _ _ _ _ B) He) in C1, C2. cbv zeta in C1, C2.
  pose proof (fr_geo _ _ _ (cb_fr _ _ _ _ B)) as G. pose proof (cell_group k s i0 (cb_fr _ _ _ _ B) C3) as D.
  fold (A s) in Hs. pose proof (ge_gsi _ _ G) as Eg. change (arr (tb s)) with (A s) in Hs.
  destruct l; cbn [Ahead ConcInv.TI wf] in W, T, Ha; try contradiction; cbn [pstep] in Hs; fold (A s) in Hs; change (arr (tb s)) with (A s) in Hs.
  - injection Hs as <- <- <-. exact I.
  - destruct thr; [injection Hs as <- <- <-; exact I|]. pose proof (ahead_init k s p 0 i0 G C3 D) as X. unfold ConcInv.hk in X. rewrite Eg in Hs.
    destruct p; unfold go in Hs; injection Hs as <- <- <-; first [exact I|exact X].
  - subst h. rewrite Eg in Hs. destruct (nth_error (cnt s) _); [|discriminate]. unfold go in Hs. injection Hs as <- <- <-. cbn [Ahead].
    apply ahead_init; assumption.
  - (* LScan *)
    destruct (thr && gives_up p); [injection Hs as <- <- <-; exact I|].
    destruct T as [T Hu]. pose proof (lk_h _ _ _ _ _ _ T) as Eh. pose proof (pb_lt _ _ _ _ _ T) as Lx. destruct u as [|u0 u].
    + destruct m as [|m0 m]; unfold go in Hs; injection Hs as <- <- <-; [exact Ha|]. cbn [Ahead app] in *.
      destruct Ha as (j & H1 & H2 & [H3|[H3 H4]]); exists j; split; auto; split; auto. right. split; [exact H3|]. apply in_order_in.
      split; [exact H4|apply mod15].
    + destruct (memb i (u0 :: u)) eqn:Em; [|discriminate]. rewrite (geo_get k) in Hs by assumption. unfold go in Hs.
      injection Hs as <- <- <-. cbn [Ahead]. destruct (ahead_here k s p x m i0 _ T Ha eq_refl) as [(j & H1 & H2 & H3)|[H1 H2]]; [exists j; auto|].
      destruct Ha as (j & Z1 & Z2 & Z3). exists j. split; [exact Z1|]. split; [exact Z2|]. destruct Z3 as [Z3|[Z3 _]]; [left; exact Z3|right].
      split; [exact Z3|]. apply in_or_app. apply in_app_or in H2 as [H2|H2].
      * destruct (Nat.eq_dec (i0 mod 15) i) as [E|N].
        -- right. rewrite match_testbit; [|eapply geo_len; eassumption|rewrite <- E; apply mod15].
           rewrite <- ctrl_slot by (rewrite <- E; apply mod15). rewrite <- E, <- H1, C1, Eh, N.eqb_refl. now left.
        -- left. exact (in_in_remove Nat.eq_dec (u0 :: u) N H2).
      * right. destruct (N.testbit _ _); [now right|exact H2].
  - destruct (free (x_g x) (exclusive p)); [|discriminate]. unfold go in Hs. injection Hs as <- <- <-. exact Ha.
  - (* LCheck *)
    pose proof (pb_lt _ _ _ _ _ T) as Lx. destruct m as [|n m]; [unfold go in Hs; injection Hs as <- <- <-; exact Ha|].
    rewrite (geo_get k) in Hs by assumption. destruct (lk_m _ _ _ _ _ _ T n ltac:(now left)) as [Ln _].
    destruct (b_is_occupied (grp (A s) (x_g x)) n) eqn:Eo; unfold go in Hs; injection Hs as <- <- <-; [exact Ha|]. cbn [Ahead].
    destruct (ahead_here k s p x _ i0 _ T Ha eq_refl) as [(j & H1 & H2 & H3)|[H1 H2]]; [exists j; auto|].
    destruct Ha as (j & Z1 & Z2 & [Z3|[Z3 Z4]]); exists j; split; auto. split; auto. right. split; [exact Z3|].
    destruct Z4 as [Z4|Z4]; [|exact Z4]. exfalso. unfold b_is_occupied in Eo. rewrite <- Z4 in H1. rewrite <- (ctrl_slot (A s) (x_g x) n Ln), <- H1, C1 in Eo.
    pose proof (low_class_ge2 (hk s p)). destruct (N.eqb_spec (low_class (hk s p)) 0); [lia|discriminate].
  - (* LCmp *)
    destruct T as [T [Ln (e1 & E1)]]. rewrite (get_cell_eq k) in Hs by (apply (fr_shape c); [apply B|apply nth_error_Some_lt in E1; lia]).
    change (cells (arr (tb s))) with (cells (A s)) in Hs. rewrite E1 in Hs.
    destruct thr; [injection Hs as <- <- <-; exact I|].
    destruct (keqf c (pid (tb s)) (pkey p) (fst e1)) eqn:Ek; unfold go in Hs; injection Hs as <- <- <-; [exact I|]. cbn [Ahead].
    destruct (ahead_here k s p x _ i0 _ T Ha eq_refl) as [(j & H1 & H2 & H3)|[H1 H2]]; [exists j; auto|].
    destruct Ha as (j & Z1 & Z2 & [Z3|[Z3 Z4]]); exists j; split; auto. split; auto. right. split; [exact Z3|].
    destruct Z4 as [Z4|Z4]; [|exact Z4]. exfalso. rewrite <- Z4 in H1. rewrite H1 in Hq.
    destruct (locked_pk k s vs t _ _ (x_g x) (mode (Point p)) n q B Ht eq_refl eq_refl Ln Hq) as (e2 & E2 & ->). congruence.
  - (* LCall *)
    destruct T as [T (e1 & E1 & _)]. rewrite (get_cell_eq k) in Hs by (apply (fr_shape c); [apply B|apply nth_error_Some_lt in E1; lia]).
    change (cells (arr (tb s))) with (cells (A s)) in Hs. rewrite E1 in Hs. unfold visit_slot in Hs.
    destruct p as [b1 k1 f1|k1 f1|b1 k1 v1 f1 f2]; [destruct (f1 e1) as [v b]|destruct (f1 e1) as [v [[|]|]]|destruct (f2 e1) as [v b]]; injection Hs as <- <- <-; exact I.
  - destruct (get_group (A s) g); [|discriminate]. injection Hs as <- <- <-. exact I.
  - injection Hs as <- <- <-. exact I.
  - destruct kt; [|discriminate]. injection Hs as <- <- <-. exact I.
  - (* LOvf *)
    pose proof (pb_lt _ _ _ _ _ T) as Lx. rewrite (geo_get k) in Hs by assumption.
    pose proof (lk_h _ _ _ _ _ _ T) as Eh. destruct (lk_pb _ _ _ _ _ _ T) as (j0 & L0 & E0).
    destruct Ha as (j & Z1 & Z2 & [Z3|[_ []]]). rewrite E0 in Z3. cbn [pstate pb_step] in Z3.
    assert (b_is_not_overflowed (grp (A s) (x_g x)) (x_h x) = false) as Eo.
    { rewrite not_overflowed_bit. destruct C2 as (j1 & Y1 & Y2 & Y3). rewrite Eh in *. fold (p0 k (hk s p)) in Y2, Y3.
      assert (j1 = j) as -> by (apply (probe_pos_inj k (p0 k (hk s p))); [exact Y1|exact Z1|congruence]).
      specialize (Y3 j0 ltac:(lia)). unfold ovf in Y3. unfold x_g. rewrite E0. cbn [pstate pb_pos]. rewrite Y3. reflexivity. }
    rewrite Eo in Hs. rewrite (ge_mask _ _ G) in Hs. rewrite E0 in Hs. rewrite pstate_next in Hs; [|apply G|exact L0].
    destruct (N.ltb_spec (N.of_nat (S j0)) (2 ^ k)) as [L1|L1]; [|lia]. unfold go in Hs. injection Hs as <- <- <-. cbn [Ahead].
    exists j. unfold set_pb. cbn [x_h x_pb pstate pb_step]. split; [exact Z1|]. split; [exact Z2|].
    destruct (N.eq_dec (N.of_nat (S j0)) (N.of_nat j)) as [E|N]; [right|left; lia]. split; [exact E|]. rewrite app_nil_r. unfold all15.
    apply in_seq. pose proof (mod15 i0). lia.
  - (* LCons *)
    destruct p as [| |b1 k1 v1 f1 f2]; try discriminate. destruct (get_cell _ _) as [[| |]|]; try discriminate.
    destruct thr; [injection Hs as <- <- <-; exact I|]. destruct (f1 (k1, v1)) as [v' b]. injection Hs as <- <- <-. exact I.
  - injection Hs as <- <- <-. exact I.
  - injection Hs as <- <- <-. exact I.
  - injection Hs as <- <- <-. destruct q0; exact I.
  - injection Hs as <- <- <-. exact I.
  - discriminate.
  - destruct W as [_ W]. injection Hs as <- <- <-. destruct r; try exact I. congruence.
  - injection Hs as <- <- <-. exact Ha.
  - discriminate.
Qed.
End CStep.
