(** Bulk visitation: each execution is one of the single-key machine; its invariant. *)
From Coq Require Import NArith Bool List Arith Lia Permutation.
From Verif Require Import FloatModel SizeModel SizeProofs GroupModel GroupSpec FoaModel FoaGroup FoaBase FoaFind FoaArr FoaInv FoaRehash FoaSpec FoaWorld FoaRun
  ConcSpec ConcModel ConcInv ConcStep ConcStep2 ConcStep3 ConcSys ConcSys2 ConcLin1 ConcLin2 ConcLin3 ConcVisit ConcProps ConcLog ConcFound ConcProgress ConcBulkModel.
Import ListNotations.
Notation set_nth := FoaModel.set_nth.

Section Bulk.
Context {K V : Type} (c : Cfg K V).
Hypothesis HC : good_cfg c.
Notation Sh := (@Sh K V).
Notation pop := (pop K V). Notation cop := (cop K V). Notation loc := (@loc K V). Notation cres := (cres K V).
Notation conf := (@conf K V). Notation pc := (@pc K V).
Notation GInv := (GInv c).
Notation event := (event K V).
Notation bcall := (@bcall K V). Notation bconf := (@bconf K V). Notation bevent := (@bevent K V).
Notation gsteps := (steps c counters_fit).

(** *** several threads change position *)
Lemma place_boxes ts : forall (C : conf) ps, boxes (place C ts ps) = boxes C.
Proof. induction ts as [|t ts IH]; intros C [|p ps]; cbn [place]; auto. rewrite IH. reflexivity. Qed.
Lemma place_out ts : forall (C : conf) ps t, ~ In t ts -> nth_error (th (place C ts ps)) t = nth_error (th C) t.
Proof.
  induction ts as [|t0 ts IH]; intros C [|p ps] t N; cbn [place]; auto. rewrite IH by (intros H; apply N; right; exact H). cbn [set_th th].
  apply others_err. intros ->. apply N. left. reflexivity.
Qed.
Lemma place_in ts : forall (C : conf) ps j t p, NoDup ts -> nth_error ts j = Some t -> nth_error ps j = Some p -> nth_error (th C) t <> None ->
  nth_error (th (place C ts ps)) t = Some p.
Proof.
  induction ts as [|t0 ts IH]; intros C [|p0 ps] j t p ND Ht Hp Hn; destruct j as [|j]; try discriminate; cbn [place nth_error] in *.
  - injection Ht as ->. injection Hp as ->. inversion ND. rewrite place_out by assumption. cbn [set_th th]. destruct (nth_error (th C) t) eqn:E; [|congruence].
    eapply self_err; exact E.
  - inversion ND; subst. apply (IH _ _ j); auto. cbn [set_th th]. rewrite others_err; [exact Hn|]. intros ->. apply H1. eapply nth_error_In; exact Ht.
Qed.
(** positions that do not compare the insertion counter *)
Definition no_cnt (p : pc) : Prop := match p with ConcModel.At _ _ (LCnt _ _) => False | _ => True end.
Lemma fit_th (C : conf) t p : counters_fit C -> no_cnt p -> counters_fit (set_th C t p).
Proof.
  intros F N t1 d o x n s m H Hb Hm. cbn [set_th th] in H. destruct (Nat.eq_dec t1 t) as [->|Nt].
  - destruct (nth_error (th C) t) as [q|] eqn:E.
    + rewrite (self_err _ _ _ _ E) in H. injection H as ->. destruct N.
    + rewrite set_nth_out in H by (apply nth_error_None; exact E). congruence.
  - rewrite others_err in H by exact Nt. eapply F; eassumption.
Qed.
Lemma steps_trans P C0 es1 C1 es2 C2 : steps c P C0 es1 C1 -> steps c P C1 es2 C2 -> steps c P C0 (es1 ++ es2) C2.
Proof. intros H1 H2. induction H2 as [H|es C e C' H IH St HP]; [rewrite app_nil_r; exact H1|]. rewrite app_assoc. eapply st_snoc; eassumption. Qed.
Lemma steps_one C e C' : counters_fit C -> counters_fit C' -> gstep c C e C' -> gsteps C (ev_opt e) C'.
Proof. intros F F' H. change (ev_opt e) with ([] ++ match e with Some x => [x] | None => [] end). eapply st_snoc; [apply st_nil; exact F|exact H|exact F']. Qed.
Lemma place_steps ts : forall (C : conf) ps (es : list (list event)), counters_fit C -> NoDup ts -> length ps = length ts -> length es = length ts ->
  (forall j t p e, nth_error ts j = Some t -> nth_error ps j = Some p -> nth_error es j = Some e ->
     forall C', counters_fit C' -> boxes C' = boxes C -> nth_error (th C') t = nth_error (th C) t -> gsteps C' e (set_th C' t p)) ->
  gsteps C (concat es) (place C ts ps).
Proof.
  induction ts as [|t ts IH]; intros C [|p ps] [|e es] F ND L1 L2 H; try discriminate; cbn [place concat]; [apply st_nil, F|].
  pose proof (H 0 t p e eq_refl eq_refl eq_refl) as St. inversion ND; subst. specialize (St C F eq_refl eq_refl).
  assert (counters_fit (set_th C t p)) as F' by (destruct St; assumption).
  eapply steps_trans; [exact St|].
  apply IH; auto. intros j t1 p1 e1 T P E C' Fc Eb Et. apply (H (S j) t1 p1 e1 T P E); [exact Fc|exact Eb|].
  rewrite Et. cbn [set_th th]. apply others_err. intros ->. apply H2. eapply nth_error_In; exact T.
Qed.
(** a step that changes nothing but the position *)
Lemma set_box_same (C : conf) d (s : Sh) : box C d = Some s -> set_box C d s = C.
Proof.
  intros H. unfold set_box. destruct C as [bs ths]. f_equal. apply set_nth_same. unfold box in H. cbn [boxes] in *. destruct (nth_error bs d); congruence.
Qed.
Lemma quiet_step (C : conf) t d o l s i thr l' a : nth_error (th C) t = Some (ConcModel.At d o l) -> box C d = Some s ->
  lstep c (free_for C t d) s o l i thr = Step ENone l' a -> gstep c C (option_map (ELin t) a) (set_th C t (ConcModel.At d o l')).
Proof.
  intros Ht Hb Hs. rewrite <- (set_box_same (set_th C t (ConcModel.At d o l')) d s) by exact Hb. eapply g_local; [exact Ht|exact Hb|exact Hs|reflexivity].
Qed.

Lemma quiet_steps (C : conf) t d o l s l' a : counters_fit C -> nth_error (th C) t = Some (ConcModel.At d o l) -> box C d = Some s -> (forall x n, l' <> LCnt x n) ->
  (exists i thr, lstep c (free_for C t d) s o l i thr = Step ENone l' a) -> gsteps C (ev_opt (option_map (ELin t) a)) (set_th C t (ConcModel.At d o l')).
Proof.
  intros F Ht Hb Nc (i & thr & Hs). apply steps_one; [exact F|apply fit_th; [exact F|]|eapply quiet_step; eassumption]. cbn [no_cnt]. destruct l'; auto. destruct (Nc _ _ eq_refl).
Qed.
Lemma set_th_twice (C : conf) t p q : set_th (set_th C t p) t q = set_th C t q.
Proof.
  unfold set_th. cbn [boxes th]. f_equal. destruct (Nat.lt_ge_cases t (length (th C))) as [L|L].
  - apply list_ext. intros j. rewrite !set_nth_err by (rewrite ?set_nth_len; exact L). destruct (Nat.eqb j t); reflexivity.
  - rewrite !set_nth_out by (rewrite ?set_nth_len; exact L). reflexivity.
Qed.

(** *** positions of the keys of a call *)
Lemma keys_len (b : bcall) C ls : keys_at b C ls -> length ls = length (b_keys b).
Proof. intros H. apply H. Qed.
Lemma keys_get b (C : conf) ls j t l : keys_at b C ls -> key_at b C j t l -> nth_error ls j = Some l.
Proof.
  intros [L H] (kf & H1 & H2 & H3). destruct (nth_error ls j) as [l1|] eqn:E.
  - destruct (H j l1 E) as (t1 & kf1 & T1 & T2 & T3). congruence.
  - apply nth_error_None in E. rewrite L in E. apply nth_error_None in E. congruence.
Qed.
Lemma keys_uniq b (C : conf) ls ls' : keys_at b C ls -> keys_at b C ls' -> ls = ls'.
Proof.
  intros H [L' H']. apply list_ext. intros j. destruct (nth_error ls' j) as [l|] eqn:E.
  - destruct (H' j l E) as [t T]. eapply keys_get; eassumption.
  - apply nth_error_None. apply nth_error_None in E. rewrite (keys_len _ _ _ H). lia.
Qed.
Lemma keys_same b (C C' : conf) ls : (forall t, In t (b_ts b) -> nth_error (th C') t = nth_error (th C) t) -> keys_at b C ls -> keys_at b C' ls.
Proof.
  intros E [L H]. split; [exact L|]. intros j l Hj. destruct (H j l Hj) as (t & kf & H1 & H2 & H3). exists t, kf. rewrite E by (eapply nth_error_In; exact H1). auto.
Qed.
Lemma keys_set b (C C' : conf) A l B t l' : keys_at b C (A ++ l :: B) -> NoDup (b_ts b) -> key_at b C (length A) t l ->
  (forall t', t' <> t -> nth_error (th C') t' = nth_error (th C) t') -> key_at b C' (length A) t l' -> keys_at b C' (A ++ l' :: B).
Proof.
  intros [L H] ND (kf & K1 & K2 & K3) Ho K'. split; [rewrite app_length in *; exact L|]. intros j l1 Hj.
  destruct (Nat.eq_dec j (length A)) as [->|N].
  - rewrite nth_error_app2, Nat.sub_diag in Hj by lia. injection Hj as <-. eauto.
  - assert (nth_error (A ++ l :: B) j = Some l1) as Hj0.
    { destruct (Nat.lt_ge_cases j (length A)) as [La|La]; [rewrite nth_error_app1 in * by exact La; exact Hj|].
      rewrite nth_error_app2 in * by lia. destruct (j - length A)%nat as [|k] eqn:E; [lia|]. exact Hj. }
    destruct (H j l1 Hj0) as (t1 & kf1 & T1 & T2 & T3). exists t1, kf1. rewrite Ho; [auto|]. intros ->. apply N.
    eapply NoDup_nth_error; [exact ND|apply nth_error_Some; congruence|congruence].
Qed.
Lemma all_at_get (b : bcall) ls j kf l : nth_error (b_keys b) j = Some kf -> nth_error ls j = Some l ->
  nth_error (all_at b ls) j = Some (ConcModel.At (b_d b) (key_op (b_x b) kf) l).
Proof.
  intros H1 H2. unfold all_at. rewrite nth_error_map.
  assert (forall (X Y : Type) (a : list X) (b : list Y) j x y, nth_error a j = Some x -> nth_error b j = Some y -> nth_error (combine a b) j = Some (x, y)) as Cb.
  { intros X Y a. induction a as [|x0 a IH]; intros [|y0 b0] [|j0] x y; cbn; try discriminate; [congruence|]. apply IH. }
  rewrite (Cb _ _ _ _ _ _ _ H1 H2). reflexivity.
Qed.
Lemma keys_place b (C : conf) ls : length ls = length (b_keys b) -> length (b_ts b) = length (b_keys b) -> NoDup (b_ts b) ->
  (forall t, In t (b_ts b) -> nth_error (th C) t <> None) -> keys_at b (place C (b_ts b) (all_at b ls)) ls.
Proof.
  intros L1 L2 ND Hn. split; [exact L1|]. intros j l Hj. assert (j < length ls)%nat as Lj by (apply nth_error_Some; congruence).
  destruct (nth_error (b_ts b) j) as [t|] eqn:Et; [|apply nth_error_None in Et; lia]. destruct (nth_error (b_keys b) j) as [kf|] eqn:Ek; [|apply nth_error_None in Ek; lia].
  exists t, kf. split; [exact Et|]. split; [exact Ek|]. eapply place_in; [exact ND|exact Et|apply all_at_get; assumption|]. apply Hn. eapply nth_error_In; exact Et.
Qed.
Lemma all_at_len (b : bcall) ls : length ls = length (b_keys b) -> length (all_at b ls) = length (b_keys b).
Proof. intros L. unfold all_at. rewrite map_length, combine_length. lia. Qed.
Lemma keys_ts_lt b (C : conf) ls : length (b_ts b) = length (b_keys b) -> keys_at b C ls -> forall t, In t (b_ts b) -> nth_error (th C) t <> None.
Proof.
  intros L [L1 H] t Ht. apply In_nth_error in Ht as [j Hj]. assert (j < length (b_ts b))%nat as Lj by (apply nth_error_Some; congruence).
  destruct (nth_error ls j) as [l|] eqn:E; [|apply nth_error_None in E; lia]. destruct (H j l E) as (t1 & kf & T1 & T2 & T3). congruence.
Qed.

(** *** the invariant *)
Definition is_scan (l : loc) : Prop := exists x u m, l = LScan x u m.
Definition normal (r : cres) : Prop := r = RNone \/ exists e, r = RSeen e.
Definition stopped (l : loc) : Prop := l = LDone RThrew \/ l = LHash \/ is_scan l.
Definition total (rs : list cres) : nat := list_sum (map count rs).
Definition ran (first m i n : nat) (ph : phase) (rs : list cres) (ys : list loc) (k : nat) : Prop :=
  m = chunk (n - first) /\ (first + m <= n)%nat /\ (i <= m)%nat /\ (length rs + length ys + k = n)%nat /\
  match ph with
  | Hashing => length rs = first /\ length ys = i /\ Forall is_scan ys
  | Matching => length rs = first /\ length ys = m /\ Forall is_scan ys
  | Visiting => length rs = (first + i)%nat /\ length ys = (m - i)%nat /\ match ys with [] => True | l :: zs => outside l = false /\ l <> LHash /\ Forall is_scan zs end
  end.
Definition StOK (b : bcall) (C : conf) : Prop :=
  match b_st b with
  | BWaiting => keys_at b C (repeat LEnter (length (b_keys b)))
  | BRun first m ph i res => exists rs ys k, keys_at b C (map LDone rs ++ ys ++ repeat LHash k) /\ Forall normal rs /\ res = total rs /\
      ran first m i (length (b_keys b)) ph rs ys k
  | BThrown => exists rs ys, keys_at b C (map LDone rs ++ ys) /\ Forall normal rs /\ Forall stopped ys
  | BOut (Some res) => exists rs, keys_at b C (map LRet rs) /\ Forall normal rs /\ res = total rs
  | BOut None => exists rs k, keys_at b C (map LRet (rs ++ repeat RThrew k)) /\ Forall normal rs
  end.
Record BInv (BC : bconf) : Prop := {
  bi_ok : forall u b, nth_error (bulks BC) u = Some (Some b) -> length (b_ts b) = length (b_keys b) /\ NoDup (b_ts b) /\ StOK b (bc BC);
  bi_disj : forall u b u' b' t, nth_error (bulks BC) u = Some (Some b) -> nth_error (bulks BC) u' = Some (Some b') -> In t (b_ts b) -> In t (b_ts b') -> u = u' }.
Lemma stok_keys b C : StOK b C -> exists ls, keys_at b C ls.
Proof.
  unfold StOK. destruct (b_st b) as [|first m ph i res| |[res|]]; intros H; [eauto| | | |].
  - destruct H as (rs & ys & k & H & _). eauto.
  - destruct H as (rs & ys & H & _). eauto.
  - destruct H as (rs & H & _). eauto.
  - destruct H as (rs & k & H & _). eauto.
Qed.
Lemma stok_same b C C' : (forall t, In t (b_ts b) -> nth_error (th C') t = nth_error (th C) t) -> StOK b C -> StOK b C'.
Proof.
  intros E. assert (forall ls, keys_at b C ls -> keys_at b C' ls) as Kp by (intros ls; apply keys_same, E).
  unfold StOK. destruct (b_st b) as [|first m ph i res| |[res|]]; intros H; [auto| | | |].
  - destruct H as (rs & ys & k & H & H'). exists rs, ys, k. auto.
  - destruct H as (rs & ys & H & H'). exists rs, ys. auto.
  - destruct H as (rs & H & H'). exists rs. auto.
  - destruct H as (rs & k & H & H'). exists rs, k. auto.
Qed.
Lemma chunk_le n : (chunk n <= n)%nat.
Proof. unfold chunk, bulk_visit_size. destruct (Nat.ltb_spec n (2 * 16)); lia. Qed.
Lemma by_thread_gstep C t i thr e C' : by_thread c C t i thr e C' -> gstep c C e C'.
Proof. intros H. destruct H. eapply g_local; eassumption. Qed.
Lemma by_thread_others C t i thr e C' : by_thread c C t i thr e C' -> forall t', t' <> t -> nth_error (th C') t' = nth_error (th C) t'.
Proof. intros H t' N. destruct H. cbn [set_box set_th th]. apply others_err, N. Qed.
Lemma key_unique b (C : conf) j t l t' l' : key_at b C j t l -> key_at b C j t' l' -> t' = t /\ l' = l.
Proof. intros (kf & A1 & A2 & A3) (kf' & B1 & B2 & B3). assert (t' = t) by congruence. subst. split; congruence. Qed.
(** the step of a key, in terms of pstep *)
Lemma by_key b C j t l i thr e C' : key_at b C j t l -> by_thread c C t i thr e C' -> exists kf s ef l' a,
  nth_error (b_keys b) j = Some kf /\ box C (b_d b) = Some s /\ pstep c (free_for C t (b_d b)) s (PVisit (b_x b) (fst kf) (snd kf)) l i thr = Step ef l' a /\
  e = option_map (ELin t) a /\ key_at b C' j t l'.
Proof.
  intros (kf & K1 & K2 & K3) H. destruct H as [d o l0 s ef l' a s' H1 H2 H3 H4]. rewrite K3 in H1. injection H1 as <- <- <-.
  exists kf, s, ef, l', a. split; [exact K2|]. split; [exact H2|]. split; [exact H3|]. split; [reflexivity|]. exists kf. split; [exact K1|]. split; [exact K2|].
  cbn [set_box set_th th]. eapply self_err; exact K3.
Qed.
Lemma set_nth_cases {X} (l : list X) u x : nth_error l u <> None -> forall u' y, nth_error (set_nth l u x) u' = Some y -> (u' = u /\ y = x) \/ (u' <> u /\ nth_error l u' = Some y).
Proof.
  intros Hn u' y H. destruct (nth_error l u) as [z|] eqn:E; [|congruence]. destruct (set_cases l u z x u' y E H) as [[A B]|[A B]]; auto.
Qed.
(** one call changes, the threads of the others keep their positions *)
Lemma binv_set BC C' u b b' : BInv BC -> nth_error (bulks BC) u = Some (Some b) -> b_ts b' = b_ts b -> b_keys b' = b_keys b ->
  (forall t, ~ In t (b_ts b) -> nth_error (th C') t = nth_error (th (bc BC)) t) -> StOK b' C' -> BInv (set_b BC C' u (Some b')).
Proof.
  intros [I1 I2] Hu Et Ek Ho S'. destruct (I1 u b Hu) as (L & ND & S). assert (nth_error (bulks BC) u <> None) as Nu by congruence. split; cbn [set_b bc bulks].
  - intros u1 b1 H1. destruct (set_nth_cases _ _ _ Nu _ _ H1) as [[-> E]|[N E]].
    + injection E as ->. rewrite Et, Ek. auto.
    + destruct (I1 u1 b1 E) as (L1 & ND1 & S1). split; [exact L1|]. split; [exact ND1|]. eapply stok_same; [|exact S1]. intros t Ht. apply Ho. intros Ht'.
      apply N. eapply I2; eassumption.
  - intros u1 b1 u2 b2 t H1 H2 T1 T2.
    destruct (set_nth_cases _ _ _ Nu _ _ H1) as [[-> E1]|[N1 E1]], (set_nth_cases _ _ _ Nu _ _ H2) as [[-> E2]|[N2 E2]]; auto.
    + injection E1 as ->. rewrite Et in T1. eapply I2; eassumption.
    + injection E2 as ->. rewrite Et in T2. eapply I2; eassumption.
    + eapply I2; eassumption.
Qed.
Lemma normal_of_wf C t d x kf r : GInv C -> nth_error (th C) t = Some (ConcModel.At d (key_op x kf) (LDone r)) -> normal r \/ r = RThrew.
Proof.
  intros G H. destruct (gi_at _ _ G _ _ _ _ H) as [s Hb]. destruct (gi_box _ _ G d s Hb) as [k [B _]].
  destruct (cb_ti _ _ _ _ B _ _ _ (proj2 (view_at C d t _ _) H)) as [W _]. cbn [wf key_op] in W. unfold rfits in W. unfold normal. destruct r; try contradiction; eauto.
Qed.
End Bulk.
