(** Steps of one thread preserve the invariant of a concurrent container: the steps of each operation. *)
From Coq Require Import NArith Bool List Arith Lia ZifyBool ZifyNat ZifyN Permutation.
From Verif Require Import FloatModel SizeModel SizeProofs GroupModel GroupSpec FoaModel FoaGroup FoaBase FoaFind FoaArr FoaInv FoaSpec ConcSpec ConcModel ConcInv ConcStep.
Import ListNotations.
Local Open Scope N_scope.

Section CStep2.
Context {K V : Type} (c : Cfg K V).
Notation arrays := (arrays K V).
Notation table := (table K V).
Notation Sh := (@Sh K V).
Notation pop := (pop K V). Notation cop := (cop K V). Notation loc := (@loc K V). Notation cres := (cres K V).
Notation ent := (option (cop * loc)).
Notation CBase := (CBase c). Notation CUniq := (CUniq c). Notation CInv := (CInv c). Notation TI := (TI c). Notation TI1 := (TI1 c).
Notation hk := (hk c). Notation Fr := (Fr c).

(** *** effects *)
Definition with_arr (s : Sh) (a : arrays) : Sh := MkSh (set_arr (tb s) a) (cnt s).
Definition with_sz (s : Sh) (z : N) : Sh := MkSh (set_sz (tb s) z) (cnt s).
Definition with_ml (s : Sh) (m : N) : Sh := MkSh (set_ml (tb s) m) (cnt s).
Lemma fo_sz s z G : Foreign s (with_sz s z) G.
Proof. constructor; try reflexivity; auto. intros g n H. exists n. split; [exact H|lia]. Qed.
Lemma fo_setml s m G : m <= ml (tb s) -> Foreign s (with_ml s m) G.
Proof. intros L. constructor; try reflexivity; auto. intros g n H. exists n. split; [exact H|lia]. Qed.
Lemma fo_count (s : Sh) g n G : nth_error (cnt s) g = Some n -> Foreign s (MkSh (tb s) (set_nth (cnt s) g (n + 1))) G.
Proof.
  intros E. constructor; try reflexivity; auto; cbn [cnt].
  - apply set_nth_len.
  - intros g2 n2 H. rewrite set_nth_err by (apply nth_error_Some; congruence). destruct (Nat.eqb_spec g2 g) as [->|N].
    + exists (n + 1). split; [reflexivity|]. assert (n2 = n) by congruence. lia.
    + exists n2. split; [exact H|lia].
Qed.
Lemma fo_byte k s g n b : Shape k (A s) -> (g < N.to_nat (2 ^ k))%nat -> (n < 15)%nat -> (slot_index g n < length (cells (A s)))%nat ->
  let s' := with_arr s (upd_grp (A s) g (set_nth (grp (A s) g) n b)) in Foreign s s' (Some g) /\ Shape k (A s').
Proof.
  intros HS Hg Hn Hi s'. assert (Shape k (A s')) as HS' by (apply shape_set_byte; auto; left; lia).
  split; [|exact HS']. constructor; try reflexivity.
  - cbn. rewrite set_nth_len. reflexivity.
  - intros i Hd. split; [reflexivity|]. unfold s', A, with_arr. cbn [tb set_arr arr]. rewrite (ctrl_set_byte k) by assumption.
    destruct (Nat.eqb_spec i (slot_index g n)) as [->|N]; [|reflexivity]. rewrite slot_div in Hd by exact Hn. congruence.
  - intros g2 j. unfold s', A, with_arr. cbn [tb set_arr arr]. rewrite (ovf_set_byte k) by assumption. auto.
  - intros g2 n2 H. exists n2. split; [exact H|lia].
Qed.
Lemma fo_mark k s g h G : Shape k (A s) -> (g < N.to_nat (2 ^ k))%nat ->
  let s' := with_arr s (upd_grp (A s) g (b_mark_overflow (grp (A s) g) h)) in
  Foreign s s' G /\ Shape k (A s') /\ marked s' h g /\ cells (A s') = cells (A s) /\ (forall i, ctrl (A s') i = ctrl (A s) i).
Proof.
  intros HS Hg s'. destruct (ext_mark k (A s) g h HS Hg) as (HS' & (X1 & X2 & X3 & X4 & X5 & X6) & X7).
  split; [|split; [exact HS'|split; [exact X7|split; [exact X4|exact X5]]]].
  constructor; try reflexivity; auto.
  - cbn. rewrite set_nth_len. reflexivity.
  - intros g2 n2 H. exists n2. split; [exact H|lia].
Qed.
Lemma fo_cell k s i x : Shape k (A s) -> (i < length (cells (A s)))%nat ->
  let s' := with_arr s (upd_cell (A s) i x) in Foreign s s' (Some (i / 15)%nat) /\ Shape k (A s').
Proof.
  intros HS Hi s'. assert (Shape k (A s')) as HS' by (apply shape_upd_cell; exact HS). split; [|exact HS'].
  constructor; try reflexivity; auto.
  - unfold capacity. rewrite (sh_elems _ _ HS), (sh_elems _ _ HS'). reflexivity.
  - cbn [s' with_arr A tb set_arr arr]. rewrite cells_upd_cell. apply set_nth_len.
  - intros j Hj. split; [|reflexivity]. unfold s', A, with_arr. cbn [tb set_arr arr]. rewrite cells_upd_cell, set_nth_err by exact Hi.
    destruct (Nat.eqb_spec j i) as [->|N]; [congruence|reflexivity].
  - intros g2 n2 H. exists n2. split; [exact H|lia].
Qed.
Lemma ap_set k s g n h : Shape k (A s) -> (g < N.to_nat (2 ^ k))%nat ->
  apply (ESet g n h) s = Some (with_arr s (upd_grp (A s) g (set_nth (grp (A s) g) n (low_class h)))).
Proof. intros HS Hg. cbn [apply]. unfold on_groups. fold (A s). rewrite (put_group_eq k) by assumption. rewrite b_set_eq. reflexivity. Qed.
Lemma ap_reset k s g n : Shape k (A s) -> (g < N.to_nat (2 ^ k))%nat ->
  apply (EReset g n) s = Some (with_arr s (upd_grp (A s) g (set_nth (grp (A s) g) n 0))).
Proof. intros HS Hg. cbn [apply]. unfold on_groups. fold (A s). rewrite (put_group_eq k) by assumption. reflexivity. Qed.
Lemma ap_mark k s g h : Shape k (A s) -> (g < N.to_nat (2 ^ k))%nat ->
  apply (EMark g h) s = Some (with_arr s (upd_grp (A s) g (b_mark_overflow (grp (A s) g) h))).
Proof. intros HS Hg. cbn [apply]. unfold on_groups. fold (A s). rewrite (put_group_eq k) by assumption. reflexivity. Qed.
Lemma ap_cell k s i x : Shape k (A s) -> (i < length (cells (A s)))%nat -> apply (ECell i x) s = Some (with_arr s (upd_cell (A s) i x)).
Proof. intros HS Hi. cbn [apply]. fold (A s). rewrite (put_cell_eq k) by assumption. reflexivity. Qed.

(** *** generic steps *)
Definition lock_ok (vs : list ent) (t : nat) (o : cop) (l l' : loc) : Prop :=
  lock_of o l' = lock_of o l \/ lock_of o l' = None \/ exists g x, lock_of o l' = Some (g, x) /\ frees vs t g x.
Lemma own_same k s vs t o l i : CBase k s vs -> nth_error vs t = Some (Some (o, l)) -> xg o l = Some (i / 15)%nat ->
  nth_error (cells (A s)) i = Some Raw -> ctrl (A s) i = 0 \/ infl l = Some i.
Proof.
  intros B Ht Hx Hr. destruct (cb_raw _ _ _ _ B i Hr) as [E|(t2 & o2 & l2 & E1 & E2)]; [now left|right].
  destruct (Nat.eq_dec t2 t) as [->|N]; [rewrite E1 in Ht; injection Ht as -> ->; exact E2|exfalso].
  destruct (cb_ti _ _ _ _ B _ _ _ E1) as [W T]. pose proof (lock_group c _ _ _ _ _ T W E2) as L2.
  unfold xg in Hx. destruct (lock_of o l) as [[g [|]]|] eqn:El; try discriminate. injection Hx as ->.
  destruct (cb_lock _ _ _ _ B t2 t (i / 15) true true N); [exists o2, l2; auto|exists o, l; auto|discriminate].
Qed.
Lemma cinv_eff k s vs t o l s' l' : CInv k s vs -> nth_error vs t = Some (Some (o, l)) -> Foreign s s' (xg o l) -> Fr k (A s') ->
  (forall i, xg o l = Some (i / 15)%nat ->
     match nth_error (cells (A s')) i with
     | Some (Live e) => ctrl (A s') i = low_class (hash_of c (hid (tb s')) (fst e)) /\ Reach k (A s') (hash_of c (hid (tb s')) (fst e)) (i / 15)
     | Some Moved => False
     | Some Raw => ctrl (A s') i = 0 \/ infl l' = Some i
     | None => True end) ->
  lock_ok vs t o l l' ->
  sz (tb s') + N.of_nat (length (elems (A s))) + wt l = sz (tb s) + N.of_nat (length (elems (A s'))) + wt l' ->
  N.of_nat (length (elems (A s'))) + adm (ml (tb s')) l' + ml (tb s) <= N.of_nat (length (elems (A s))) + adm (ml (tb s)) l + ml (tb s') \/
  N.of_nat (length (elems (A s'))) + wsum (adm (ml (tb s'))) (set_nth vs t (Some (o, l'))) <= ml (tb s') ->
  wf o l' -> TI k s' o l' ->
  (forall x n, l' <> LCons x n) ->
  (forall i e', nth_error (cells (A s')) i = Some (Live e') ->
     (exists e, nth_error (cells (A s)) i = Some (Live e) /\ fst e' = fst e) \/
     (exists p x n, o = Point p /\ l = LCons x n /\ slot_index (x_g x) n = i /\ fst e' = pkey p)) ->
  TI1 k s vs o l' -> CInv k s' (set_nth vs t (Some (o, l'))).
Proof.
  intros [B U] Ht F Fr' Hown Hlock Hsz Hadm Hwf HTI Hnc Hcells H1. pose proof (pk_mono s vs t o l s' l' Ht Hnc Hcells) as HP. split.
  - eapply cbase_step; eassumption.
  - eapply cuniq_step; [exact U|exact Ht|exact F|exact HP|]. eapply ti1_mono; [apply F|apply F|apply F|exact HP|exact H1].
Qed.
(** no slot changes *)
Lemma cinv_quiet k s vs t o l s' l' : CInv k s vs -> nth_error vs t = Some (Some (o, l)) ->
  Foreign s s' (xg o l) -> Fr k (A s') -> cells (A s') = cells (A s) -> (forall i, ctrl (A s') i = ctrl (A s) i) -> infl l' = infl l ->
  lock_ok vs t o l l' ->
  sz (tb s') + wt l = sz (tb s) + wt l' ->
  adm (ml (tb s')) l' + ml (tb s) <= adm (ml (tb s)) l + ml (tb s') \/
  N.of_nat (length (elems (A s))) + wsum (adm (ml (tb s'))) (set_nth vs t (Some (o, l'))) <= ml (tb s') ->
  wf o l' -> TI k s' o l' -> (forall x n, l' <> LCons x n) -> TI1 k s vs o l' -> CInv k s' (set_nth vs t (Some (o, l'))).
Proof.
  intros CI Ht F Fr' Ec Ek Hi Hlock Hsz Hadm Hwf HTI Hnc H1. pose proof CI as [B U].
  assert (elems (A s') = elems (A s)) as Ee by (unfold elems; rewrite Ec; reflexivity).
  eapply cinv_eff; try eassumption; rewrite ?Ee; auto.
  - intros i Hx. rewrite Ec, Ek, Hi, (fo_h _ _ _ F). destruct (nth_error (cells (A s)) i) as [[| |e]|] eqn:E; auto.
    + eapply own_same; eassumption.
    + exact (cb_moved _ _ _ _ B i E).
    + destruct (cb_live _ _ _ _ B i e E). split; [assumption|]. eapply reach_mono; [apply F|assumption].
  - lia.
  - destruct Hadm as [Hadm|Hadm]; [left; lia|right; exact Hadm].
  - intros i e' H. left. exists e'. rewrite <- Ec. auto.
Qed.
Lemma cinv_pure k s vs t o l l' : CInv k s vs -> nth_error vs t = Some (Some (o, l)) -> infl l' = infl l -> lock_ok vs t o l l' ->
  wt l' = wt l -> adm (ml (tb s)) l' <= adm (ml (tb s)) l -> wf o l' -> TI k s o l' -> (forall x n, l' <> LCons x n) -> TI1 k s vs o l' ->
  CInv k s (set_nth vs t (Some (o, l'))).
Proof.
  intros CI Ht Hi Hl Hw Ha Hwf HTI Hnc H1. eapply cinv_quiet; try eassumption; auto.
  - apply foreign_refl.
  - apply CI.
  - lia.
  - left. lia.
Qed.

Definition good (k : N) (s : Sh) (vs : list ent) (t : nat) (o : cop) (r : outcome) : Prop :=
  match r with
  | Blocked => True | Ub => False
  | Step e l' a => exists s', apply e s = Some s' /\ CInv k s' (set_nth vs t (Some (o, l')))
  end.
(** the counter has not wrapped around *)
Definition nowrap (s : Sh) (l : loc) : Prop :=
  match l with
  | LCnt x _ => forall m, nth_error (cnt s) (N.to_nat (position (x_h x) (a_gsi (A s)))) = Some m -> m - x_cg x < 2 ^ 32
  | _ => True end.

Lemma insr_reach k s p x : Geo k (A s) -> Insr c k s p x -> Reach k (A s) (x_h x) (x_g x).
Proof.
  intros G [H1 H2 H3 [(j & L & E & M)|M]].
  - exists j. split; [exact L|]. unfold x_g. rewrite E. cbn [pstate pb_pos]. fold (p0 k (x_h x)). rewrite N2Nat.id. split; [reflexivity|]. exact M.
  - destruct (probe_covers k (p0 k (x_h x)) (x_g x)) as (j & L & E); [unfold x_g; lia|]. exists j. split; [exact L|]. split; [exact E|].
    intros j' _. apply M. apply pstate_group.
Qed.
Lemma insr_lt k s p x : Insr c k s p x -> (x_g x < N.to_nat (2 ^ k))%nat.
Proof. intros H. pose proof (ir_pos _ _ _ _ _ H). unfold x_g. lia. Qed.
Lemma set_set {X} (l : list X) i x y : set_nth (set_nth l i x) i y = set_nth l i y.
Proof.
  destruct (Nat.lt_ge_cases i (length l)) as [L|L].
  - apply list_ext. intros j. rewrite !set_nth_err by (rewrite ?set_nth_len; exact L). destruct (Nat.eqb j i); reflexivity.
  - assert (forall z, set_nth l i z = l) as E; [|rewrite !E; reflexivity]. intros z. unfold FoaModel.set_nth. rewrite firstn_all2, skipn_all2, app_nil_r by lia. reflexivity.
Qed.
Lemma elems_swap (a : arrays) i e e' : nth_error (cells a) i = Some (Live e) ->
  exists rest, Permutation (elems a) (e :: rest) /\ Permutation (elems (upd_cell a i (Live e'))) (e' :: rest).
Proof.
  intros H. exists (elems (upd_cell a i Raw)). split; [apply elems_set_dead; [exact H|reflexivity]|].
  assert (upd_cell a i (Live e') = upd_cell (upd_cell a i Raw) i (Live e')) as ->.
  { unfold upd_cell at 1 2. cbn [a_gsi a_mask a_groups a_owner]. rewrite cells_upd_cell, set_set. reflexivity. }
  apply elems_set_live. rewrite cells_upd_cell. eapply self_err. exact H.
Qed.
Lemma slot_nn g n n' : (n < 15)%nat -> (n' < 15)%nat -> slot_index g n = slot_index g n' -> n = n'.
Proof. unfold slot_index. lia. Qed.

Lemma fr_arr k s s' : Fr k (A s) -> Shape k (A s') -> (0 < length (cells (A s)))%nat -> Fr k (A s').
Proof. intros [[_ E]|[_ E]] H L; [exfalso; rewrite E in L; cbn in L; lia|right; auto]. Qed.
Lemma ti1_none k s vs o l : ectx l = None -> TI1 k s vs o l.
Proof. intros H. destruct o; cbn; auto. destruct (emplaces p); [rewrite H|]; exact I. Qed.
Lemma ti_quiet k s s' o l : Foreign s s' None -> TI k s o l -> TI k s' o l.
Proof. intros F T. eapply ti_foreign; [exact F|exact T|]. discriminate. Qed.
Lemma lock_xg o (l : loc) g : lock_of o l = Some (g, true) -> @xg K V o l = Some g.
Proof. intros H. unfold xg. rewrite H. reflexivity. Qed.

(** giving a slot back *)
Lemma reset_gen k s vs t o l g n l' : CInv k s vs -> nth_error vs t = Some (Some (o, l)) ->
  lock_of o l = Some (g, true) -> lock_of o l' = Some (g, true) -> infl l = Some (slot_index g n) -> infl l' = None -> raw_at s g n ->
  wt l' = wt l -> adm (ml (tb s)) l' <= adm (ml (tb s)) l -> wf o l' ->
  (forall s', hid (tb s') = hid (tb s) -> cells (A s') = cells (A s) -> TI k s' o l') -> (forall x n, l' <> LCons x n) -> ectx l' = None ->
  exists s', apply (EReset g n) s = Some s' /\ CInv k s' (set_nth vs t (Some (o, l'))).
Proof.
  intros CI Ht Hl Hl' Hi Hi' [Ln Hr] Hw Ha Hwf HT Hnc He. pose proof CI as [B U]. pose proof (nth_error_Some_lt _ _ _ Hr) as Li.
  pose proof (cb_fr _ _ _ _ B) as Fk. assert (Shape k (A s)) as HS by (apply (fr_shape c); [exact Fk|lia]).
  assert (g < N.to_nat (2 ^ k))%nat as Lg by (rewrite <- (slot_div g n Ln); apply (shape_div k (A s)); assumption).
  destruct (fo_byte k s g n 0 HS Lg Ln Li) as [F HS'].
  exists (with_arr s (upd_grp (A s) g (set_nth (grp (A s) g) n 0))). split; [apply (ap_reset k); assumption|].
  set (s' := with_arr s (upd_grp (A s) g (set_nth (grp (A s) g) n 0))) in *.
  assert (cells (A s') = cells (A s)) as Ec by reflexivity.
  assert (elems (A s') = elems (A s)) as Ee by reflexivity.
  assert (forall j, ctrl (A s') j = if Nat.eqb j (slot_index g n) then 0 else ctrl (A s) j) as Ek by (intros j; apply (ctrl_set_byte k); assumption).
  eapply cinv_eff; try eassumption.
  - rewrite (lock_xg _ _ _ Hl). exact F.
  - apply (fr_arr k s); [exact Fk|exact HS'|lia].
  - intros j Hj. rewrite Ec, Ek. destruct (Nat.eqb_spec j (slot_index g n)) as [->|N].
    + rewrite Hr. now left.
    + destruct (nth_error (cells (A s)) j) as [[| |e]|] eqn:Ej; auto.
      * left. destruct (own_same k s vs t o l j B Ht Hj Ej) as [E|E]; [exact E|congruence].
      * exact (cb_moved _ _ _ _ B j Ej).
      * destruct (cb_live _ _ _ _ B j e Ej) as [E1 E2]. split; [exact E1|]. eapply reach_mono; [apply F|exact E2].
  - left. congruence.
  - rewrite Ee. change (sz (tb s')) with (sz (tb s)). lia.
  - left. rewrite Ee. change (ml (tb s')) with (ml (tb s)). lia.
  - apply HT; reflexivity.
  - intros j e Hj. rewrite Ec in Hj. left. exists e. auto.
  - apply ti1_none. exact He.
Qed.
(** --size *)
Lemma dec_gen k s vs t o l l' : CInv k s vs -> nth_error vs t = Some (Some (o, l)) -> wt l = 1 -> wt l' = 0 -> infl l = None -> infl l' = None ->
  lock_ok vs t o l l' -> adm (ml (tb s)) l' <= adm (ml (tb s)) l -> wf o l' -> TI k s o l' -> (forall x n, l' <> LCons x n) -> ectx l' = None ->
  exists s', apply ESzDec s = Some s' /\ CInv k s' (set_nth vs t (Some (o, l'))).
Proof.
  intros CI Ht Hw Hw' Hi Hi' Hl Ha Hwf HT Hnc He. pose proof CI as [B U]. pose proof (wsum_in wt vs t o l Ht) as Lw. pose proof (cb_sz _ _ _ _ B) as Es.
  exists (with_sz s (sz (tb s) - 1)). split; [cbn [apply]; destruct (N.eqb_spec (sz (tb s)) 0); [lia|reflexivity]|].
  eapply cinv_quiet; try eassumption; try reflexivity.
  - apply fo_sz.
  - apply B.
  - congruence.
  - cbn [with_sz tb set_sz sz]. lia.
  - left. cbn [with_sz tb set_sz ml]. lia.
  - apply (ti_quiet k s); [apply fo_sz|exact HT].
  - apply ti1_none. exact He.
Qed.
(** ml-=maybe_caused_overflow *)
Lemma ml_gen k s vs t o g n kt b : CInv k s vs -> nth_error vs t = Some (Some (o, LMl g n kt)) ->
  exists s', apply (EMlDec b) s = Some s' /\ CInv k s' (set_nth vs t (Some (o, LReset g n kt))).
Proof.
  intros CI Ht. pose proof CI as [B U]. destruct (cb_ti _ _ _ _ B _ _ _ Ht) as [W T].
  assert (wf o (LReset g n kt)) as W' by (destruct o; exact W). assert (TI k s o (LReset g n kt)) as T' by (destruct o; exact T).
  pose proof (wsum_in (adm (ml (tb s))) vs t _ _ Ht) as La. cbn [adm] in La. pose proof (cb_adm _ _ _ _ B) as Ad. destruct b.
  - exists (with_ml s (ml (tb s) - 1)). split; [cbn [apply]; destruct (N.eqb_spec (ml (tb s)) 0); [lia|reflexivity]|].
    eapply cinv_quiet; try eassumption; try reflexivity; try discriminate.
    + apply fo_setml. lia.
    + apply B.
    + left. destruct o; reflexivity.
    + left. cbn [with_ml tb set_ml ml adm]. lia.
    + apply ti1_none. reflexivity.
  - exists s. split; [reflexivity|]. eapply cinv_pure; try eassumption; try reflexivity; try discriminate.
    + left. destruct o; reflexivity.
    + apply ti1_none. reflexivity.
Qed.
Lemma resets_gen k s vs t o g n kt : CInv k s vs -> nth_error vs t = Some (Some (o, LReset g n kt)) ->
  exists s', apply (EReset g n) s = Some s' /\ CInv k s' (set_nth vs t (Some (o, LDec g kt))).
Proof.
  intros CI Ht. pose proof CI as [B U]. destruct (cb_ti _ _ _ _ B _ _ _ Ht) as [W T].
  assert (raw_at s g n) as Hr by (destruct o; cbn in *; try contradiction; [apply T|apply T]).
  eapply reset_gen; try eassumption; try reflexivity; try discriminate.
  - intros s' Eh Ec. destruct o as [p|x md f|]; cbn [ConcInv.TI] in *; auto. destruct kt as [e|ms acc]; [exact I|]. destruct T as (T1 & T2 & T3 & T4 & T5).
    split; [exact T1|]. rewrite Ec. split; [destruct Hr as [_ Hr]; apply nth_error_Some_lt in Hr; lia|]. split; [exact T4|].
    intros m Hm. destruct (T5 m Hm) as [Z1 Z2]. split; [exact Z1|]. rewrite Ec. exact Z2.
Qed.
(** taking the only claim on a key *)
Lemma claim_gen k s vs t p x n m : CInv k s vs -> nth_error vs t = Some (Some (Point p, LCnt x n)) ->
  nth_error (cnt s) (N.to_nat (p0 k (hk s p))) = Some m -> m = x_cg x -> emplaces p = true ->
  CInv k (MkSh (tb s) (set_nth (cnt s) (N.to_nat (p0 k (hk s p))) (m + 1))) (set_nth vs t (Some (Point p, LCons x n))).
Proof.
  intros CI Ht Em Ex Ep. pose proof CI as [B U]. set (s' := MkSh (tb s) _). destruct (cb_ti _ _ _ _ B _ _ _ Ht) as [W T].
  assert (forall G, Foreign s s' G) as F by (intros G; apply fo_count; exact Em). cbn [ConcInv.TI wf] in W, T.
  assert (forall i q, Pk s' (set_nth vs t (Some (Point p, LCons x n))) i q -> Pk s vs i q \/ (i = slot_index (x_g x) n /\ q = pkey p)) as HP.
  { intros i q [H|(t2 & p2 & x2 & n2 & H1 & H2 & ->)]; [left; left; exact H|].
    destruct (set_cases _ _ _ _ _ _ Ht H1) as [[_ E]|[_ E]].
    - injection E as -> -> ->. right. auto.
    - left. right. exists t2, p2, x2, n2. auto. }
  pose proof (cu_ti _ _ _ _ U _ _ _ Ht) as U1. cbn [ConcInv.TI1 ectx Ahead] in U1. rewrite Ep in U1. destruct U1 as (n0 & Y1 & Y2 & Y3).
  assert (n0 = x_cg x) as En by congruence. specialize (Y3 En).
  pose proof (cb_compat _ _ _ _ B) as [(Q1 & Q2 & Q3) Hh]. split.
  - eapply (cbase_step c k s vs t (Point p) (LCnt x n)); try eassumption; try reflexivity.
    + apply F.
    + apply B.
    + intros i Hx. change (A s') with (A s). change (tb s') with (tb s). destruct (nth_error (cells (A s)) i) as [[| |e]|] eqn:E; auto.
      * apply (own_same k s vs t _ _ i B Ht Hx E).
      * exact (cb_moved _ _ _ _ B i E).
      * exact (cb_live _ _ _ _ B i e E).
    + left. reflexivity.
    + left. cbn [s' tb adm]. change (A s') with (A s). lia.
    + apply (ti_quiet k s s' (Point p) (LCons x n) (F None)). exact T.
  - constructor.
    + intros i j q q' Hi Hj E. change (pid (tb s')) with (pid (tb s)) in E. apply HP in Hi, Hj. destruct Hi as [Hi|[-> ->]], Hj as [Hj|[-> ->]].
      * eapply (cu_uniq _ _ _ _ U); eauto.
      * exfalso. rewrite Q2 in E. exact (Y3 i q Hi E).
      * exfalso. exact (Y3 j q' Hj E).
      * reflexivity.
    + intros t2 o2 l2 H. destruct (set_cases _ _ _ _ _ _ Ht H) as [[-> E]|[N E]].
      * injection E as -> ->. apply ti1_none. reflexivity.
      * pose proof (cu_ti _ _ _ _ U _ _ _ E) as U2. destruct o2 as [p2| |]; cbn [ConcInv.TI1] in *; auto. destruct (emplaces p2); auto.
        destruct (ectx l2) as [x2|]; auto. destruct U2 as (n2 & V1 & V2 & V3). change (hk s' p2) with (hk s p2).
        destruct (fo_cnt _ _ _ (F None) _ _ V1) as (n3 & V4 & V5). exists n3. split; [exact V4|]. split; [lia|].
        intros -> i q Hq He. change (pid (tb s')) with (pid (tb s)) in He. apply HP in Hq. destruct Hq as [Hq|[-> ->]]; [apply (V3 ltac:(lia) i q Hq He)|].
        exfalso. assert (hk s p2 = hk s p) as Eh by (unfold ConcInv.hk, hash_of; rewrite (Hh _ _ He); reflexivity).
        rewrite Eh in V1, V4. assert (n2 = m) by congruence. cbn [s' cnt] in V4.
        rewrite set_nth_err in V4 by (apply nth_error_Some; congruence). rewrite Nat.eqb_refl in V4. injection V4 as V4. lia.
Qed.


Ltac leaf Hs := unfold go in Hs; subst; cbn [good].
Ltac fin HA :=
  match goal with
  | |- lock_ok _ _ _ _ _ => first [left; reflexivity | right; left; reflexivity | idtac]
  | |- ConcInv.TI1 _ _ _ _ _ _ => first [solve [eapply HA; [reflexivity|left; reflexivity]] |
      match goal with H : Look _ _ _ _ ?x _ |- _ => solve [eapply HA; [reflexivity|right; exists x, x; auto]] end | idtac]
  | _ => try eassumption; try reflexivity; try discriminate; try exact I
  end.

Lemma pstep_ok k s vs t p l free i thr : CInv k s vs -> nth_error vs t = Some (Some (Point p, l)) ->
  (forall g x, free g x = true -> frees vs t g x) -> nowrap s l -> l <> LFull -> (forall r, l <> LRet r) ->
  good k s vs t (Point p) (pstep c free s p l i thr).
Proof.
  intros CI Ht Hfree Hnw Nf Nr. destruct CI as [B U] eqn:Eci. pose proof (conj B U) as CI2. clear Eci CI. rename CI2 into CI.
  destruct (cb_ti _ _ _ _ B _ _ _ Ht) as [W T].
  pose proof (cb_fr _ _ _ _ B) as Fk. pose proof (fr_geo _ _ _ Fk) as G.
  pose proof (ge_gsi _ _ G) as Eg. pose proof (cu_ti _ _ _ _ U _ _ _ Ht) as U1.
  assert (HA : forall e l' a, pstep c free s p l i thr = Step e l' a ->
     (ectx l' = None \/ exists x x', ectx l = Some x /\ ectx l' = Some x' /\ x_cg x' = x_cg x) -> TI1 k s vs (Point p) l').
  { intros e l' a Hs Hx. cbn [ConcInv.TI1] in *. destruct (emplaces p); [|exact I]. destruct Hx as [->|(x & x' & E1 & E2 & E3)]; [exact I|].
    rewrite E1 in U1. rewrite E2, E3. destruct U1 as (n0 & Y1 & Y2 & Y3). exists n0. split; [exact Y1|]. split; [exact Y2|].
    intros Z i0 q Hq He. eapply ahead_ok; eauto. }
  remember (pstep c free s p l i thr) as out eqn:Hs. symmetry in Hs.
  destruct l; cbn [ConcInv.TI wf] in W, T; try contradiction; cbn [pstep] in Hs; change (arr (tb s)) with (A s) in Hs.
  - (* LEnter *) leaf Hs. exists s. split; [reflexivity|]. eapply cinv_pure; fin HA.
  - (* LHash *) destruct thr.
    + leaf Hs. exists s. split; [reflexivity|]. eapply cinv_pure; fin HA.
      * cbn. destruct p; exact I.
    + pose proof (look_init c k s p 0 G) as L0. unfold ConcInv.hk in L0. rewrite Eg in Hs.
      assert (forall l', (emplaces p = false -> l' = LScan (Ctx (hk s p) 0 (pb_init (p0 k (hk s p)))) all15 []) ->
                         (emplaces p = true -> l' = LCount (hk s p)) -> Step ENone l' None = out -> good k s vs t (Point p) out) as Z.
      { intros l' Z1 Z2 <-. cbn [good]. exists s. split; [reflexivity|]. destruct (emplaces p) eqn:Ee.
        - rewrite (Z2 eq_refl) in *. eapply cinv_pure; fin HA.
        - rewrite (Z1 eq_refl) in *. eapply cinv_pure; fin HA.
          + cbn [ConcInv.TI]. split; [exact L0|]. unfold all15. intros n Hn. apply in_seq in Hn. lia.
          + cbn [ConcInv.TI1]; rewrite Ee; exact I. }
      destruct p; unfold go in Hs; (eapply Z; [| |exact Hs]); cbn [emplaces]; intros; try discriminate; reflexivity.
  - (* LCount *) subst h. rewrite Eg in Hs.
    assert (N.to_nat (position (hk s p) (64 - k)) < length (cnt s))%nat as Lc.
    { rewrite (cb_cnt _ _ _ _ B), (ge_groups _ _ G). pose proof (position_lt (hk s p) k (hk_lt c s p) ltac:(pose proof (ge_k _ _ G); lia)). lia. }
    destruct (nth_error (cnt s) (N.to_nat (position (hk s p) (64 - k)))) as [n0|] eqn:En; [|apply nth_error_None in En; lia].
    leaf Hs. exists s. split; [reflexivity|]. eapply cinv_pure; fin HA.
    + cbn [ConcInv.TI]. split; [apply look_init; exact G|]. unfold all15. intros n Hn. apply in_seq in Hn. lia.
    + cbn [ConcInv.TI1 ectx]. rewrite W. exists n0. cbn [x_cg]. split; [exact En|]. split; [lia|]. intros _ i0 q Hq He. cbn [Ahead].
      destruct (pk_facts c k s vs i0 q B Hq) as (_ & _ & C3). apply ahead_init; [exact G|exact C3|]. eapply cell_group; [exact Fk|exact C3].
  - (* LScan *) destruct (thr && gives_up p) eqn:Egu.
    { leaf Hs. exists s. split; [reflexivity|]. eapply cinv_pure; fin HA.
      * cbn. destruct p; exact I. }
    destruct T as [T Hu]. pose proof (pb_lt _ _ _ _ _ _ T) as Lx. destruct u as [|u0 u].
    + assert (forall l', l' = LOvf x \/ l' = LLock x (in_order m) -> Step ENone l' None = out -> good k s vs t (Point p) out) as Z.
      { intros l' El' <-. cbn [good]. exists s. split; [reflexivity|]. destruct El' as [->| ->].
        - eapply cinv_pure; fin HA.
          + cbn [ConcInv.TI]. destruct T as [T1 T2 T3]. constructor; auto. intros n [].
        - eapply cinv_pure; fin HA.
          + cbn [ConcInv.TI]. destruct T as [T1 T2 T3]. constructor; auto. intros n Hn. apply in_order_in in Hn. apply T3, Hn. }
      destruct m; (eapply Z; [|exact Hs]); auto.
    + destruct (memb i (u0 :: u)) eqn:Em; [|subst out; exact I]. rewrite (geo_get k) in Hs by assumption. leaf Hs.
      exists s. split; [reflexivity|]. assert (i < 15)%nat as Li.
      { apply existsb_exists in Em as (y & Hy & Ey). apply Nat.eqb_eq in Ey as ->. apply Hu, Hy. }
      eapply cinv_pure; fin HA.
      * cbn [ConcInv.TI]. split.
        -- destruct T as [T1 T2 T3]. constructor; auto. intros n Hn. rewrite match_testbit in Hn; [|eapply geo_len; eassumption|exact Li].
           destruct (nth i (grp (A s) (x_g x)) 0 =? low_class (x_h x)) eqn:Eb; [|apply T3, Hn]. destruct Hn as [<-|Hn]; [|apply T3, Hn].
           split; [exact Li|]. apply N.eqb_eq in Eb. eapply (ge_cell _ _ G); [rewrite slot_div by exact Li; exact Lx|].
           rewrite ctrl_slot, Eb by exact Li. apply low_class_ge2.
        -- intros n Hn. apply in_remove in Hn as [Hn _]. apply Hu, Hn.
  - (* LLock *) destruct (free (x_g x) (exclusive p)) eqn:Ef; [|subst out; exact I]. leaf Hs.
    exists s. split; [reflexivity|]. eapply cinv_pure; fin HA.
    + right. right. exists (x_g x), (exclusive p). split; [reflexivity|]. apply Hfree, Ef.
  - (* LCheck *) pose proof (pb_lt _ _ _ _ _ _ T) as Lx. destruct m as [|n m].
    + leaf Hs. exists s. split; [reflexivity|]. eapply cinv_pure; fin HA.
    + rewrite (geo_get k) in Hs by assumption. destruct (lk_m _ _ _ _ _ _ T n ltac:(now left)) as [Ln Lc].
      destruct (b_is_occupied (grp (A s) (x_g x)) n) eqn:Eo; leaf Hs; exists s; (split; [reflexivity|]);
        (eapply cinv_pure; fin HA); try (left; reflexivity); try (eapply HA; [reflexivity|right; exists x, x; auto]).
      * cbn [ConcInv.TI]. split; [exact T|]. split; [exact Ln|]. destruct (nth_error (cells (A s)) (slot_index (x_g x) n)) as [[| |e]|] eqn:Ec.
        -- exfalso. pose proof (locked_slot c k s vs t _ _ (x_g x) _ n B Ht eq_refl eq_refl Ln Ec) as Z. rewrite ctrl_slot in Z by exact Ln.
           unfold b_is_occupied in Eo. rewrite Z in Eo. discriminate.
        -- destruct (cb_moved _ _ _ _ B _ Ec).
        -- exists e. reflexivity.
        -- apply nth_error_None in Ec. lia.
      * cbn [ConcInv.TI]. destruct T as [T1 T2 T3]. constructor; auto. intros n' Hn'. apply T3. now right.
  - (* LCmp *) destruct T as [T [Ln (e1 & E1)]]. assert (Shape k (A s)) as HS by (apply (fr_shape c); [exact Fk|apply nth_error_Some_lt in E1; lia]).
    rewrite (get_cell_eq k) in Hs by exact HS. rewrite E1 in Hs. destruct thr; [|destruct (keqf c (pid (tb s)) (pkey p) (fst e1)) eqn:Ek]; leaf Hs;
    exists s; (split; [reflexivity|]); (eapply cinv_pure; fin HA); try (left; reflexivity).
    + cbn. split; [destruct p; exact I|discriminate].
    + cbn [ConcInv.TI]. split; [|exists e1; auto]. destruct T as [T1 T2 T3]. constructor; auto. intros n' [<-|[]]. apply T3. now left.
    + cbn [ConcInv.TI]. destruct T as [T1 T2 T3]. constructor; auto. intros n' Hn'. apply T3. now right.
  - (* LCall *) destruct T as [T (e1 & E1 & Ek)]. assert (Shape k (A s)) as HS by (apply (fr_shape c); [exact Fk|apply nth_error_Some_lt in E1; lia]).
    rewrite (get_cell_eq k) in Hs by exact HS. rewrite E1 in Hs. pose proof (nth_error_Some_lt _ _ _ E1) as Li.
    destruct (lk_m _ _ _ _ _ _ T n ltac:(now left)) as [Ln _]. pose proof (pb_lt _ _ _ _ _ _ T) as Lx.
    set (i0 := slot_index (x_g x) n) in *. assert (i0 / 15 = x_g x)%nat as Di by (apply slot_div, Ln).
    destruct (cb_live _ _ _ _ B i0 e1 E1) as [Y1 Y2].
    assert (forall xx v r, (xx = true -> exclusive p = true) -> rfits p r -> r <> RNone ->
       Step (if xx : bool then ECell i0 (Live (fst e1, v)) else ENone) (LUnl (x_g x) (exclusive p) r) (Some (APoint r)) = out -> good k s vs t (Point p) out) as Z.
    { intros xx v r Hx Hr Hr' <-. cbn [good]. destruct xx.
      - specialize (Hx eq_refl). exists (with_arr s (upd_cell (A s) i0 (Live (fst e1, v)))). split; [apply (ap_cell k); assumption|].
        destruct (fo_cell k s i0 (Live (fst e1, v)) HS Li) as [F HS']. rewrite Di in F.
        assert (xg (Point p) (LCall x n) = Some (x_g x)) as Xg by (unfold xg; cbn [lock_of mode]; rewrite Hx; reflexivity).
        assert (length (elems (A (with_arr s (upd_cell (A s) i0 (Live (fst e1, v)))))) = length (elems (A s))) as El.
        { destruct (elems_swap (A s) i0 e1 (fst e1, v) E1) as (rest & P1 & P2). apply Permutation_length in P1, P2.
          change (elems (A (with_arr s (upd_cell (A s) i0 (Live (fst e1, v)))))) with (elems (upd_cell (A s) i0 (Live (fst e1, v)))).
          rewrite P1, P2. reflexivity. }
        eapply cinv_eff; fin HA; rewrite ?Xg.
        + exact F.
        + right. split; [exact HS'|]. destruct Fk as [[_ Fk]|[_ Fk]]; [|exact Fk]. exfalso. rewrite Fk in Li. cbn in Li. lia.
        + intros j Hj. injection Hj as Hj. cbn [A with_arr tb set_arr arr hid]. rewrite cells_upd_cell, ctrl_upd_cell, set_nth_err by exact Li.
          destruct (Nat.eqb_spec j i0) as [->|N]; [split; [exact Y1|exact Y2]|].
          destruct (nth_error (cells (A s)) j) as [[| |e2]|] eqn:Ej; auto.
          * left. destruct (own_same k s vs t _ _ j B Ht ltac:(rewrite Xg, Hj; reflexivity) Ej) as [Z|Z]; [exact Z|discriminate].
          * exact (cb_moved _ _ _ _ B j Ej).
          * exact (cb_live _ _ _ _ B j e2 Ej).
        + rewrite El. reflexivity.
        + rewrite El. left. cbn [adm]. cbn. lia.
        + cbn [wf]. auto.
        + intros j e2. cbn [A with_arr tb set_arr arr]. rewrite cells_upd_cell, set_nth_err by exact Li. destruct (Nat.eqb_spec j i0) as [->|N].
          * intros [= <-]. left. exists e1. auto.
          * intros Hj. left. exists e2. auto.
      - exists s. split; [reflexivity|]. eapply cinv_pure; fin HA.
        + cbn [wf]. auto. }
    unfold visit_slot in Hs. fold i0 in Hs.
    destruct p as [b1 k1 f1|k1 f1|b1 k1 v1 f1 f2].
    + destruct (f1 e1) as [v b]. eapply Z; [| | |exact Hs]; destruct b; cbn; auto; discriminate.
    + destruct (f1 e1) as [v [[|]|]].
      * (* erase *)
        leaf Hs. exists (with_arr s (upd_cell (A s) i0 Raw)). split; [apply (ap_cell k); assumption|].
        destruct (fo_cell k s i0 Raw HS Li) as [F HS']. rewrite Di in F.
        pose proof (elems_set_dead (A s) i0 e1 Raw E1 eq_refl) as P1. apply Permutation_length in P1. cbn [length] in P1.
        change (elems (upd_cell (A s) i0 Raw)) with (elems (A (with_arr s (upd_cell (A s) i0 Raw)))) in P1.
        eapply cinv_eff; fin HA.
        -- right. split; [exact HS'|]. destruct Fk as [[_ Fk]|[_ Fk]]; [|exact Fk]. exfalso. rewrite Fk in Li. cbn in Li. lia.
        -- intros j Hj. cbn in Hj. injection Hj as Hj. cbn [A with_arr tb set_arr arr hid]. rewrite cells_upd_cell, ctrl_upd_cell, set_nth_err by exact Li.
           destruct (Nat.eqb_spec j i0) as [->|N]; [right; reflexivity|].
           destruct (nth_error (cells (A s)) j) as [[| |e2]|] eqn:Ej; auto.
           ++ left. destruct (own_same k s vs t _ _ j B Ht ltac:(cbn; rewrite Hj; reflexivity) Ej) as [Y|Y]; [exact Y|discriminate].
           ++ exact (cb_moved _ _ _ _ B j Ej).
           ++ exact (cb_live _ _ _ _ B j e2 Ej).
        -- cbn [with_arr tb set_arr sz wt]. lia.
        -- left. cbn [with_arr tb set_arr ml adm]. lia.
        -- cbn [ConcInv.TI]. split; [|exact I]. split; [exact Ln|]. cbn [A with_arr tb set_arr arr]. rewrite cells_upd_cell. eapply self_err. exact E1.
        -- intros j e2. cbn [A with_arr tb set_arr arr]. rewrite cells_upd_cell, set_nth_err by exact Li. destruct (Nat.eqb_spec j i0) as [->|N]; [discriminate|].
           intros Hj. left. exists e2. auto.
      * eapply (Z true v); [| | |exact Hs]; cbn; auto; discriminate.
      * eapply (Z true v); [| | |exact Hs]; cbn; auto; discriminate.
    + destruct (f2 e1) as [v b]. eapply Z; [| | |exact Hs]; destruct b; cbn; auto; discriminate.
  - (* LMl *) destruct T as [[Ln Hr] _]. pose proof (nth_error_Some_lt _ _ _ Hr) as Li. pose proof (cell_group c k s _ Fk Li) as Lg. rewrite slot_div in Lg by exact Ln.
    rewrite (geo_get k) in Hs by assumption. leaf Hs. eapply ml_gen; eassumption.
  - (* LReset *) leaf Hs. eapply resets_gen; eassumption.
  - (* LDec *) destruct kt as [e|]; [|contradiction]. leaf Hs. eapply dec_gen; try eassumption; try reflexivity; try discriminate; [left; reflexivity|].
    cbn. destruct p; try discriminate. split; [exact I|discriminate].
  - (* LOvf *) pose proof (pb_lt _ _ _ _ _ _ T) as Lx. rewrite (geo_get k) in Hs by assumption. destruct (lk_pb _ _ _ _ _ _ T) as (j0 & L0 & E0).
    assert (not_found p x = out -> good k s vs t (Point p) out) as Z.
    { intros Z. destruct (emplaces p) eqn:Ep.
      - assert (Step ENone (LRes x) None = out) as Zo by (destruct p; try discriminate; exact Z). clear Hs Z; leaf Zo. exists s. split; [reflexivity|].
        eapply cinv_pure; fin HA. cbn [ConcInv.TI]. apply T.
      - assert (Step ENone (LDone RNone) None = out) as Zo by (destruct p; try discriminate; exact Z). clear Hs Z; leaf Zo. exists s. split; [reflexivity|].
        eapply cinv_pure; fin HA. cbn. destruct p; try discriminate; exact I. }
    destruct (b_is_not_overflowed (grp (A s) (x_g x)) (x_h x)); [exact (Z Hs)|].
    rewrite (ge_mask _ _ G) in Hs. rewrite E0 in Hs. rewrite pstate_next in Hs; [|apply G|exact L0].
    destruct (N.ltb_spec (N.of_nat (S j0)) (2 ^ k)) as [L1|L1]; [|exact (Z Hs)]. leaf Hs. exists s. split; [reflexivity|].
    eapply cinv_pure; fin HA.
    + cbn [ConcInv.TI]. split; [|unfold all15; intros n Hn; apply in_seq in Hn; lia].
      destruct T as [T1 T2 T3]. constructor; cbn [set_pb x_h x_pb]; auto; [exists (S j0); auto|intros n []].
    + eapply HA; [reflexivity|]. right. eexists _, _. split; [reflexivity|]. split; reflexivity.
  - (* LRes *) leaf Hs. exists (with_sz s (sz (tb s) + 1)). split; [reflexivity|]. pose proof (cb_sz _ _ _ _ B) as Es.
    eapply cinv_quiet; fin HA.
    + apply fo_sz.
    + cbn [with_sz tb set_sz sz wt]. lia.
    + destruct (N.leb_spec (sz (tb s) + 1) (ml (tb s))) as [L|L].
      * right. pose proof (wsum_set (adm (ml (tb s))) vs t _ (Some (Point p, LChk x (sz (tb s) + 1))) Ht) as S1. cbn [went adm] in S1.
        destruct (N.leb_spec (sz (tb s) + 1) (ml (tb s))); [|lia]. pose proof (wsum_le (adm (ml (tb s))) wt vs (fun l => adm_wt _ l)).
        cbn [with_sz tb set_sz ml]. lia.
      * left. cbn [with_sz tb set_sz ml adm]. destruct (N.leb_spec (sz (tb s) + 1) (ml (tb s))); lia.
    + cbn [ConcInv.TI]. split; [exact T|lia].
    + eapply HA; [reflexivity|right; exists x, x; auto].
  - (* LChk *) destruct T as [T Tn]. rewrite Eg in Hs. destruct (N.leb_spec s0 (ml (tb s))) as [L|L].
    + leaf Hs. exists s. split; [reflexivity|]. eapply cinv_pure; fin HA.
      * cbn [adm]. destruct (N.leb_spec s0 (ml (tb s))); lia.
      * cbn [ConcInv.TI]. constructor; cbn [set_pb x_h x_pb pb_init pb_pos].
        -- exact T.
        -- pose proof (cb_ml _ _ _ _ B). destruct Fk as [[_ Fk]|[Fk _]].
           ++ exfalso. rewrite Fk in H. unfold init_ml, capacity in H. cbn in H. lia.
           ++ rewrite (sh_cells _ _ Fk). pose proof (pow_nat_pos k). lia.
        -- apply position_lt; [rewrite T; apply hk_lt|pose proof (ge_k _ _ G); lia].
        -- left. exists O. split; [pose proof (pow2_pos k); lia|]. split; [|lia]. unfold pb_init, pstate.
           rewrite probe_pos_0; [reflexivity|]. apply position_lt; [rewrite T; apply hk_lt|pose proof (ge_k _ _ G); lia].
      * eapply HA; [reflexivity|]. right. eexists _, _. split; [reflexivity|]. split; reflexivity.
    + leaf Hs. exists s. split; [reflexivity|]. eapply cinv_pure; fin HA. cbn [adm]. lia.
  - (* LIns *) destruct (free (x_g x) true) eqn:Ef; [|subst out; exact I]. leaf Hs. exists s. split; [reflexivity|]. eapply cinv_pure; fin HA.
    + right. right. exists (x_g x), true. split; [reflexivity|]. apply Hfree, Ef.
    + eapply HA; [reflexivity|right; exists x, x; auto].
  - (* LAvail *) pose proof (insr_lt _ _ _ _ T) as Lx. assert (Shape k (A s)) as HS by (apply (fr_shape c); [exact Fk|apply T]).
    rewrite (geo_get k) in Hs by assumption. pose proof (geo_len _ _ _ G Lx) as Lb. destruct (available_bits _ Lb) as [Ab _].
    rewrite mask_loop_nil, Ab in Hs. destruct (tag_bits (N.eqb 0) (grp (A s) (x_g x))) as [|n r] eqn:Et; cbn [negb] in Hs.
    + leaf Hs. destruct (fo_mark k s (x_g x) (x_h x) (xg (Point p) (LAvail x)) HS Lx) as (F & HS' & Hm & Ec & Ek).
      exists (with_arr s (upd_grp (A s) (x_g x) (b_mark_overflow (grp (A s) (x_g x)) (x_h x)))). split; [apply (ap_mark k); assumption|].
      destruct (fo_mark k s (x_g x) (x_h x) None HS Lx) as (F0 & _).
      set (s' := with_arr s _) in *. assert (sz (tb s') = sz (tb s)) as E1 by reflexivity. assert (ml (tb s') = ml (tb s)) as E2 by reflexivity. clearbody s'.
      eapply cinv_quiet; fin HA.
      * apply (fr_arr k s); [exact Fk|exact HS'|apply T].
      * rewrite E1. reflexivity.
      * left. rewrite E2. cbn. lia.
      * cbn [ConcInv.TI]. split; [|exact Hm]. apply (ti_quiet k s _ (Point p) (LIns x) F0). exact T.
      * eapply HA; [reflexivity|right; exists x, x; auto].
    + rewrite (mask_loop_hd _ _ _ Ab) in Hs. leaf Hs. assert (In n (tag_bits (N.eqb 0) (grp (A s) (x_g x)))) as Hn by (rewrite Et; now left).
      apply filter_In in Hn as [Hn Hz]. apply in_seq in Hn. assert (n < 15)%nat as Ln by lia. apply N.eqb_eq in Hz. rewrite <- ctrl_slot in Hz by exact Ln.
      assert (slot_index (x_g x) n < length (cells (A s)))%nat as Li.
      { pose proof (sh_sent _ _ HS) as Z. rewrite (sh_cells _ _ HS) in *. assert (slot_index (x_g x) n <> 15 * N.to_nat (2 ^ k) - 1)%nat by congruence.
        unfold slot_index in *. lia. }
      assert (nth_error (cells (A s)) (slot_index (x_g x) n) = Some Raw) as Hr.
      { destruct (nth_error (cells (A s)) (slot_index (x_g x) n)) as [[| |e]|] eqn:Er; [reflexivity| | |apply nth_error_None in Er; lia].
        - destruct (cb_moved _ _ _ _ B _ Er).
        - destruct (cb_live _ _ _ _ B _ _ Er) as [Z _]. pose proof (low_class_ge2 (hash_of c (hid (tb s)) (fst e))). lia. }
      destruct (fo_byte k s (x_g x) n (low_class (x_h x)) HS Lx Ln Li) as [F HS'].
      exists (with_arr s (upd_grp (A s) (x_g x) (set_nth (grp (A s) (x_g x)) n (low_class (x_h x))))). split; [apply (ap_set k); assumption|].
      set (s' := with_arr s _) in *.
      assert (forall j, ctrl (A s') j = if Nat.eqb j (slot_index (x_g x) n) then low_class (x_h x) else ctrl (A s) j) as Ek by (intros j; apply (ctrl_set_byte k); assumption).
      eapply cinv_eff; fin HA.
      * apply (fr_arr k s); [exact Fk|exact HS'|apply T].
      * intros j Hj. change (cells (A s')) with (cells (A s)). rewrite Ek. destruct (Nat.eqb_spec j (slot_index (x_g x) n)) as [->|N].
        -- rewrite Hr. right. reflexivity.
        -- destruct (nth_error (cells (A s)) j) as [[| |e]|] eqn:Ej; auto.
           ++ destruct (own_same k s vs t _ _ j B Ht Hj Ej) as [E|E]; [left; exact E|discriminate].
           ++ exact (cb_moved _ _ _ _ B j Ej).
           ++ destruct (cb_live _ _ _ _ B j e Ej) as [E1 E2]. split; [exact E1|]. eapply reach_mono; [apply F|exact E2].
      * left. change (elems (A s')) with (elems (A s)). change (ml (tb s')) with (ml (tb s)). cbn [adm]. lia.
      * cbn [ConcInv.TI]. constructor.
        -- apply T.
        -- split; [exact Ln|exact Hr].
        -- rewrite Ek, Nat.eqb_refl. reflexivity.
        -- eapply reach_mono; [apply F|]. eapply insr_reach; [exact G|exact T].
      * intros j e Hj. left. exists e. auto.
      * eapply HA; [reflexivity|right; exists x, x; auto].
  - (* LSkip *) destruct T as [T Tm]. pose proof T as [T1 T2 T3 T4]. leaf Hs. exists s. split; [reflexivity|]. eapply cinv_pure; fin HA.
    + cbn [ConcInv.TI]. constructor; cbn [set_pb x_h x_pb].
      * exact T1.
      * exact T2.
      * cbn [pb_next fst pb_pos]. rewrite (ge_mask _ _ G). replace (2 ^ k - 1) with (N.ones k) by (rewrite N.ones_equiv; pose proof (pow2_pos k); lia).
        rewrite N.land_ones. apply N.mod_lt. pose proof (pow2_pos k). lia.
      * destruct T4 as [(j & L & E & M)|M]; [|right; exact M]. rewrite E, (ge_mask _ _ G), pstate_next; [|apply G|exact L]. cbn [fst].
        assert (marked s (x_h x) (N.to_nat (probe_pos k (p0 k (x_h x)) j))) as Mj by (unfold x_g in Tm; rewrite E in Tm; exact Tm).
        destruct (N.ltb_spec (N.of_nat (S j)) (2 ^ k)) as [L1|L1].
        -- left. exists (S j). split; [exact L1|]. split; [reflexivity|]. intros j' Hj'. destruct (Nat.eq_dec j' j) as [->|]; [exact Mj|apply M; lia].
        -- right. intros g Lg. destruct (probe_covers k (p0 k (x_h x)) g) as (j' & L' & E'); [lia|].
           replace g with (N.to_nat (probe_pos k (p0 k (x_h x)) j')) by lia. destruct (Nat.eq_dec j' j) as [->|]; [exact Mj|apply M; lia].
    + eapply HA; [reflexivity|]. right. eexists _, _. split; [reflexivity|]. split; reflexivity.
  - (* LCnt *) pose proof (cl_h _ _ _ _ _ _ T) as Eh. cbn [nowrap] in Hnw. rewrite Eg, Eh in Hs, Hnw.
    destruct (nth_error (cnt s) (N.to_nat (position (hk s p) (64 - k)))) as [m|] eqn:En.
    2:{ exfalso. apply nth_error_None in En. rewrite (cb_cnt _ _ _ _ B), (ge_groups _ _ G) in En.
        pose proof (position_lt (hk s p) k (hk_lt c s p) ltac:(pose proof (ge_k _ _ G); lia)). lia. }
    leaf Hs. specialize (Hnw m eq_refl). exists (MkSh (tb s) (set_nth (cnt s) (N.to_nat (position (hk s p) (64 - k))) (m + 1))).
    split; [cbn [apply]; rewrite En; reflexivity|].
    cbn [ConcInv.TI1 ectx] in U1. rewrite W in U1. destruct U1 as (n0 & Y1 & Y2 & Y3). unfold p0 in Y1. assert (n0 = m) by congruence. subst n0.
    destruct (N.eqb_spec (m mod 2 ^ 32) (x_cg x mod 2 ^ 32)) as [E|N]; cbn [negb].
    + apply claim_gen; [exact CI|exact Ht|exact En| |exact W].
      assert (m = x_cg x + (m - x_cg x)) as Z by lia. set (d := m - x_cg x) in *. rewrite Z in E.
      enough (d = 0) by lia. destruct (N.eq_dec d 0) as [|Nd]; [assumption|exfalso].
      assert (2 ^ 32 <> 0) as Nz by (apply N.pow_nonzero; lia).
      pose proof (N.div_mod (x_cg x) (2 ^ 32) Nz) as D1. pose proof (N.div_mod (x_cg x + d) (2 ^ 32) Nz) as D2.
      rewrite E in D2. assert (d = 2 ^ 32 * ((x_cg x + d) / 2 ^ 32 - x_cg x / 2 ^ 32)) as Dd by lia.
      set (z := (x_cg x + d) / 2 ^ 32 - x_cg x / 2 ^ 32) in *. assert (z = 0 \/ 1 <= z) as [->|Lz] by lia; [lia|].
      assert (2 ^ 32 * 1 <= 2 ^ 32 * z) by (apply N.mul_le_mono_l; exact Lz). lia.
    + eapply cinv_quiet; fin HA.
      * apply fo_count. exact En.
      * left. cbn [tb adm]. lia.
      * cbn [ConcInv.TI]. split; [|reflexivity]. apply T.
  - (* LCons *) destruct p as [| |b1 k1 v1 f1 f2]; try discriminate. pose proof T as [T1 [Ln Hr] T3 T4]. pose proof (nth_error_Some_lt _ _ _ Hr) as Li.
    assert (Shape k (A s)) as HS by (apply (fr_shape c); [exact Fk|lia]). rewrite (get_cell_eq k) in Hs by exact HS. rewrite Hr in Hs. destruct thr.
    + leaf Hs. exists s. split; [reflexivity|]. eapply cinv_pure; fin HA. cbn [ConcInv.TI]. split; [split; assumption|exact I].
    + destruct (f1 (k1, v1)) as [v' b] eqn:Ef. set (r := match b with Some _ => RIns | None => RThrew end) in Hs. leaf Hs.
      set (i0 := slot_index (x_g x) n) in *. assert (i0 / 15 = x_g x)%nat as Di by (apply slot_div, Ln).
      exists (with_arr s (upd_cell (A s) i0 (Live (k1, v')))). split; [apply (ap_cell k); assumption|].
      destruct (fo_cell k s i0 (Live (k1, v')) HS Li) as [F HS']. rewrite Di in F. set (s' := with_arr s _) in *.
      pose proof (elems_set_live (A s) i0 (k1, v') Hr) as P1. apply Permutation_length in P1. cbn [length] in P1.
      change (elems (upd_cell (A s) i0 (Live (k1, v')))) with (elems (A s')) in P1.
      assert (cells (A s') = set_nth (cells (A s)) i0 (Live (k1, v'))) as Ec by reflexivity.
      eapply cinv_eff; fin HA.
      * apply (fr_arr k s); [exact Fk|exact HS'|lia].
      * intros j Hj. rewrite Ec, set_nth_err by exact Li. change (ctrl (A s') j) with (ctrl (A s) j). destruct (Nat.eqb_spec j i0) as [->|N].
        -- cbn [fst]. unfold ConcInv.hk in T1. cbn [pkey] in T1. change (hid (tb s')) with (hid (tb s)). rewrite <- T1, Di. split; [exact T3|]. eapply reach_mono; [apply F|exact T4].
        -- destruct (nth_error (cells (A s)) j) as [[| |e]|] eqn:Ej; auto.
           ++ destruct (own_same k s vs t _ _ j B Ht Hj Ej) as [E|E]; [left; exact E|]. cbn in E. injection E as E. fold i0 in E. congruence.
           ++ exact (cb_moved _ _ _ _ B j Ej).
           ++ destruct (cb_live _ _ _ _ B j e Ej) as [E1 E2]. split; [exact E1|]. eapply reach_mono; [apply F|exact E2].
      * change (sz (tb s')) with (sz (tb s)). cbn [wt]. lia.
      * left. change (ml (tb s')) with (ml (tb s)). cbn [adm]. lia.
      * cbn [wf]. unfold r. destruct b; cbn; split; try exact I; discriminate.
      * intros j e. rewrite Ec, set_nth_err by exact Li. destruct (Nat.eqb_spec j i0) as [->|N].
        -- intros [= <-]. right. exists (PEmplace b1 k1 v1 f1 f2), x, n. auto.
        -- intros Hj. left. exists e. auto.
  - (* LUndo *) leaf Hs. destruct T as [T1 T2]. eapply reset_gen; try eassumption; try reflexivity; try discriminate.
    intros s' Eh _. cbn [ConcInv.TI]. destruct q; cbn in *; auto. unfold ConcInv.hk in *. congruence.
  - (* LUndoUnl *) leaf Hs. exists s. split; [reflexivity|]. eapply cinv_pure; fin HA.
  - (* LFail *) leaf Hs. eapply dec_gen; try eassumption; destruct q; try reflexivity; try discriminate; try (right; left; reflexivity); try exact W; try exact T.
    destruct p; try discriminate; exact I.
  - (* LOut *) leaf Hs. exists s. split; [reflexivity|]. eapply cinv_pure; fin HA.
  - (* LUnl *) leaf Hs. destruct W as [W _]. exists s. split; [reflexivity|]. eapply cinv_pure; fin HA.
  - (* LDone *) leaf Hs. exists s. split; [reflexivity|]. eapply cinv_pure; fin HA.
  - destruct (Nr r eq_refl).
Qed.
End CStep2.
