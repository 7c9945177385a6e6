(** Invariant of one concurrent container and of the threads operating on it. *)
From Coq Require Import NArith Bool List Arith Lia ZifyBool ZifyNat ZifyN Permutation.
From Verif Require Import FloatModel SizeModel SizeProofs GroupModel GroupSpec FoaModel FoaGroup FoaBase FoaFind FoaArr FoaInv FoaSpec ConcSpec ConcModel.
Import ListNotations.
Local Open Scope N_scope.

Notation set_nth := FoaModel.set_nth.

Section CInv.
Context {K V : Type} (c : Cfg K V).
Notation arrays := (arrays K V).
Notation table := (table K V).
Notation Sh := (@Sh K V).
Notation pop := (pop K V). Notation cop := (cop K V). Notation loc := (@loc K V). Notation cres := (cres K V).
Notation ent := (option (cop * loc)).

(** *** arrays *)
Definition A (s : Sh) : arrays := arr (tb s).
Record Geo (k : N) (a : arrays) : Prop := {
  ge_k : 1 <= k <= 60;
  ge_gsi : a_gsi a = 64 - k;
  ge_mask : a_mask a = 2 ^ k - 1;
  ge_groups : length (a_groups a) = N.to_nat (2 ^ k);
  ge_bytes : Forall (fun g => length g = 16%nat) (a_groups a);
  ge_cell : forall i, (i / 15 < N.to_nat (2 ^ k))%nat -> 2 <= ctrl a i -> (i < length (cells a))%nat }.
Definition Fr (k : N) (a : arrays) : Prop := (k = 1 /\ a = dummy_arrays (a_owner a)) \/ (Shape k a /\ 2 ^ k <= gmax c).

Lemma shape_geo k a : Shape k a -> Geo k a.
Proof.
  intros H. constructor; try apply H. intros i Hi Hc. destruct (Nat.lt_ge_cases i (length (cells a))) as [L|L]; [exact L|exfalso].
  enough (i = length (cells a)) by (subst i; pose proof (sh_sent _ _ H); lia). rewrite (sh_cells _ _ H) in *. pose proof (pow_nat_pos k).
  assert (i < 15 * N.to_nat (2 ^ k))%nat; [|lia]. pose proof (Nat.div_mod i 15). pose proof (mod15 i). nia.
Qed.
Lemma dummy_geo al : Geo 1 (@dummy_arrays K V al).
Proof.
  constructor; try reflexivity; [lia|repeat constructor|]. intros i Hi. change (N.to_nat (2 ^ 1)) with 2%nat in Hi. unfold ctrl.
  pose proof (mod15 i). assert (grp (@dummy_arrays K V al) (i / 15) = b_dummy) as -> by (destruct (i / 15)%nat as [|[|x]]; [reflexivity|reflexivity|lia]).
  set (n := (i mod 15)%nat) in *. clearbody n. do 15 (destruct n as [|n]; [cbn; lia|]). lia.
Qed.
Lemma fr_geo k a : Fr k a -> Geo k a.
Proof. intros [[-> ->]|[H _]]; [apply dummy_geo|apply shape_geo, H]. Qed.
Lemma fr_shape k a : Fr k a -> (0 < length (cells a))%nat -> Shape k a.
Proof. intros [[_ ->]|[H _]] L; [cbn in L; lia|exact H]. Qed.
Lemma geo_get k a g : Geo k a -> (g < N.to_nat (2 ^ k))%nat -> get_group a g = Some (grp a g).
Proof. intros H Hg. unfold get_group, grp. apply nth_error_nth'. rewrite (ge_groups _ _ H). exact Hg. Qed.
Lemma geo_len k a g : Geo k a -> (g < N.to_nat (2 ^ k))%nat -> length (grp a g) = 16%nat.
Proof.
  intros H Hg. pose proof (ge_bytes _ _ H) as F. rewrite Forall_forall in F. apply F. apply nth_In. rewrite (ge_groups _ _ H). exact Hg.
Qed.
Lemma ctrl_slot (a : arrays) g n : (n < 15)%nat -> ctrl a (slot_index g n) = nth n (grp a g) 0.
Proof. intros H. unfold ctrl. rewrite slot_div, slot_mod by exact H. reflexivity. Qed.
Lemma match_testbit g h n : length g = 16%nat -> (n < 15)%nat -> N.testbit (b_match g h) (N.of_nat n) = (nth n g 0 =? low_class h).
Proof.
  intros Hg Hn. unfold b_match. destruct (GroupProofs.reduced_facts h) as (_ & _ & _ & _ & E). rewrite E.
  rewrite GroupProofs.cmpeq_repeat by lia.
  destruct (mask15_bits (map (fun a => a =? low_class h) g) _ ltac:(rewrite map_length; exact Hg) eq_refl) as (_ & _ & T).
  rewrite T, (GroupProofs.nth_map_lt _ g n false 0) by lia. replace (n <? 15)%nat with true by (symmetry; apply Nat.ltb_lt; exact Hn).
  apply andb_true_r.
Qed.

(** *** positions *)
Definition infl (l : loc) : option nat :=
  match l with LCnt x n | LCons x n => Some (slot_index (x_g x) n) | LUndo g n _ | LMl g n _ | LReset g n _ => Some (slot_index g n) | _ => None end.
(** elements counted by size but not in a slot *)
Definition wt (l : loc) : N :=
  match l with
  | LChk _ _ | LIns _ | LAvail _ | LSkip _ | LCnt _ _ | LCons _ _ | LUndo _ _ _ | LUndoUnl _ _ | LFail _ | LMl _ _ _ | LReset _ _ _ | LDec _ _ => 1
  | _ => 0 end.
(** admitted insertions, and removals that have not lowered ml yet *)
Definition adm (m : N) (l : loc) : N :=
  match l with
  | LChk _ n => if n <=? m then 1 else 0
  | LIns _ | LAvail _ | LSkip _ | LCnt _ _ | LCons _ _ | LMl _ _ _ => 1
  | _ => 0 end.
Definition went (f : loc -> N) (x : ent) : N := match x with Some (_, l) => f l | None => 0 end.
Fixpoint wsum (f : loc -> N) (vs : list ent) : N := match vs with [] => 0 | x :: r => went f x + wsum f r end.

Lemma wsum_app f v w : wsum f (v ++ w) = wsum f v + wsum f w.
Proof. induction v as [|x v IH]; cbn [app wsum]; [reflexivity|]. rewrite IH. lia. Qed.
Lemma wsum_set f vs t x y : nth_error vs t = Some x -> wsum f (set_nth vs t y) + went f x = wsum f vs + went f y.
Proof.
  intros H. destruct (set_nth_split vs t y x H) as (l1 & l2 & -> & _ & ->). rewrite !wsum_app. cbn [wsum]. lia.
Qed.
Lemma wsum_le f g vs : (forall l, f l <= g l) -> wsum f vs <= wsum g vs.
Proof. intros H. induction vs as [|[[o l]|] vs IH]; cbn [wsum went]; [lia| |exact IH]. pose proof (H l). lia. Qed.
Lemma wsum_in f vs t o l : nth_error vs t = Some (Some (o, l)) -> f l <= wsum f vs.
Proof. intros H. destruct (set_nth_split vs t None _ H) as (l1 & l2 & -> & _). rewrite wsum_app. cbn [wsum went]. lia. Qed.
Lemma adm_wt m l : adm m l <= wt l.
Proof. destruct l; cbn [adm wt]; try lia. destruct (s <=? m); lia. Qed.
Lemma adm_mono m m' l : m' <= m -> adm m' l <= adm m l.
Proof. intros H. destruct l; cbn [adm]; try lia. destruct (N.leb_spec s m'), (N.leb_spec s m); lia. Qed.

(** *** what each position knows *)
Definition hk (s : Sh) (p : pop) : N := hash_of c (hid (tb s)) (pkey p).
Definition p0 (k h : N) : N := position h (64 - k).
Record Look (k : N) (s : Sh) (p : pop) (x : ctx) (m : list nat) : Prop := {
  lk_h : x_h x = hk s p;
  lk_pb : exists j, N.of_nat j < 2 ^ k /\ x_pb x = pstate k (p0 k (x_h x)) j;
  lk_m : forall n, In n m -> (n < 15)%nat /\ (slot_index (x_g x) n < length (cells (A s)))%nat }.
Definition marked (s : Sh) (h : N) (g : nat) : Prop := N.testbit (ovf (A s) g) (h mod 8) = true.
Record Insr (k : N) (s : Sh) (p : pop) (x : ctx) : Prop := {
  ir_h : x_h x = hk s p;
  ir_room : (0 < length (cells (A s)))%nat;
  ir_pos : pb_pos (x_pb x) < 2 ^ k;
  ir_mark : (exists j, N.of_nat j < 2 ^ k /\ x_pb x = pstate k (p0 k (x_h x)) j /\
               forall j', (j' < j)%nat -> marked s (x_h x) (N.to_nat (probe_pos k (p0 k (x_h x)) j'))) \/
            (forall g, (g < N.to_nat (2 ^ k))%nat -> marked s (x_h x) g) }.
Definition raw_at (s : Sh) (g n : nat) : Prop := (n < 15)%nat /\ nth_error (cells (A s)) (slot_index g n) = Some Raw.
Definition live_at (s : Sh) (g n : nat) : Prop := (n < 15)%nat /\ exists e, nth_error (cells (A s)) (slot_index g n) = Some (Live e).
Definition why_ok (s : Sh) (p : pop) (q : why) : Prop := match q with QRestart h => h = hk s p | _ => True end.
Record Claim (k : N) (s : Sh) (p : pop) (x : ctx) (n : nat) : Prop := {
  cl_h : x_h x = hk s p;
  cl_raw : raw_at s (x_g x) n;
  cl_ctrl : ctrl (A s) (slot_index (x_g x) n) = low_class (x_h x);
  cl_reach : Reach k (A s) (x_h x) (x_g x) }.
Definition Rest (s : Sh) (g : nat) (ms : list nat) : Prop := NoDup ms /\ forall n, In n ms -> live_at s g n.
Definition kont_ok (s : Sh) (g n : nat) (kt : @kont K V) : Prop := match kt with KP _ => True | KB ms _ => ~ In n ms /\ Rest s g ms end.
Definition TI (k : N) (s : Sh) (o : cop) (l : loc) : Prop :=
  match o with
  | Point p =>
    match l with
    | LCount h => h = hk s p
    | LScan x u m => Look k s p x m /\ forall n, In n u -> (n < 15)%nat
    | LLock x m | LCheck x m => Look k s p x m
    | LCmp x n m => Look k s p x (n :: m) /\ live_at s (x_g x) n
    | LCall x n => Look k s p x [n] /\ exists e, nth_error (cells (A s)) (slot_index (x_g x) n) = Some (Live e) /\ keqf c (pid (tb s)) (pkey p) (fst e) = true
    | LOvf x => Look k s p x []
    | LRes x => x_h x = hk s p
    | LChk x n => x_h x = hk s p /\ 1 <= n
    | LIns x | LAvail x => Insr k s p x
    | LSkip x => Insr k s p x /\ marked s (x_h x) (x_g x)
    | LCnt x n | LCons x n => Claim k s p x n
    | LUndo g n q => raw_at s g n /\ why_ok s p q
    | LUndoUnl _ q | LFail q => why_ok s p q
    | LMl g n kt | LReset g n kt => raw_at s g n /\ kont_ok s g n kt
    | _ => True
    end
  | Bulk _ _ _ =>
    match l with
    | BGrp g _ => (g <= N.to_nat (2 ^ k))%nat
    | BMask g _ => (g < N.to_nat (2 ^ k))%nat /\ (0 < length (cells (A s)))%nat
    | BElem g ms _ => (g < N.to_nat (2 ^ k))%nat /\ (0 < length (cells (A s)))%nat /\ Rest s g ms
    | LMl g n kt | LReset g n kt => (g < N.to_nat (2 ^ k))%nat /\ raw_at s g n /\ kont_ok s g n kt
    | LDec g (KB ms _) => (g < N.to_nat (2 ^ k))%nat /\ (0 < length (cells (A s)))%nat /\ Rest s g ms
    | _ => True
    end
  | SizeOf => match l with SSz m => ml (tb s) <= m | _ => True end
  end.

(** which positions an operation can be at, and what its accumulated results say *)
Definition emplaces (p : pop) : bool := match p with PEmplace _ _ _ _ _ => true | _ => false end.
Definition erasing (p : pop) : bool := match p with PErase _ _ => true | _ => false end.
Definition rfits (p : pop) (r : cres) : Prop :=
  match p, r with
  | PVisit _ _ _, (RNone | RSeen _ | RThrew) => True
  | PErase _ _, (RNone | RErased _ | RKept _ | RThrew) => True
  | PEmplace _ _ _ _ _, (RIns | RSeen _ | RThrew) => True
  | _, _ => False end.
Definition acc_ok (md : bmode) (f : nat -> ufun K V) (acc : list ((K * V) * bool)) : Prop :=
  forall n e b, nth_error acc n = Some (e, b) -> goes_on md (snd (f n e)) = true.
Definition wf (o : cop) (l : loc) : Prop :=
  match o with
  | Point p =>
    match l with
    | LEnter | LHash | LScan _ _ _ | LLock _ _ | LCheck _ _ | LCmp _ _ _ | LCall _ _ | LOvf _ => True
    | LCount _ | LRes _ | LChk _ _ | LIns _ | LAvail _ | LSkip _ | LCnt _ _ | LCons _ _ | LUndo _ _ _ | LUndoUnl _ _ | LFail _ | LOut | LFull => emplaces p = true
    | LMl _ _ (KP _) | LReset _ _ (KP _) | LDec _ (KP _) => erasing p = true
    | LUnl _ _ r => rfits p r /\ r <> RNone
    | LDone r | LRet r => rfits p r
    | _ => False
    end
  | Bulk x md f =>
    match l with
    | LEnter => True
    | BGrp _ acc | BMask _ acc | BElem _ _ acc => acc_ok md f acc
    | LMl _ _ (KB _ acc) | LReset _ _ (KB _ acc) | LDec _ (KB _ acc) => md = BErase /\ acc_ok md f acc
    | LUnl _ _ (RBulk acc st) | LDone (RBulk acc st) | LRet (RBulk acc st) => bulk_ends md f acc st
    | _ => False
    end
  | SizeOf => match l with LEnter | SMl | SSz _ | LDone (RSize _) | LRet (RSize _) => True | _ => False end
  end.

(** *** the container *)
Definition holds (vs : list ent) (t : nat) (g : nat) (x : bool) : Prop := exists o l, nth_error vs t = Some (Some (o, l)) /\ lock_of o l = Some (g, x).
Definition frees (vs : list ent) (t g : nat) (x : bool) : Prop := forall t' x', t' <> t -> holds vs t' g x' -> x = false /\ x' = false.
Record CBase (k : N) (s : Sh) (vs : list ent) : Prop := {
  cb_compat : compat c (hid (tb s)) (pid (tb s));
  cb_owner : a_owner (A s) = aid (tb s);
  cb_fr : Fr k (A s);
  cb_cnt : length (cnt s) = length (a_groups (A s));
  cb_ml : ml (tb s) <= init_ml (A s);
  cb_live : forall i e, nth_error (cells (A s)) i = Some (Live e) ->
     ctrl (A s) i = low_class (hash_of c (hid (tb s)) (fst e)) /\ Reach k (A s) (hash_of c (hid (tb s)) (fst e)) (i / 15);
  cb_moved : forall i, nth_error (cells (A s)) i <> Some Moved;
  cb_raw : forall i, nth_error (cells (A s)) i = Some Raw -> ctrl (A s) i = 0 \/ exists t o l, nth_error vs t = Some (Some (o, l)) /\ infl l = Some i;
  cb_lock : forall t t' g x x', t <> t' -> holds vs t g x -> holds vs t' g x' -> x = false /\ x' = false;
  cb_sz : sz (tb s) = N.of_nat (length (elems (A s))) + wsum wt vs;
  cb_adm : N.of_nat (length (elems (A s))) + wsum (adm (ml (tb s))) vs <= ml (tb s);
  cb_ti : forall t o l, nth_error vs t = Some (Some (o, l)) -> wf o l /\ TI k s o l }.

(** keys that are in a slot, or about to be *)
Definition Pk (s : Sh) (vs : list ent) (i : nat) (q : K) : Prop :=
  (exists e, nth_error (cells (A s)) i = Some (Live e) /\ q = fst e) \/
  (exists t p x n, nth_error vs t = Some (Some (Point p, LCons x n)) /\ slot_index (x_g x) n = i /\ q = pkey p).
(** the slots a lookup has not dealt with yet *)
Definition AheadAt (k : N) (x : ctx) (ns : list nat) (i : nat) : Prop :=
  exists j, N.of_nat j < 2 ^ k /\ probe_pos k (p0 k (x_h x)) j = N.of_nat (i / 15) /\
    (pb_step (x_pb x) < N.of_nat j \/ (pb_step (x_pb x) = N.of_nat j /\ In (i mod 15)%nat ns)).
Definition Ahead (k : N) (l : loc) (i : nat) : Prop :=
  match l with
  | LScan x u m => AheadAt k x (u ++ m) i
  | LLock x m | LCheck x m => AheadAt k x m i
  | LCmp x n m => AheadAt k x (n :: m) i
  | LOvf x => AheadAt k x [] i
  | LRes _ | LChk _ _ | LIns _ | LAvail _ | LSkip _ | LCnt _ _ => False
  | LDone RNone | LRet RNone => False
  | _ => True
  end.
Definition ectx (l : loc) : option ctx :=
  match l with
  | LScan x _ _ | LLock x _ | LCheck x _ | LCmp x _ _ | LOvf x | LRes x | LChk x _ | LIns x | LAvail x | LSkip x | LCnt x _ => Some x
  | _ => None end.
(** an insertion whose counter has not moved has no equivalent key behind it *)
Definition TI1 (k : N) (s : Sh) (vs : list ent) (o : cop) (l : loc) : Prop :=
  match o with
  | Point p => if emplaces p then
      match ectx l with
      | Some x => exists n0, nth_error (cnt s) (N.to_nat (p0 k (hk s p))) = Some n0 /\ x_cg x <= n0 /\
          (n0 = x_cg x -> forall i q, Pk s vs i q -> keqf c (pid (tb s)) (pkey p) q = true -> Ahead k l i)
      | None => True
      end else True
  | _ => True
  end.
Record CUniq (k : N) (s : Sh) (vs : list ent) : Prop := {
  cu_uniq : forall i j q q', Pk s vs i q -> Pk s vs j q' -> keqf c (pid (tb s)) q q' = true -> i = j;
  cu_ti : forall t o l, nth_error vs t = Some (Some (o, l)) -> TI1 k s vs o l }.
Definition CInv (k : N) (s : Sh) (vs : list ent) : Prop := CBase k s vs /\ CUniq k s vs.

(** *** steps of one thread, seen by the others *)
Record Foreign (s s' : Sh) (G : option nat) : Prop := {
  fo_h : hid (tb s') = hid (tb s); fo_p : pid (tb s') = pid (tb s); fo_a : aid (tb s') = aid (tb s);
  fo_own : a_owner (A s') = a_owner (A s); fo_cap : capacity (A s') = capacity (A s);
  fo_groups : length (a_groups (A s')) = length (a_groups (A s));
  fo_len : length (cells (A s')) = length (cells (A s));
  fo_slot : forall i, G <> Some (i / 15)%nat -> nth_error (cells (A s')) i = nth_error (cells (A s)) i /\ ctrl (A s') i = ctrl (A s) i;
  fo_ovf : forall g j, N.testbit (ovf (A s) g) j = true -> N.testbit (ovf (A s') g) j = true;
  fo_cntl : length (cnt s') = length (cnt s);
  fo_cnt : forall g n, nth_error (cnt s) g = Some n -> exists n', nth_error (cnt s') g = Some n' /\ n <= n';
  fo_ml : ml (tb s') <= ml (tb s) }.
Lemma foreign_refl s G : Foreign s s G.
Proof. constructor; try reflexivity; auto. intros g n H. exists n. split; [exact H|lia]. Qed.

Lemma lock_group o l i k s : TI k s o l -> wf o l -> infl l = Some i -> lock_of o l = Some ((i / 15)%nat, true).
Proof.
  intros T W H. destruct o as [p|x md f|]; destruct l; cbn [infl] in H; try discriminate; injection H as <-; cbn [lock_of TI wf] in *; try contradiction.
  1-2: destruct T as [[B _] _]; rewrite slot_div by exact B; reflexivity.
  1-2: destruct T as [_ [B _] _ _]; rewrite slot_div by exact B; reflexivity.
  1: destruct T as [[B _] _]; rewrite slot_div by exact B; reflexivity.
  all: destruct T as (_ & [B _] & _); rewrite slot_div by exact B; reflexivity.
Qed.

Lemma ti_foreign k s s' G o l : Foreign s s' G -> TI k s o l ->
  (forall g x, lock_of o l = Some (g, x) -> G <> Some g) -> TI k s' o l.
Proof.
  intros F T L. pose proof F as [].
  assert (forall p, hk s' p = hk s p) as Hh by (intros p; unfold hk; congruence).
  assert (forall p x m, Look k s p x m -> Look k s' p x m) as Hl.
  { intros p x m [B1 B2 B3]. constructor; [rewrite Hh; exact B1|exact B2|]. intros n Hn. rewrite fo_len0. auto. }
  assert (forall g, G <> Some g -> forall n, (n < 15)%nat -> nth_error (cells (A s')) (slot_index g n) = nth_error (cells (A s)) (slot_index g n)) as Hs.
  { intros g Hg n Hn. apply fo_slot0. rewrite slot_div by exact Hn. exact Hg. }
  assert (forall h g, marked s h g -> marked s' h g) as Hm by (intros h g; apply fo_ovf0).
  assert (forall p x, Insr k s p x -> Insr k s' p x) as Hi.
  { intros p x [B1 B2 B3 B4]. constructor; [rewrite Hh; exact B1|lia|exact B3|]. destruct B4 as [(j & Z1 & Z2 & Z3)|B4]; [left; exists j; auto|right; auto]. }
  assert (forall p q, why_ok s p q -> why_ok s' p q) as Hq by (intros p [h| |]; cbn; rewrite ?Hh; auto).
  assert (forall g n, G <> Some g -> raw_at s g n -> raw_at s' g n) as Hr.
  { intros g n Hg [B1 B2]. split; [exact B1|]. rewrite Hs by assumption. exact B2. }
  assert (forall g n, G <> Some g -> live_at s g n -> live_at s' g n) as Hv.
  { intros g n Hg [B1 B2]. split; [exact B1|]. rewrite Hs by assumption. exact B2. }
  assert (forall g ms, G <> Some g -> Rest s g ms -> Rest s' g ms) as HR by (intros g ms Hg [B1 B2]; split; auto).
  assert (forall g n kt, G <> Some g -> kont_ok s g n kt -> kont_ok s' g n kt) as Hk.
  { intros g n [e|ms acc] Hg; cbn; [auto|]. intros [B1 B2]. auto. }
  assert (forall p x n, G <> Some (x_g x) -> Claim k s p x n -> Claim k s' p x n) as HC.
  { intros p x n Hg [B1 B2 B3 B4]. constructor; [rewrite Hh; exact B1|auto| |].
    - destruct B2 as [B2 _]. rewrite (proj2 (fo_slot0 (slot_index (x_g x) n) ltac:(rewrite slot_div by exact B2; exact Hg))). exact B3.
    - eapply reach_mono; [exact fo_ovf0|exact B4]. }
  destruct o as [p|x md f|]; [| |destruct l; cbn [TI] in *; auto; lia].
  - destruct l; cbn [TI lock_of] in *; auto; try (rewrite ?Hh; exact T).
    + destruct T; split; auto.
    + destruct T as [T1 T2]. split; [auto|]. apply Hv; [eapply L; reflexivity|exact T2].
    + destruct T as [T1 (e & T2 & T3)]. split; [auto|]. exists e. rewrite fo_p0. split; [|exact T3]. rewrite Hs; [exact T2|eapply L; reflexivity|].
      apply (lk_m _ _ _ _ _ T1). now left.
    + destruct T as [T1 T2]. split; [apply Hr|apply Hk]; auto; eapply L; reflexivity.
    + destruct T as [T1 T2]. split; [apply Hr|apply Hk]; auto; eapply L; reflexivity.
    + destruct T; split; auto.
    + apply HC; [eapply L; reflexivity|exact T].
    + apply HC; [eapply L; reflexivity|exact T].
    + destruct T as [T1 T2]. split; [apply Hr|]; auto; eapply L; reflexivity.
  - destruct l; cbn [TI lock_of] in *; auto.
    + destruct T as (T0 & T1 & T2). split; [exact T0|]. split; [apply Hr|apply Hk]; auto; eapply L; reflexivity.
    + destruct T as (T0 & T1 & T2). split; [exact T0|]. split; [apply Hr|apply Hk]; auto; eapply L; reflexivity.
    + destruct kt as [e|ms acc]; [exact T|]. destruct T as (T0 & T1 & T2). split; [exact T0|]. split; [lia|]. apply HR; [eapply L; reflexivity|exact T2].
    + destruct T. split; [assumption|lia].
    + destruct T as (T0 & T1 & T2). split; [exact T0|]. split; [lia|]. apply HR; [eapply L; reflexivity|exact T2].
Qed.

Definition xg (o : cop) (l : loc) : option nat := match lock_of o l with Some (g, true) => Some g | _ => None end.
Lemma others_err {X} (vs : list X) t t' y : t' <> t -> nth_error (set_nth vs t y) t' = nth_error vs t'.
Proof.
  intros H. destruct (Nat.lt_ge_cases t (length vs)) as [L|L].
  - rewrite set_nth_err by exact L. destruct (Nat.eqb_spec t' t); [contradiction|reflexivity].
  - unfold FoaModel.set_nth. rewrite firstn_all2, skipn_all2, app_nil_r by lia. reflexivity.
Qed.
Lemma self_err {X} (vs : list X) t x y : nth_error vs t = Some x -> nth_error (set_nth vs t y) t = Some y.
Proof. intros H. rewrite set_nth_err by (apply nth_error_Some; congruence). rewrite Nat.eqb_refl. reflexivity. Qed.
Lemma set_cases {X} (vs : list X) t x y t' z : nth_error vs t = Some x -> nth_error (set_nth vs t y) t' = Some z ->
  (t' = t /\ z = y) \/ (t' <> t /\ nth_error vs t' = Some z).
Proof.
  intros H. destruct (Nat.eq_dec t' t) as [->|N].
  - rewrite (self_err _ _ _ _ H). intros [= <-]. auto.
  - rewrite others_err by exact N. auto.
Qed.

Lemma option_eq_dec_nat (o : option nat) (n : nat) : {o = Some n} + {o <> Some n}.
Proof. decide equality. apply Nat.eq_dec. Qed.

Lemma cbase_step k s vs t o l s' l' :
  CBase k s vs -> nth_error vs t = Some (Some (o, l)) ->
  Foreign s s' (xg o l) -> Fr k (A s') ->
  (forall i, xg o l = Some (i / 15)%nat ->
     match nth_error (cells (A s')) i with
     | Some (Live e) => ctrl (A s') i = low_class (hash_of c (hid (tb s')) (fst e)) /\ Reach k (A s') (hash_of c (hid (tb s')) (fst e)) (i / 15)
     | Some Moved => False
     | Some Raw => ctrl (A s') i = 0 \/ infl l' = Some i
     | None => True end) ->
  (lock_of o l' = lock_of o l \/ lock_of o l' = None \/ exists g x, lock_of o l' = Some (g, x) /\ frees vs t g x) ->
  sz (tb s') + N.of_nat (length (elems (A s))) + wt l = sz (tb s) + N.of_nat (length (elems (A s'))) + wt l' ->
  N.of_nat (length (elems (A s'))) + adm (ml (tb s')) l' + ml (tb s) <= N.of_nat (length (elems (A s))) + adm (ml (tb s)) l + ml (tb s') \/
  N.of_nat (length (elems (A s'))) + wsum (adm (ml (tb s'))) (set_nth vs t (Some (o, l'))) <= ml (tb s') ->
  wf o l' -> TI k s' o l' ->
  CBase k s' (set_nth vs t (Some (o, l'))).
Proof.
  intros B Ht F Fr' Hown Hlock Hsz Hadm Hwf HTI. pose proof B as []. pose proof F as [].
  pose proof (cb_ti0 t o l Ht) as [W0 T0].
  assert (forall t' g x, t' <> t -> holds (set_nth vs t (Some (o, l'))) t' g x -> holds vs t' g x) as Hho.
  { intros t' g x N (o2 & l2 & E1 & E2). rewrite others_err in E1 by exact N. exists o2, l2. auto. }
  assert (forall t' o2 l2 g x, t' <> t -> nth_error vs t' = Some (Some (o2, l2)) -> lock_of o2 l2 = Some (g, x) -> xg o l <> Some g) as Hex.
  { intros t' o2 l2 g x N E1 E2 C. unfold xg in C. destruct (lock_of o l) as [[g0 [|]]|] eqn:El; try discriminate. injection C as ->.
    destruct (cb_lock0 t t' g true x ltac:(congruence)) as [D _]; [exists o, l; auto|exists o2, l2; auto|discriminate]. }
  constructor.
  - rewrite fo_h0, fo_p0. exact cb_compat0.
  - congruence.
  - exact Fr'.
  - congruence.
  - unfold init_ml in *. rewrite fo_cap0. lia.
  - intros i e Hi. destruct (option_eq_dec_nat (xg o l) (i / 15)) as [E|E].
    + specialize (Hown i E). rewrite Hi in Hown. exact Hown.
    + destruct (fo_slot0 i E) as [E1 E2]. rewrite E1 in Hi. destruct (cb_live0 i e Hi) as [C1 C2]. rewrite E2, fo_h0. split; [exact C1|].
      eapply reach_mono; [exact fo_ovf0|exact C2].
  - intros i Hi. destruct (option_eq_dec_nat (xg o l) (i / 15)) as [E|E].
    + specialize (Hown i E). rewrite Hi in Hown. exact Hown.
    + destruct (fo_slot0 i E) as [E1 E2]. rewrite E1 in Hi. exact (cb_moved0 i Hi).
  - intros i Hi. destruct (option_eq_dec_nat (xg o l) (i / 15)) as [E|E].
    + specialize (Hown i E). rewrite Hi in Hown. destruct Hown as [Hown|Hown]; [now left|right].
      exists t, o, l'. split; [eapply self_err; exact Ht|exact Hown].
    + destruct (fo_slot0 i E) as [E1 E2]. rewrite E1 in Hi. rewrite E2. destruct (cb_raw0 i Hi) as [D|(t2 & o2 & l2 & D1 & D2)]; [now left|right].
      destruct (Nat.eq_dec t2 t) as [->|N].
      * exfalso. rewrite D1 in Ht. injection Ht as -> ->. apply E. unfold xg. rewrite (lock_group _ _ i k s T0 W0 D2). reflexivity.
      * exists t2, o2, l2. split; [rewrite others_err by exact N; exact D1|exact D2].
  - assert (forall t' g x x', t' <> t -> lock_of o l' = Some (g, x) -> holds (set_nth vs t (Some (o, l'))) t' g x' -> x = false /\ x' = false) as Hc.
    { intros t' g x x' N E Hh. pose proof (Hho _ _ _ N Hh) as Hh'. destruct Hlock as [E'|[E'|(g2 & x2 & E' & Hf)]].
      - rewrite E' in E. eapply (cb_lock0 t t'); [congruence|exists o, l; split; [exact Ht|exact E]|exact Hh'].
      - congruence.
      - rewrite E' in E. injection E as -> ->. exact (Hf t' x' N Hh'). }
    intros t1 t2 g x x' N H1 H2. destruct (Nat.eq_dec t1 t) as [->|N1].
    + destruct H1 as (o1 & l1 & E1 & E2). rewrite (self_err _ _ _ _ Ht) in E1. injection E1 as <- <-. eapply Hc; [|exact E2|exact H2]. congruence.
    + destruct (Nat.eq_dec t2 t) as [->|N2].
      * destruct H2 as (o1 & l1 & E1 & E2). rewrite (self_err _ _ _ _ Ht) in E1. injection E1 as <- <-.
        destruct (Hc t1 g x' x N1 E2 H1). auto.
      * eapply (cb_lock0 t1 t2); eauto.
  - pose proof (wsum_set wt vs t _ (Some (o, l')) Ht) as S. cbn [went] in S. lia.
  - destruct Hadm as [Hadm|Hadm]; [|exact Hadm].
    pose proof (wsum_set (adm (ml (tb s'))) vs t _ (Some (o, l')) Ht) as S. cbn [went] in S.
    pose proof (wsum_set (adm (ml (tb s))) vs t _ None Ht) as S1. cbn [went] in S1.
    pose proof (wsum_set (adm (ml (tb s'))) vs t _ None Ht) as S2. cbn [went] in S2.
    pose proof (wsum_le (adm (ml (tb s'))) (adm (ml (tb s))) (set_nth vs t None) (fun l => adm_mono _ _ l fo_ml0)). lia.
  - intros t' o2 l2 H. destruct (set_cases _ _ _ _ _ _ Ht H) as [[-> E]|[N E]].
    + injection E as -> ->. auto.
    + destruct (cb_ti0 t' o2 l2 E) as [W T]. split; [exact W|]. eapply ti_foreign; [exact F|exact T|].
      intros g x El. eapply Hex; eauto.
Qed.
End CInv.
