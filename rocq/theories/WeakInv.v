(** Invariant of one container in executions of WeakModel.v: what its users know about the accesses to it. *)
From Coq Require Import NArith Bool List Arith Lia ZifyBool ZifyNat ZifyN.
From Verif Require Import FloatModel SizeModel SizeProofs GroupModel GroupProofs GroupSpec FoaModel FoaGroup FoaBase FoaFind FoaArr FoaInv FoaSpec FoaWorld ConcSpec ConcModel ConcInv ConcStep ConcStep2 ConcStep3 ConcSys WeakModel WeakHb WeakStep WeakEff.
Import ListNotations.
Local Open Scope N_scope.
Notation set_nth := FoaModel.set_nth.

Section WInv.
Context {K V : Type} (c : Cfg K V) (st : bool).
Notation arrays := (arrays K V).
Notation table := (table K V).
Notation Sh := (@Sh K V).
Notation pop := (pop K V). Notation cop := (cop K V). Notation loc := (@loc K V). Notation cres := (cres K V). Notation eff := (@eff K V).
Notation ent := (option (cop * loc)).
Notation CBase := (CBase c). Notation CUniq := (CUniq c). Notation CInv := (CInv c). Notation TI := (TI c). Notation TI1 := (TI1 c). Notation hk := (hk c).
Notation wact := (@wact K V). Notation wev := (@wev K V).
Notation hb := (@hb K V st). Notation sw := (@sw K V st). Notation knows := (@knows K V st).
Implicit Type log : list wev.

Definition local (a : wact) (d : nat) : Prop := match a with WLocal d' _ _ _ _ _ => d' = d | _ => False end.
Definition locked (a : wact) (d g : nat) (x : bool) : Prop := match a with WLocal d' o l _ _ _ => d' = d /\ lock_of o l = Some (g, x) | _ => False end.
Definition marks (a : wact) (d g : nat) (h : N) : Prop := match a with WLocal d' _ _ (EMark g' h') _ _ => d' = d /\ g' = g /\ h' mod 8 = h mod 8 | _ => False end.
Definition stepped (d : nat) (a : wact) (s1 s2 : Sh) : Prop :=
  match a with WLocal d' _ _ e _ _ => if Nat.eqb d' d then apply e s1 = Some s2 else s2 = s1 | _ => s2 = s1 end.
Definition eff_ok (o : cop) (l : loc) (e : eff) : Prop :=
  (forall g n, ehits e (VByte g n) -> lock_of o l = Some (g, true)) /\ (forall i, ehits e (VCell i) -> lock_of o l = Some ((i / 15)%nat, true)) /\
  (forall g n, (exists h, e = ESet g n h) \/ e = EReset g n -> (n < 15)%nat).
Definition act_ok (a : wact) (d : nat) : Prop := match a with WLocal d' o l e _ _ => d' = d -> eff_ok o l e | _ => True end.

Definition before log (v : option nat) (i : nat) : Prop := match v with None => False | Some v => hb log i v end.
Definition Mk log (ep d : nat) (P : nat -> Prop) (h : N) (g : nat) : Prop := exists i u a, (ep < i)%nat /\ nth_error log i = Some (u, a) /\ marks a d g h /\ P i.
Definition path (k h : N) (M : nat -> Prop) (g : nat) : Prop :=
  exists j, N.of_nat j < 2 ^ k /\ probe_pos k (p0 k h) j = N.of_nat g /\ forall j', (j' < j)%nat -> M (N.to_nat (probe_pos k (p0 k h) j')).
Definition trail (k h : N) (M : nat -> Prop) (pb : prober) : Prop :=
  (exists j, N.of_nat j < 2 ^ k /\ pb = pstate k (p0 k h) j /\ forall j', (j' < j)%nat -> M (N.to_nat (probe_pos k (p0 k h) j'))) \/
  (forall g, (g < N.to_nat (2 ^ k))%nat -> M g).
Definition insx (l : loc) : option ctx := match l with LIns x | LAvail x | LSkip x | LCnt x _ => Some x | _ => None end.

(** ep: the last event that had exclusive access to the container; H: its states *)
Record DInv log (H : nat -> option Sh) (vs : list ent) (d : nat) (s : Sh) (k : N) (ep : nat) : Prop := {
  d_now : H (length log) = Some s;
  d_ep : exists t a, nth_error log ep = Some (t, a) /\ replaces a d;
  d_last : forall i t a, (ep < i)%nat -> nth_error log i = Some (t, a) -> ~ replaces a d;
  d_inv : CInv k s vs;
  d_hist : forall i t a, (ep < i)%nat -> nth_error log i = Some (t, a) ->
     exists s1 s2, H i = Some s1 /\ H (S i) = Some s2 /\ Geo k (A s1) /\ stepped d a s1 s2 /\ act_ok a d;
  d_in : forall i u a, nth_error log i = Some (u, a) -> local a d ->
     (exists o l, nth_error vs u = Some (Some (o, l)) /\ outside l = false) \/ (exists r b, (i <= r)%nat /\ nth_error log r = Some (u, b) /\ leaves b d);
  d_know : forall u o l, nth_error vs u = Some (Some (o, l)) -> outside l = false -> knows log u ep;
  d_made : forall u o l, nth_error vs u = Some (Some (o, l)) -> forall i t a, nth_error log i = Some (t, a) -> creates a d -> knows log u i;
  d_old : forall i t a, (i < ep)%nat -> nth_error log i = Some (t, a) -> local a d \/ replaces a d -> hb log i ep;
  d_grp : forall i u a g x, (ep < i)%nat -> nth_error log i = Some (u, a) -> locked a d g x ->
     holds vs u g x \/ (exists r b, (i <= r)%nat /\ nth_error log r = Some (u, b) /\ releases b d g x);
  d_hold : forall u g x, holds vs u g x -> forall i u' a y, (ep < i)%nat -> nth_error log i = Some (u', a) -> locked a d g y -> x || y = true -> knows log u i;
  d_pk : forall i q, Pk s vs i q -> let h := hash_of c (hid (tb s)) q in exists v,
     (forall v', v = Some v' -> exists u a, (ep < v')%nat /\ nth_error log v' = Some (u, a) /\ increments a d (N.to_nat (p0 k h))) /\
     (forall i' u a, (ep < i')%nat -> nth_error log i' = Some (u, a) -> hits a d (VByte (i / 15) (i mod 15)) -> before log v i') /\
     path k h (fun g => (exists s0, H (S ep) = Some s0 /\ marked s0 h g) \/ Mk log ep d (before log v) h g) (i / 15);
  d_cnt : forall t p l x, nth_error vs t = Some (Some (Point p, l)) -> emplaces p = true -> ectx l = Some x ->
     nth_error (cnt s) (N.to_nat (p0 k (hk s p))) = Some (x_cg x) ->
     forall i u a, (ep < i)%nat -> nth_error log i = Some (u, a) -> increments a d (N.to_nat (p0 k (hk s p))) -> knows log t i;
  d_ins : forall t p l x, nth_error vs t = Some (Some (Point p, l)) -> insx l = Some x ->
     trail k (x_h x) (Mk log ep d (knows log t) (x_h x)) (x_pb x) /\ (l = LSkip x -> Mk log ep d (knows log t) (x_h x) (x_g x)) }.

(** *** generalities *)
Lemma mk_mono log log' ep d (P P' : nat -> Prop) h g : (forall i, P i -> P' i) -> Mk log ep d P h g -> Mk (log ++ log') ep d P' h g.
Proof. intros HP (i & u & a & L & E & M & Hi). exists i, u, a. split; [exact L|]. split; [apply nth_keep, E|]. split; [exact M|apply HP, Hi]. Qed.
Lemma path_mono k h (M M' : nat -> Prop) g : (forall g, M g -> M' g) -> path k h M g -> path k h M' g.
Proof. intros HM (j & L & E & Hj). exists j. split; [exact L|]. split; [exact E|]. intros j' Lj. apply HM, Hj, Lj. Qed.
Lemma trail_mono k h (M M' : nat -> Prop) pb : (forall g, M g -> M' g) -> trail k h M pb -> trail k h M' pb.
Proof. intros HM [(j & L & E & Hj)|Ha]; [left; exists j|right]; auto. Qed.
Lemma trail_path k h M pb : pb_pos pb < 2 ^ k -> trail k h M pb -> path k h M (N.to_nat (pb_pos pb)).
Proof.
  intros Lp [(j & L & -> & M1)|M1].
  - exists j. split; [exact L|]. cbn [pstate pb_pos]. rewrite N2Nat.id. split; [reflexivity|]. exact M1.
  - destruct (probe_covers k (p0 k h) (N.to_nat (pb_pos pb))) as (j & L & E); [lia|]. exists j. split; [exact L|]. split; [exact E|].
    intros j' _. apply M1. apply pstate_group.
Qed.
Lemma trail_next k h M pb : 1 <= k <= 60 -> trail k h M pb -> M (N.to_nat (pb_pos pb)) -> trail k h M (fst (pb_next pb (2 ^ k - 1))).
Proof.
  intros Hk [(j & L & E & M1)|M1] Mj; [|right; exact M1]. subst pb. rewrite pstate_next; [|apply Hk|exact L]. cbn [fst]. cbn [pstate pb_pos] in Mj.
  destruct (N.ltb_spec (N.of_nat (S j)) (2 ^ k)) as [L1|L1].
  - left. exists (S j). split; [exact L1|]. split; [reflexivity|]. intros j' Hj'. destruct (Nat.eq_dec j' j) as [->|]; [exact Mj|apply M1; lia].
  - right. intros g Lg. destruct (probe_covers k (p0 k h) g) as (j' & L' & E'); [lia|].
    replace g with (N.to_nat (probe_pos k (p0 k h) j')) by lia. destruct (Nat.eq_dec j' j) as [->|]; [exact Mj|apply M1; lia].
Qed.
Lemma not_replaces_hits (a : wact) d v : ~ replaces a d -> hits a d v -> exists o l e l' rd, a = WLocal d o l e l' rd /\ ehits e v.
Proof. destruct a; cbn [hits]; try tauto. intros _ [-> Hv]. exists o, l, e, l', rd. auto. Qed.
Lemma hits_local d o l e l' rd v : hits (WLocal d o l e l' rd : wact) d v <-> ehits e v.
Proof. cbn [hits]. split; [intros [_ Hv]|intros Hv; split; [reflexivity|]]; exact Hv. Qed.
Lemma incr_hits (a : wact) d g : increments a d g -> hits a d (VCnt g).
Proof. destruct a; cbn [increments hits]; try contradiction. destruct e; try contradiction. intros [-> ->]. auto. Qed.
Lemma incr_local (a : wact) d g : increments a d g -> exists o l l' rd, a = WLocal d o l (ECnt g) l' rd.
Proof. destruct a; cbn [increments]; try contradiction. destruct e; try contradiction. intros [-> ->]. eauto. Qed.

(** *** history *)
Lemma hist_rel2 log H vs d s k ep (R : Sh -> Sh -> Prop) m sm m' sm' : DInv log H vs d s k ep -> (ep < m)%nat -> (m <= m' <= length log)%nat -> H m = Some sm -> H m' = Some sm' ->
  (forall s, R s s) -> (forall s1 s2 s3, R s1 s2 -> R s2 s3 -> R s1 s3) ->
  (forall i t a s1 s2, (m <= i < m')%nat -> nth_error log i = Some (t, a) -> stepped d a s1 s2 -> Geo k (A s1) -> act_ok a d -> R s1 s2) -> R sm sm'.
Proof.
  intros D Lm Lm' Hm Hm' Rr Rt Rs. remember (m' - m)%nat as z eqn:Ez. revert m sm Lm Lm' Hm Rs Ez.
  induction z as [|z IH]; intros m sm Lm Lm' Hm Rs Ez.
  - assert (m = m') as -> by lia. assert (sm' = sm) as -> by congruence. apply Rr.
  - destruct (nth_error log m) as [[t a]|] eqn:E; [|apply nth_error_None in E; lia].
    destruct (d_hist _ _ _ _ _ _ _ D m t a Lm E) as (s1 & s2 & E1 & E2 & G & S & O). assert (s1 = sm) as -> by congruence.
    apply (Rt sm s2 sm'); [eapply (Rs m); eauto; lia|]. apply (IH (Datatypes.S m) s2); [lia|lia|exact E2| |lia]. intros i t' a' s1' s2' Li. apply Rs. lia.
Qed.
Lemma hist_rel log H vs d s k ep (R : Sh -> Sh -> Prop) m sm : DInv log H vs d s k ep -> (ep < m <= length log)%nat -> H m = Some sm ->
  (forall s, R s s) -> (forall s1 s2 s3, R s1 s2 -> R s2 s3 -> R s1 s3) ->
  (forall i t a s1 s2, (m <= i)%nat -> nth_error log i = Some (t, a) -> stepped d a s1 s2 -> Geo k (A s1) -> act_ok a d -> R s1 s2) -> R sm s.
Proof.
  intros D Lm Hm Rr Rt Rs. apply (hist_rel2 log H vs d s k ep R m sm (length log) s); auto; [lia|lia|apply D|].
  intros i t a s1 s2 Li. apply Rs. lia.
Qed.
Lemma hist_at log H vs d s k ep m : DInv log H vs d s k ep -> (ep < m <= length log)%nat -> exists sm, H m = Some sm /\ Geo k (A sm).
Proof.
  intros D Lm. destruct (Nat.eq_dec m (length log)) as [->|N].
  - exists s. split; [apply D|]. apply (fr_geo c). apply (d_inv _ _ _ _ _ _ _ D).
  - destruct (nth_error log m) as [[t a]|] eqn:E; [|apply nth_error_None in E; lia].
    destruct (d_hist _ _ _ _ _ _ _ D m t a (proj1 Lm) E) as (s1 & s2 & E1 & E2 & G & _). eauto.
Qed.
Lemma stepped_cases d a (s1 s2 : Sh) : stepped d a s1 s2 -> s2 = s1 \/ exists o l e l' rd, a = WLocal d o l e l' rd /\ apply e s1 = Some s2.
Proof. destruct a; cbn [stepped]; auto. destruct (Nat.eqb_spec d0 d) as [->|]; [|auto]. right. eauto 10. Qed.
Lemma hist_box log H vs d s k ep m sm : DInv log H vs d s k ep -> (ep < m <= length log)%nat -> H m = Some sm -> same_box sm s.
Proof.
  intros D Lm Hm. eapply (hist_rel log H vs d s k ep same_box); eauto using box_refl, box_trans.
  intros i t a s1 s2 _ _ S _ _. destruct (stepped_cases _ _ _ _ S) as [->|(o & l & e & l' & rd & -> & E)]; [apply box_refl|]. apply box_sym. eapply apply_box. exact E.
Qed.
Lemma hist_byte log H vs d s k ep m sm g n : DInv log H vs d s k ep -> (ep < m <= length log)%nat -> H m = Some sm ->
  (forall i u a, (m <= i)%nat -> nth_error log i = Some (u, a) -> ~ hits a d (VByte g n)) -> byte sm g n = byte s g n.
Proof.
  intros D Lm Hm Hh. eapply (hist_rel log H vs d s k ep (fun s1 s2 => byte s1 g n = byte s2 g n)); eauto; [congruence|].
  intros i t a s1 s2 Li E S _ _. destruct (stepped_cases _ _ _ _ S) as [->|(o & l & e & l' & rd & -> & Ea)]; [reflexivity|].
  symmetry. eapply apply_byte; [exact Ea|]. intros Hv. apply (Hh i t _ Li E). apply hits_local, Hv.
Qed.
Lemma hist_cell log H vs d s k ep m sm j : DInv log H vs d s k ep -> (ep < m <= length log)%nat -> H m = Some sm ->
  (forall i u a, (m <= i)%nat -> nth_error log i = Some (u, a) -> ~ hits a d (VCell j)) -> get_cell (A sm) j = get_cell (A s) j.
Proof.
  intros D Lm Hm Hh. eapply (hist_rel log H vs d s k ep (fun s1 s2 => get_cell (A s1) j = get_cell (A s2) j)); eauto; [congruence|].
  intros i t a s1 s2 Li E S _ _. destruct (stepped_cases _ _ _ _ S) as [->|(o & l & e & l' & rd & -> & Ea)]; [reflexivity|].
  symmetry. eapply apply_cell; [exact Ea|]. intros Hv. apply (Hh i t _ Li E). apply hits_local, Hv.
Qed.
Definition cnt_le (s1 s2 : Sh) (g : nat) : Prop := forall n, nth_error (cnt s1) g = Some n -> exists n', nth_error (cnt s2) g = Some n' /\ n <= n'.
Lemma stepped_cnt d a (s1 s2 : Sh) g : stepped d a s1 s2 -> cnt_le s1 s2 g /\ (increments a d g -> forall n, nth_error (cnt s1) g = Some n -> nth_error (cnt s2) g = Some (n + 1)).
Proof.
  intros S. destruct (stepped_cases _ _ _ _ S) as [->|(o & l & e & l' & rd & -> & Ea)].
  - split; [intros n Hn; exists n; split; [exact Hn|lia]|]. intros Hi n Hn. apply incr_local in Hi as (o & l & l' & rd & ->). cbn [stepped] in S. rewrite Nat.eqb_refl in S.
    cbn [apply] in S. rewrite Hn in S. assert (cnt s1 = set_nth (cnt s1) g (n + 1)) as Z.
    { injection S as Z. rewrite <- Z at 1. reflexivity. }
    rewrite Z. rewrite set_nth_err by (apply nth_error_Some; congruence). rewrite Nat.eqb_refl. reflexivity.
  - pose proof (apply_cnt e s1 s2 g Ea) as Z. split.
    + intros n Hn. rewrite Hn in Z. destruct e; try (exists n; split; [exact Z|lia]). destruct (Nat.eqb g g0); [exists (n + 1)|exists n]; (split; [exact Z|lia]).
    + cbn [increments]. destruct e; try contradiction. intros [_ ->] n Hn. rewrite Nat.eqb_refl, Hn in Z. exact Z.
Qed.
Lemma hist_cnt2 log H vs d s k ep m sm m' sm' g : DInv log H vs d s k ep -> (ep < m)%nat -> (m <= m' <= length log)%nat -> H m = Some sm -> H m' = Some sm' -> cnt_le sm sm' g.
Proof.
  intros D Lm Lm' Hm Hm'. eapply (hist_rel2 log H vs d s k ep (fun s1 s2 => cnt_le s1 s2 g) m sm m' sm'); eauto.
  - intros s1 n Hn. exists n. split; [exact Hn|lia].
  - intros s1 s2 s3 H1 H2 n Hn. destruct (H1 n Hn) as (n1 & E1 & L1). destruct (H2 n1 E1) as (n2 & E2 & L2). exists n2. split; [exact E2|lia].
  - intros i t a s1 s2 _ _ S _ _. apply (stepped_cnt _ _ _ _ _ S).
Qed.
Lemma hist_cnt log H vs d s k ep m sm g : DInv log H vs d s k ep -> (ep < m <= length log)%nat -> H m = Some sm -> cnt_le sm s g.
Proof. intros D Lm Hm. eapply (hist_cnt2 log H vs d s k ep m sm (length log) s); eauto; [lia|lia|apply D]. Qed.
(** a counter that has the same value has not been incremented *)
Lemma hist_incr log H vs d s k ep m sm g n : DInv log H vs d s k ep -> (ep < m <= length log)%nat -> H m = Some sm ->
  nth_error (cnt sm) g = Some n -> nth_error (cnt s) g = Some n -> forall i u a, (m <= i)%nat -> nth_error log i = Some (u, a) -> ~ increments a d g.
Proof.
  intros D Lm Hm E1 E2 i u a Li E Hi. pose proof (nth_lt _ _ _ E) as Ll.
  destruct (d_hist _ _ _ _ _ _ _ D i u a ltac:(lia) E) as (s1 & s2 & Z1 & Z2 & _ & S & _).
  pose proof (hist_cnt log H vs d s k ep (Datatypes.S i) s2 g D ltac:(lia) Z2) as C2.
  destruct (hist_cnt2 log H vs d s k ep m sm i s1 g D ltac:(lia) ltac:(lia) Hm Z1 n E1) as (n1 & Y1 & Y2).
  pose proof (proj2 (stepped_cnt _ _ _ _ g S) Hi n1 Y1) as Y3. destruct (C2 _ Y3) as (n2 & Y4 & Y5). assert (n2 = n) by congruence. lia.
Qed.
(** marks stay *)
Lemma hist_mark log H vs d s k ep i u a g h m sm : DInv log H vs d s k ep -> (ep < i)%nat -> nth_error log i = Some (u, a) -> marks a d g h -> (g < N.to_nat (2 ^ k))%nat ->
  (i < m <= length log)%nat -> H m = Some sm -> marked sm h g.
Proof.
  intros D Li E M Lg Lm Hm. destruct (d_hist _ _ _ _ _ _ _ D i u a Li E) as (s1 & s2 & Z1 & Z2 & G & S & _).
  assert (marked s2 h g) as M2.
  { destruct a; cbn [marks] in M; try contradiction. destruct e; try contradiction. destruct M as (-> & -> & Eh). cbn [stepped] in S. rewrite Nat.eqb_refl in S.
    pose proof (apply_mark _ _ _ _ S (geo_len _ _ _ G Lg)) as Z. unfold marked in *. rewrite <- Eh. exact Z. }
  eapply (hist_rel2 log H vs d s k ep (fun s1 s2 => N.testbit (ovf (A s1) g) (h mod 8) = true -> N.testbit (ovf (A s2) g) (h mod 8) = true) (Datatypes.S i) s2 m sm);
    eauto; try lia.
  intros i' t' a' x1 x2 _ _ SS _ O. destruct (stepped_cases _ _ _ _ SS) as [->|(o & l & e & l' & rd & -> & Ea)]; [auto|].
  apply (apply_ovf e); [exact Ea|]. apply O. reflexivity.
Qed.
Lemma hist_ovf2 log H vs d s k ep m sm m' sm' g j : DInv log H vs d s k ep -> (ep < m)%nat -> (m <= m' <= length log)%nat -> H m = Some sm -> H m' = Some sm' ->
  N.testbit (ovf (A sm) g) j = true -> N.testbit (ovf (A sm') g) j = true.
Proof.
  intros D Lm Lm' Hm Hm'. eapply (hist_rel2 log H vs d s k ep (fun s1 s2 => N.testbit (ovf (A s1) g) j = true -> N.testbit (ovf (A s2) g) j = true) m sm m' sm'); eauto.
  intros i t a s1 s2 Li E S _ O. destruct (stepped_cases _ _ _ _ S) as [->|(o & l & e & l' & rd & -> & Ea)]; [auto|].
  apply (apply_ovf e); [exact Ea|]. apply O. reflexivity.
Qed.
End WInv.
