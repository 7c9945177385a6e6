(** What a thread can read: under a lock the current state, and of the elements it knows about, where they are. *)
From Coq Require Import NArith Bool List Arith Lia ZifyBool ZifyNat ZifyN.
From Verif Require Import FloatModel SizeModel SizeProofs GroupModel GroupProofs GroupSpec FoaModel FoaGroup FoaBase FoaFind FoaArr FoaInv FoaSpec FoaWorld ConcSpec ConcModel ConcInv ConcStep ConcStep2 ConcStep3 ConcSys WeakModel WeakHb WeakStep WeakEff WeakInv WeakInv2.
Import ListNotations.
Local Open Scope N_scope.
Notation set_nth := FoaModel.set_nth.

Section WSee.
Context {K V : Type} (c : Cfg K V) (st : bool).
Notation Sh := (@Sh K V).
Notation pop := (pop K V). Notation cop := (cop K V). Notation loc := (@loc K V). Notation cres := (cres K V). Notation eff := (@eff K V).
Notation ent := (option (cop * loc)).
Notation CBase := (CBase c). Notation CInv := (CInv c). Notation TI := (TI c). Notation hk := (hk c).
Notation wact := (@wact K V). Notation wev := (@wev K V). Notation W := (@W K V).
Notation hb := (@hb K V st). Notation knows := (@knows K V st). Notation readable := (@readable K V st). Notation sees := (@sees K V st).
Notation DInv := (DInv c st).
Implicit Type log : list wev.

Definition hist (w : W) (d i : nat) : option Sh := match at_time w i with Some C => box C d | None => None end.
Section One.
Variables (w : W) (d : nat) (s : Sh) (vs : list ent) (k : N) (ep t : nat).
Hypothesis Len : length (w_past w) = length (w_log w).
Hypothesis D : DInv (w_log w) (hist w d) vs d s k ep.
Hypothesis Kep : knows (w_log w) t ep.

Lemma read_at v m sm : readable w t d v m sm -> (ep < m <= length (w_log w))%nat /\ hist w d m = Some sm /\
  (forall i u a, (m <= i)%nat -> nth_error (w_log w) i = Some (u, a) -> hits a d v -> ~ knows (w_log w) t i).
Proof.
  intros [(C & E1 & E2) Hn]. split; [split|split].
  - destruct (d_ep _ _ _ _ _ _ _ _ _ D) as (t0 & a0 & E & R). destruct (Nat.lt_ge_cases ep m) as [L|L]; [exact L|exfalso].
    apply (Hn ep t0 a0 L E); [|exact Kep]. destruct a0; cbn [hits]; try exact R. destruct R as [[]|[]].
  - unfold at_time in E1. apply nth_lt in E1. rewrite app_length in E1. cbn [length] in E1. lia.
  - unfold hist. rewrite E1. exact E2.
  - exact Hn.
Qed.
Lemma sees_box so : sees w t d so -> same_box so s.
Proof.
  intros [_ _ _ (m & sm & R & E)]. destruct (read_at _ _ _ R) as (L & Hm & _). eapply box_trans; [exact E|]. eapply hist_box; eassumption.
Qed.
Lemma sees_agree so g x : sees w t d so -> holds vs t g x -> agree_at so s g.
Proof.
  intros Se Hh. assert (forall i u a m, (ep < m)%nat -> (m <= i)%nat -> nth_error (w_log w) i = Some (u, a) -> locked a d g true -> knows (w_log w) t i) as KL.
  { intros i u a m Lm Li E Z. eapply (d_hold _ _ _ _ _ _ _ _ _ D t g x Hh i u a true); auto; [lia|destruct x; reflexivity]. }
  assert (forall i u a m v, (ep < m)%nat -> (m <= i)%nat -> nth_error (w_log w) i = Some (u, a) -> hits a d v ->
     exists o l e l' rd, a = WLocal d o l e l' rd /\ ehits e v /\ eff_ok o l e) as KH.
  { intros i u a m v Lm Li E Z. destruct (not_replaces_hits a d v (d_last _ _ _ _ _ _ _ _ _ D i u a ltac:(lia) E) Z) as (o & l & e & l' & rd & -> & Zh).
    destruct (d_hist _ _ _ _ _ _ _ _ _ D i u _ ltac:(lia) E) as (_ & _ & _ & _ & _ & _ & O). exists o, l, e, l', rd. split; [reflexivity|]. split; [exact Zh|exact (O eq_refl)]. }
  split.
  - intros n. destruct (see_byte _ _ _ _ _ Se g n) as (m & sm & R & E). destruct (read_at _ _ _ R) as ([Lm Lm'] & Hm & Hn). unfold grp, A. rewrite E.
    apply (hist_byte c st (w_log w) (hist w d) vs d s k ep m sm g n); auto. intros i u a Li Ei Z. apply (Hn i u a Li Ei Z).
    destruct (KH i u a m _ Lm Li Ei Z) as (o & l & e & l' & rd & -> & Zh & O & _). apply (KL i u _ m Lm Li Ei). cbn [locked]. split; [reflexivity|exact (O _ _ Zh)].
  - intros n Ln. destruct (see_cell _ _ _ _ _ Se (slot_index g n)) as (m & sm & R & E). destruct (read_at _ _ _ R) as ([Lm Lm'] & Hm & Hn). unfold A. rewrite E.
    apply (hist_cell c st (w_log w) (hist w d) vs d s k ep m sm (slot_index g n)); auto. intros i u a Li Ei Z. apply (Hn i u a Li Ei Z).
    destruct (KH i u a m _ Lm Li Ei Z) as (o & l & e & l' & rd & -> & Zh & _ & O & _). apply (KL i u _ m Lm Li Ei). cbn [locked]. split; [reflexivity|].
    pose proof (O _ Zh) as Y. rewrite slot_div in Y by exact Ln. exact Y.
Qed.
Lemma sees_frame so : sees w t d so -> frame k so s.
Proof.
  intros Se. pose proof (sees_box so Se) as (E1 & E2 & E3 & E4 & E5 & E6 & E7 & E8 & E9). pose proof (d_inv _ _ _ _ _ _ _ _ _ D) as [B _].
  pose proof (fr_geo _ _ _ (cb_fr _ _ _ _ B)) as G. change (arr (tb so)) with (A so) in *. change (arr (tb s)) with (A s) in *.
  assert (length (cells (A so)) = length (cells (A s))) as Lc by (unfold cells; destruct (a_elems (A so)), (a_elems (A s)); cbn [option_map] in E8; congruence).
  assert (length (a_groups (A so)) = length (a_groups (A s))) as Lg by (pose proof (f_equal (@length nat) E7) as Z; rewrite !map_length in Z; exact Z).
  split; [|split; [exact E1|split; [exact E2|split; [exact Lc|split; [exact E9|]]]]].
  - constructor.
    + apply G.
    + rewrite E5. apply G.
    + rewrite E6. apply G.
    + rewrite Lg. apply G.
    + apply Forall_forall. intros b Hb. pose proof (ge_bytes _ _ G) as F. rewrite Forall_forall in F.
      assert (In (length b) (map (@length N) (a_groups (A s)))) as Z by (rewrite <- E7; apply in_map; exact Hb).
      apply in_map_iff in Z as (b' & Z1 & Z2). rewrite <- Z1. apply F, Z2.
    + intros i Li Hc. destruct (see_byte _ _ _ _ _ Se (i / 15) (i mod 15)) as (m & sm & R & E). destruct (read_at _ _ _ R) as (Lm & Hm & _).
      destruct (hist_at c st _ _ _ _ _ _ _ m D Lm) as (sm' & Hm' & Gm). assert (sm' = sm) as -> by congruence.
      unfold ctrl, grp, A in Hc. rewrite E in Hc. pose proof (ge_cell _ _ Gm i Li Hc) as Z. rewrite Lc.
      destruct (hist_box c st _ _ _ _ _ _ _ m sm D Lm Hm) as (_ & _ & _ & _ & _ & _ & _ & Z8 & _).
      unfold cells, A in *. destruct (a_elems (arr (tb sm))), (a_elems (arr (tb s))); cbn [option_map length] in Z8, Z; try discriminate; [|lia]. injection Z8 as <-. exact Z.
  - intros g n n' Hn Hn'. destruct (see_cnt _ _ _ _ _ Se g) as (m & sm & R & E). destruct (read_at _ _ _ R) as (Lm & Hm & _). rewrite E in Hn.
    destruct (hist_cnt c st _ _ _ _ _ _ _ m sm g D Lm Hm n Hn) as (n1 & Z1 & Z2). assert (n1 = n') as -> by congruence. exact Z2.
Qed.
(** so shows what the thread knows of *)
Definition informed (B : nat -> Prop) (i : nat) (h : N) : Prop :=
  (forall i' u a, (ep < i')%nat -> nth_error (w_log w) i' = Some (u, a) -> hits a d (VByte (i / 15) (i mod 15)) -> B i') /\
  path k h (fun g => (exists s0, hist w d (S ep) = Some s0 /\ marked s0 h g) \/ Mk (w_log w) ep d B h g) (i / 15).
Lemma sees_shows so i h : sees w t d so -> informed (knows (w_log w) t) i h -> ctrl (A s) i = low_class h -> shows k so h i.
Proof.
  intros Se [I1 (j & P1 & P2 & P3)] Hc. split.
  - destruct (see_byte _ _ _ _ _ Se (i / 15) (i mod 15)) as (m & sm & R & E). destruct (read_at _ _ _ R) as ([Lm Lm'] & Hm & Hn). rewrite <- Hc. unfold ctrl, grp, A. rewrite E.
    apply (hist_byte c st (w_log w) (hist w d) vs d s k ep m sm (i / 15) (i mod 15)); auto. intros i' u a Li Ei Z. apply (Hn i' u a Li Ei Z). eapply I1; [lia|exact Ei|exact Z].
  - exists j. split; [exact P1|]. split; [exact P2|]. intros j' Lj. specialize (P3 j' Lj). fold (p0 k h). set (g := N.to_nat (probe_pos k (p0 k h) j')) in *.
    assert (g < N.to_nat (2 ^ k))%nat as Lg by apply pstate_group.
    destruct (see_byte _ _ _ _ _ Se g 15) as (m & sm & R & E). destruct (read_at _ _ _ R) as ([Lm Lm'] & Hm & Hn). unfold ovf, grp, A. rewrite E.
    destruct P3 as [(s0 & Y1 & Y2)|(i' & u & a & L' & E' & Mx & Kx)].
    + apply (hist_ovf2 c st (w_log w) (hist w d) vs d s k ep (S ep) s0 m sm g (h mod 8)); auto; lia.
    + assert (i' < m)%nat as Lt.
      { destruct (Nat.lt_ge_cases i' m) as [Z|Z]; [exact Z|exfalso]. apply (Hn i' u a Z E'); [|exact Kx]. destruct a; cbn [marks] in Mx; try contradiction.
        destruct e; try contradiction. destruct Mx as (-> & -> & _). cbn [hits]. auto. }
      exact (hist_mark c st (w_log w) (hist w d) vs d s k ep i' u a g h m sm D L' E' Mx Lg (conj Lt Lm') Hm).
Qed.
Lemma pk_informed i q v : Pk s vs i q -> let h := hash_of c (hid (tb s)) q in
  (forall v', v = Some v' -> knows (w_log w) t v') ->
  (forall i' u a, (ep < i')%nat -> nth_error (w_log w) i' = Some (u, a) -> hits a d (VByte (i / 15) (i mod 15)) -> before st (w_log w) v i') ->
  path k h (fun g => (exists s0, hist w d (S ep) = Some s0 /\ marked s0 h g) \/ Mk (w_log w) ep d (before st (w_log w) v) h g) (i / 15) ->
  informed (knows (w_log w) t) i h.
Proof.
  intros Hq h Hv P1 P2. assert (forall i', before st (w_log w) v i' -> knows (w_log w) t i') as Z.
  { intros i' Hb. destruct v as [v|]; [|destruct Hb]. eapply knows_hb; [exact Hb|auto]. }
  split; [intros i' u a L E Hh; apply Z; eauto|]. eapply path_mono; [|exact P2]. cbv beta. intros g [Y|(i' & u & a & Y1 & Y2 & Y3 & Y4)]; [left; exact Y|right]. exists i', u, a. auto.
Qed.
(** an insertion whose counter has not moved sees the equivalent keys *)
Lemma sees_keys so p l x : sees w t d so -> nth_error vs t = Some (Some (Point p, l)) -> emplaces p = true -> ectx l = Some x ->
  nth_error (cnt s) (N.to_nat (p0 k (hk s p))) = Some (x_cg x) -> forall i q, Pk s vs i q -> keqf c (pid (tb s)) (pkey p) q = true -> shows k so (hk s p) i.
Proof.
  intros Se Ht Ep Ex Ec i q Hq He. pose proof (d_inv _ _ _ _ _ _ _ _ _ D) as [B _].
  pose proof (eq_hash c s p q (cb_compat _ _ _ _ B) He) as Eh. destruct (d_pk _ _ _ _ _ _ _ _ _ D i q Hq) as (v & P1 & P2 & P3). rewrite Eh in P1, P3.
  apply sees_shows; [exact Se| |].
  - rewrite <- Eh. apply (pk_informed i q v Hq); [|exact P2|rewrite Eh; exact P3]. intros v' Ev. destruct (P1 v' Ev) as (u & a & L & E & Z).
    eapply (d_cnt _ _ _ _ _ _ _ _ _ D t p l x); eauto.
  - destruct (pk_facts c k s vs i q B Hq) as (Z & _). rewrite Eh in Z. exact Z.
Qed.
End One.
End WSee.
