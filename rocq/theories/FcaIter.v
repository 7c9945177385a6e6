(** Element iterators of the closed-addressing containers run through the nodes in the order of the array's sequence. *)
From Coq Require Import NArith ZArith Bool List Arith Lia Permutation.
From Verif Require Import FloatModel HashArithModel HashArithProofs FoaModel FoaGroup FoaBase FcaLinks FcaLinksProofs FcaModel FcaInv.
Import ListNotations.
Local Open Scope nat_scope.

Section Iter.
Context {K V : Type}.
Notation node := (node K V).
Notation barray := (barray K V).
Notation table := (FcaModel.table K V).
Implicit Types (b : barray) (t : table) (x : node).

(** the iterator to node x *)
Definition NIt (b : barray) (x : node) (it : eit) : Prop := exists p, In x (chainat b p) /\ it = EI (Some (nd_id x)) (BI p (Some (p / 64))).
(** the iterator to element number m of l; number (length l) is the end *)
Definition Pos (b : barray) (l : list node) (m : nat) (it : eit) : Prop :=
  match nth_error l m with Some x => NIt b x it | None => m = length l /\ e_p it = None end.

Lemma e_node_ok b l x it : Wf b l -> NoDup (map nd_id l) -> NIt b x it -> e_node b it = Some x.
Proof.
  intros (o & H & ->) N (p & I & ->). unfold e_node. cbn [e_p e_b bindo]. rewrite (chain_at b _ o) by (try exact H; pose proof (chain_lt _ _ _ _ _ H I); lia). cbn [bindo].
  pose proof (chain_nodup b _ o p H N) as Nc. apply in_split in I as (c1 & c2 & E). apply (remove_id_split _ _ Nc c1 x c2 E eq_refl).
Qed.

(** walking over the buckets: from a marked bucket to the next *)
Lemma bseq_tail b P o l1 p l2 : WB b P o -> bseq (b_size b) P o = l1 ++ p :: l2 -> p <> b_size b -> exists q l3, l2 = q :: l3.
Proof.
  intros H E N. destruct (bseq_last _ _ _ _ (wb_links _ _ _ H)) as (l & El & Ni). destruct l2 as [|q l3]; [|eauto]. exfalso.
  rewrite El in E. apply app_inj_tail in E as [_ E]. congruence.
Qed.
Lemma bseq_end b P o l1 l2 : WB b P o -> bseq (b_size b) P o = l1 ++ b_size b :: l2 -> l2 = [].
Proof.
  intros H E. destruct (bseq_last _ _ _ _ (wb_links _ _ _ H)) as (l & El & Ni). pose proof (bseq_nodup _ _ _ _ (wb_links _ _ _ H)) as N. rewrite E in N.
  rewrite E in El. destruct l2 as [|y l2] using rev_ind; [reflexivity|]. clear IHl2. exfalso.
  change (l1 ++ b_size b :: l2 ++ [y]) with (l1 ++ (b_size b :: l2) ++ [y]) in El. rewrite app_assoc in El. apply app_inj_tail in El as [X _]. subst l. apply Ni. apply in_elt.
Qed.
Lemma marked_ne b o q : WB b (ne b) o -> In q (bseq (b_size b) (ne b) o) -> q <> b_size b -> q < b_size b /\ exists x r, chainat b q = x :: r.
Proof.
  intros H I N. apply (in_bseq _ _ _ _ (wb_links _ _ _ H)) in I. unfold marked in I. apply Nat.eqb_neq in N. rewrite N, orb_false_r in I. apply andb_true_iff in I as [A B]. apply Nat.ltb_lt in B.
  split; [exact B|]. apply ne_true in A. destruct (chainat b q); [contradiction|eauto].
Qed.
(** the first node at or after a bucket reached by the bucket iterator *)
Lemma first_at b o l1 q l2 A : WB b (ne b) o -> bseq (b_size b) (ne b) o = l1 ++ q :: l2 -> A = flat_map (chainat b) l1 ->
  chain b (BI q (Some (q / 64))) = Some (chainat b q) /\ Pos b (seqn b (ne b) o) (length A) (EI (first_id (chainat b q)) (BI q (Some (q / 64)))).
Proof.
  intros H E ->. assert (In q (bseq (b_size b) (ne b) o)) as I by (rewrite E; apply in_elt).
  assert (seqn b (ne b) o = flat_map (chainat b) l1 ++ chainat b q ++ flat_map (chainat b) l2) as S by (unfold seqn; rewrite E, flat_map_app; reflexivity).
  destruct (Nat.eq_dec q (b_size b)) as [->|N].
  - split; [apply (chain_at b (ne b) o); [exact H|lia]|]. rewrite (bseq_end b _ o _ _ H E) in S. cbn [flat_map] in S. rewrite (wb_last _ _ _ H) in *. cbn [app] in S. rewrite app_nil_r in S.
    unfold Pos. rewrite S. assert (nth_error (flat_map (chainat b) l1) (length (flat_map (chainat b) l1)) = None) as -> by (apply nth_error_None; lia). auto.
  - destruct (marked_ne b o q H I N) as (L & x & r & Ec). split; [apply (chain_at b (ne b) o); [exact H|lia]|].
    unfold Pos. rewrite S, nth_error_app2, Nat.sub_diag, Ec by lia. cbn [app nth_error]. exists q. split; [rewrite Ec; left; reflexivity|]. reflexivity.
Qed.
Lemma e_next_ok b l m it : Wf b l -> NoDup (map nd_id l) -> m < length l -> Pos b l m it -> exists it', e_next b it = Some it' /\ Pos b l (S m) it'.
Proof.
  intros (o & H & ->) N Lm PO. unfold Pos in PO. destruct (nth_error (seqn b (ne b) o) m) as [x|] eqn:Em; [|destruct PO as [PO _]; lia].
  destruct PO as (p & I & ->). pose proof (chain_lt _ _ _ _ _ H I) as L.
  assert (In p (bseq (b_size b) (ne b) o)) as Ip.
  { apply (in_bseq _ _ _ _ (wb_links _ _ _ H)). unfold marked. rewrite (ne_in _ _ _ I). apply Nat.ltb_lt in L. rewrite L. reflexivity. }
  apply in_split in Ip as (l1 & l2 & Eb). assert (In x (chainat b p)) as I2 by exact I.
  pose proof (chain_nodup b _ o p H N) as Nc. apply in_split in I as (c1 & c2 & Ec). destruct (remove_id_split (nd_id x) _ Nc c1 x c2 Ec eq_refl) as (_ & _ & EA & _).
  assert (seqn b (ne b) o = (flat_map (chainat b) l1 ++ c1) ++ x :: c2 ++ flat_map (chainat b) l2) as Sq.
  { unfold seqn. rewrite Eb, flat_map_app. cbn [flat_map]. rewrite Ec, <- !app_assoc. reflexivity. }
  assert (m = length (flat_map (chainat b) l1 ++ c1)) as Hm.
  { apply NoDup_map_inv in N. rewrite NoDup_nth_error in N. apply N; [exact Lm|]. rewrite Em, Sq, nth_error_app2, Nat.sub_diag by lia. reflexivity. }
  unfold e_next. cbn [e_p e_b bindo]. rewrite (chain_at b _ o) by (try exact H; lia). cbn [bindo]. rewrite EA. cbn [bindo]. destruct c2 as [|y c2].
  - destruct (bseq_tail b _ o _ _ _ H Eb ltac:(lia)) as (q & l3 & ->).
    rewrite (increment_seq (b_size b) (b_groups b) (ne b) o (wb_links _ _ _ H) (b_size b :: l1) p q l3) by (rewrite Eb; reflexivity). cbn [bindo].
    assert (bseq (b_size b) (ne b) o = (l1 ++ [p]) ++ q :: l3) as Eb2 by (rewrite Eb, <- app_assoc; reflexivity).
    destruct (first_at b o (l1 ++ [p]) q l3 _ H Eb2 eq_refl) as [A B]. rewrite A. cbn [bindo]. eexists. split; [reflexivity|].
    rewrite flat_map_app in B. cbn [flat_map] in B. rewrite Ec, app_nil_r, app_assoc, app_length in B. cbn [length] in B. rewrite Hm. rewrite <- plus_n_Sm, Nat.add_0_r in B. exact B.
  - exists (EI (Some (nd_id y)) (BI p (Some (p / 64)))). split; [reflexivity|]. unfold Pos.
    assert (nth_error (seqn b (ne b) o) (S m) = Some y) as ->; [|exists p; split; [rewrite Ec; apply in_or_app; right; right; left; reflexivity|reflexivity]].
    rewrite Sq, Hm, nth_error_app2 by lia. rewrite Nat.sub_succ_l, Nat.sub_diag by lia. reflexivity.
Qed.
Lemma e_begin_ok b o : WB b (ne b) o -> exists q l2, bseq (b_size b) (ne b) o = q :: l2 /\ b_begin b = Some (BI q (Some (q / 64))) /\ chain b (BI q (Some (q / 64))) = Some (chainat b q) /\
  Pos b (seqn b (ne b) o) 0 (EI (first_id (chainat b q)) (BI q (Some (q / 64)))).
Proof.
  intros H. destruct (bseq_last _ _ _ _ (wb_links _ _ _ H)) as (l & El & _). assert (exists q l2, bseq (b_size b) (ne b) o = q :: l2) as (q & l2 & Eb) by (rewrite El; destruct l; cbn [app]; eauto).
  exists q, l2. split; [exact Eb|]. unfold b_begin. pose proof (wb_pos _ _ _ H) as Z. destruct (Nat.eqb_spec (b_size b) 0) as [X|_]; [lia|].
  unfold b_at. assert ((0 <? b_size b) = true) as -> by (apply Nat.ltb_lt; exact Z).
  split; [apply (increment_first _ _ _ _ (wb_links _ _ _ H) q l2 Eb)|]. apply (first_at b o [] q l2 [] H Eb eq_refl).
Qed.

(** the empty state or a proper array *)
Definition BOk (b : barray) (l : list node) : Prop := (b = b_null (b_own b) /\ l = []) \/ Wf b l.
Lemma BOk_pos b l : BOk b l -> 0 < b_size b -> Wf b l.
Proof. intros [[E _]|H] L; [rewrite E in L; cbn in L; lia|exact H]. Qed.
Lemma BOk_cons b l : BOk b l -> l <> [] -> Wf b l.
Proof. intros [[_ E]|H] L; [contradiction|exact H]. Qed.
Lemma Wf_pos b l : Wf b l -> 0 < b_size b. Proof. intros (o & H & _). apply (wb_pos _ _ _ H). Qed.
Lemma table_begin t l : BOk (f_b t) l -> f_size t = N.of_nat (length l) -> exists it, e_begin t = Some it /\ Pos (f_b t) l 0 it.
Proof.
  intros H S. unfold e_begin. destruct (N.eqb_spec (f_size t) 0) as [E|E].
  - assert (l = []) as -> by (destruct l; [reflexivity|cbn in S; lia]). exists e_end. split; [reflexivity|]. split; reflexivity.
  - assert (l <> []) as Nl by (intros ->; cbn in S; lia). destruct (BOk_cons _ _ H Nl) as (o & W & ->).
    destruct (e_begin_ok _ o W) as (q & l2 & _ & A & B & C). rewrite A. cbn [bindo]. rewrite B. cbn [bindo]. eauto.
Qed.
Lemma e_eqb_pos b l m it m2 it2 : Wf b l -> NoDup (map nd_id l) -> m <= length l -> m2 <= length l -> Pos b l m it -> Pos b l m2 it2 -> e_eqb it it2 = (m =? m2).
Proof.
  intros H N L L2 P P2. unfold Pos in *. destruct (nth_error l m) as [x|] eqn:E, (nth_error l m2) as [x2|] eqn:E2.
  - destruct P as (p & I & ->), P2 as (p2 & I2 & ->). unfold e_eqb. cbn [e_p]. rewrite NoDup_nth_error in N. destruct (Nat.eqb_spec (nd_id x) (nd_id x2)) as [X|X], (Nat.eqb_spec m m2) as [Y|Y]; try reflexivity.
    + exfalso. apply Y. apply N; [rewrite map_length; apply nth_error_Some; congruence|]. rewrite !nth_error_map, E, E2. cbn. congruence.
    + exfalso. apply X. congruence.
  - destruct P as (p & I & ->), P2 as [-> X]. unfold e_eqb. rewrite X. cbn [e_p]. symmetry. apply Nat.eqb_neq. intros ->. congruence.
  - destruct P2 as (p & I & ->), P as [-> X]. unfold e_eqb. rewrite X. cbn [e_p]. symmetry. apply Nat.eqb_neq. intros <-. congruence.
  - destruct P as [-> X], P2 as [-> X2]. unfold e_eqb. rewrite X, X2, Nat.eqb_refl. reflexivity.
Qed.
Lemma pos_end b l : Pos b l (length l) e_end.
Proof. unfold Pos. assert (nth_error l (length l) = None) as -> by (apply nth_error_None; lia). split; reflexivity. Qed.
Lemma e_end_pos b l m it : m <= length l -> Pos b l m it -> e_eqb it e_end = (m =? length l).
Proof.
  intros L P. unfold Pos in P. destruct (nth_error l m) as [x|] eqn:E.
  - destruct P as (p & I & ->). unfold e_eqb. cbn [e_p e_end]. symmetry. apply Nat.eqb_neq. intros ->. assert (nth_error l (length l) <> None) as X by congruence. apply nth_error_Some in X. lia.
  - destruct P as [-> X]. unfold e_eqb. rewrite X, Nat.eqb_refl. reflexivity.
Qed.
Lemma skipn_nth {A} (l : list A) m (x : A) : nth_error l m = Some x -> skipn m l = x :: skipn (S m) l.
Proof. revert m. induction l as [|a l IH]; intros [|m] E; try discriminate; [cbn in E; injection E as ->; reflexivity|]. cbn [skipn nth_error] in *. rewrite (IH m E). reflexivity. Qed.
Lemma walk_ok b l : BOk b l -> NoDup (map nd_id l) -> forall fuel m it m2 it2, m <= m2 -> m2 <= length l -> Pos b l m it -> Pos b l m2 it2 -> m2 - m < fuel ->
  walk fuel b it it2 = Some (firstn (m2 - m) (skipn m l)).
Proof.
  intros H N. induction fuel as [|fuel IH]; intros m it m2 it2 L1 L2 P1 P2 F; [lia|]. cbn [walk].
  destruct (Nat.eq_dec (length l) 0) as [Z|Z].
  { destruct l; [|discriminate]. cbn in L2. assert (m2 = 0) as -> by lia. assert (m = 0) as -> by lia. destruct P1 as [_ X], P2 as [_ Y]. unfold e_eqb. rewrite X, Y. reflexivity. }
  assert (Wf b l) as W by (apply BOk_cons; [exact H|intros ->; cbn in Z; lia]).
  rewrite (e_eqb_pos b l m it m2 it2) by (auto; lia). destruct (Nat.eqb_spec m m2) as [->|Nm]; [rewrite Nat.sub_diag; reflexivity|].
  destruct (e_next_ok b l m it W N ltac:(lia) P1) as (it' & E & P'). unfold Pos in P1. destruct (nth_error l m) as [x|] eqn:Em; [|destruct P1; lia].
  rewrite (e_node_ok b l x it W N P1). cbn [bindo]. rewrite E. cbn [bindo]. rewrite (IH (S m) it' m2 it2) by (auto; lia). cbn [bindo].
  replace (m2 - m) with (S (m2 - S m)) by lia. rewrite (skipn_nth l m x Em). reflexivity.
Qed.
Lemma elements_ok t l : BOk (f_b t) l -> NoDup (map nd_id l) -> f_size t = N.of_nat (length l) -> elements t = Some l.
Proof.
  intros H N S. destruct (table_begin t l H S) as (it & E & P). unfold elements. rewrite E. cbn [bindo].
  rewrite (walk_ok (f_b t) l H N (fuel_of t) 0 it (length l) e_end); [|lia|lia|exact P|apply pos_end|unfold fuel_of; rewrite S, Nat2N.id; lia]. rewrite Nat.sub_0_r. cbn [skipn]. rewrite firstn_all. reflexivity.
Qed.
Lemma rest_ok t l m it : BOk (f_b t) l -> NoDup (map nd_id l) -> f_size t = N.of_nat (length l) -> m <= length l -> Pos (f_b t) l m it -> rest t it = Some (skipn m l).
Proof.
  intros H N S L P. unfold rest. rewrite (walk_ok (f_b t) l H N (fuel_of t) m it (length l) e_end); [|lia|lia|exact P|apply pos_end|unfold fuel_of; rewrite S, Nat2N.id; lia].
  rewrite firstn_all2; [reflexivity|rewrite skipn_length; lia].
Qed.

(** begin() incremented m times *)
Fixpoint advance (b : barray) (it : eit) (m : nat) : option eit := match m with O => Some it | S m' => it' <-o e_next b it ;; advance b it' m' end.
Definition nth_it (t : table) (m : nat) : option eit := it <-o e_begin t ;; advance (f_b t) it m.
Lemma advance_ok b l : Wf b l -> NoDup (map nd_id l) -> forall m k it, k + m <= length l -> Pos b l k it -> exists it', advance b it m = Some it' /\ Pos b l (k + m) it'.
Proof.
  intros H N. induction m as [|m IH]; intros k it L P; cbn [advance]; [rewrite Nat.add_0_r; eauto|].
  destruct (e_next_ok b l k it H N ltac:(lia) P) as (it' & E & P'). rewrite E. cbn [bindo]. rewrite <- plus_n_Sm. apply (IH (S k)); [lia|exact P'].
Qed.
Lemma nth_it_ok t l m : BOk (f_b t) l -> NoDup (map nd_id l) -> f_size t = N.of_nat (length l) -> m <= length l -> exists it, nth_it t m = Some it /\ Pos (f_b t) l m it.
Proof.
  intros H N S L. destruct (table_begin t l H S) as (it & E & P). unfold nth_it. rewrite E. cbn [bindo]. destruct m as [|m]; [cbn; eauto|].
  assert (Wf (f_b t) l) as W by (apply BOk_cons; [exact H|intros ->; cbn in L; lia]). apply (advance_ok _ _ W N (Datatypes.S m) 0 it L P).
Qed.
Lemma NIt_inj b l x it it' : Wf b l -> NoDup (map nd_id l) -> NIt b x it -> NIt b x it' -> it = it'.
Proof. intros (o & H & ->) N (p & I & ->) (q & J & ->). destruct (chain_unique b _ o p q x x H N I J eq_refl) as [-> _]. reflexivity. Qed.
Lemma NIt_exists b l x : Wf b l -> In x l -> exists it, NIt b x it.
Proof. intros (o & H & ->) I. apply (in_seqn b _ o x H) in I as (p & I). exists (EI (Some (nd_id x)) (BI p (Some (p / 64)))), p. auto. Qed.
Lemma NIt_in b l x it : Wf b l -> NIt b x it -> In x l.
Proof. intros (o & H & ->) (p & I & _). apply (in_seqn b _ o x H). eauto. Qed.
(** iterators to nodes that stay in their buckets stay valid *)
Lemma NIt_frame b b' x it : (forall q, In x (chainat b q) -> In x (chainat b' q)) -> NIt b x it -> NIt b' x it.
Proof. intros F (p & I & E). exists p. auto. Qed.
Lemma pos_nth b l l1 x l2 it : l = l1 ++ x :: l2 -> NIt b x it -> Pos b l (length l1) it.
Proof. intros -> N. unfold Pos. rewrite nth_error_app2, Nat.sub_diag by lia. exact N. Qed.
Lemma pos_node b l m it x : Pos b l m it -> nth_error l m = Some x -> NIt b x it.
Proof. unfold Pos. intros P E. rewrite E in P. exact P. Qed.
End Iter.
