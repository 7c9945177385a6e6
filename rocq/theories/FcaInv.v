(** Bucket arrays of the closed-addressing containers: invariant and the effect of the elementary operations on the sequence of nodes
    in iteration order. *)
From Coq Require Import NArith ZArith Bool List Arith Lia Permutation.
From Verif Require Import FloatModel HashArithModel HashArithProofs FoaModel FoaGroup FoaBase FcaLinks FcaLinksProofs FcaModel.
Import ListNotations.
Local Open Scope nat_scope.

Section Inv.
Context {K V : Type}.
Notation node := (node K V).
Notation barray := (barray K V).

Definition chainat (b : barray) (p : nat) : list node := nth p (b_chains b) [].
Definition ne (b : barray) (p : nat) : bool := negb (is_nil (chainat b p)).
(** iteration order, when the groups mark the buckets P *)
Definition seqn (b : barray) (P : nat -> bool) (o : list nat) : list node := flat_map (chainat b) (bseq (b_size b) P o).

Record WB (b : barray) (P : nat -> bool) (o : list nat) : Prop := {
  wb_pos : 0 < b_size b;
  wb_size : fca_size (b_idx b) = Some (N.of_nat (b_size b));
  wb_len : length (b_chains b) = b_size b + 1;
  wb_last : chainat b (b_size b) = [];
  wb_links : LInv (b_size b) (b_groups b) P o;
  wb_ne : forall p, p < b_size b -> ne b p = true -> P p = true
}.
(** a proper array whose iteration order is l *)
Definition Wf (b : barray) (l : list node) : Prop := exists o, WB b (ne b) o /\ l = seqn b (ne b) o.

Lemma chain_at b P o p g : WB b P o -> p <= b_size b -> chain b (BI p g) = Some (chainat b p).
Proof. intros H L. unfold chain, chainat. cbn [bi_p]. apply nth_error_nth'. rewrite (wb_len _ _ _ H). lia. Qed.
Lemma chain_out b P o p : WB b P o -> b_size b <= p -> chainat b p = [].
Proof.
  intros H L. destruct (Nat.eq_dec p (b_size b)) as [->|N]; [apply (wb_last _ _ _ H)|]. unfold chainat. apply nth_overflow. rewrite (wb_len _ _ _ H). lia.
Qed.
Lemma chain_lt b P o p x : WB b P o -> In x (chainat b p) -> p < b_size b.
Proof. intros H I. destruct (Nat.lt_ge_cases p (b_size b)) as [L|L]; [exact L|]. rewrite (chain_out _ _ _ _ H L) in I. destruct I. Qed.
Lemma ne_true b p : ne b p = true <-> chainat b p <> [].
Proof. unfold ne. destruct (chainat b p); cbn; split; congruence. Qed.
Lemma ne_in b p x : In x (chainat b p) -> ne b p = true.
Proof. intros I. apply ne_true. intros E. rewrite E in I. destruct I. Qed.

Definition setc (b : barray) (p : nat) (l : list node) : barray := BA (b_idx b) (b_size b) (FoaModel.set_nth (b_chains b) p l) (b_groups b) (b_own b).
Lemma set_chain_at b P o p g l : WB b P o -> p <= b_size b -> set_chain b (BI p g) l = Some (setc b p l).
Proof.
  intros H L. unfold set_chain. cbn [bi_p]. destruct (nth_error (b_chains b) p) eqn:E; [reflexivity|]. apply nth_error_None in E. rewrite (wb_len _ _ _ H) in E. lia.
Qed.
Lemma chainat_setc b P o p l q : WB b P o -> p <= b_size b -> chainat (setc b p l) q = if q =? p then l else chainat b q.
Proof. intros H L. unfold chainat, setc. cbn [b_chains]. apply set_nth_get. rewrite (wb_len _ _ _ H). lia. Qed.

Lemma in_seqn b P o x : WB b P o -> (In x (seqn b P o) <-> exists p, In x (chainat b p)).
Proof.
  intros H. unfold seqn. rewrite in_flat_map. split.
  - intros (p & _ & I). exists p. exact I.
  - intros (p & I). exists p. split; [|exact I]. apply (in_bseq _ _ _ _ (wb_links _ _ _ H)). unfold marked.
    pose proof (chain_lt _ _ _ _ _ H I) as L. rewrite (wb_ne _ _ _ H p L (ne_in _ _ _ I)). apply Nat.ltb_lt in L. rewrite L. reflexivity.
Qed.
Lemma flat_map_ext_in {A B} (f g : A -> list B) l : (forall a, In a l -> f a = g a) -> flat_map f l = flat_map g l.
Proof. induction l as [|a l IH]; intros E; [reflexivity|]. cbn [flat_map]. rewrite E by (left; reflexivity). f_equal. apply IH. intros x I. apply E. right. exact I. Qed.

(** the chain of a marked bucket is a segment of the sequence; the rest does not depend on it *)
Lemma seqn_split b P o p : WB b P o -> p < b_size b -> P p = true -> exists A C, seqn b P o = A ++ chainat b p ++ C /\
  (forall b', b_size b' = b_size b -> (forall q, q <> p -> chainat b' q = chainat b q) -> seqn b' P o = A ++ chainat b' p ++ C) /\
  (forall x, In x A \/ In x C -> exists q, q <> p /\ In x (chainat b q)).
Proof.
  intros H L Pp. assert (In p (bseq (b_size b) P o)) as I.
  { apply (in_bseq _ _ _ _ (wb_links _ _ _ H)). unfold marked. apply Nat.ltb_lt in L. rewrite Pp, L. reflexivity. }
  pose proof (bseq_nodup _ _ _ _ (wb_links _ _ _ H)) as N. apply in_split in I as (l1 & l2 & E). rewrite E in N.
  exists (flat_map (chainat b) l1), (flat_map (chainat b) l2). split; [|split].
  - unfold seqn. rewrite E, flat_map_app. reflexivity.
  - intros b' S D. unfold seqn. rewrite S, E, flat_map_app. cbn [flat_map]. apply NoDup_remove_2 in N.
    rewrite (flat_map_ext_in (chainat b') (chainat b) l1), (flat_map_ext_in (chainat b') (chainat b) l2); [reflexivity| |]; intros q I; apply D; intros ->; apply N; apply in_or_app; auto.
  - intros x X. apply NoDup_remove_2 in N. destruct X as [X|X]; apply in_flat_map in X as (q & I & X); exists q; (split; [|exact X]); intros ->; apply N; apply in_or_app; auto.
Qed.

Lemma WB_setc b P o p l : WB b P o -> p < b_size b -> (l <> [] -> P p = true) -> WB (setc b p l) P o.
Proof.
  intros H L Hl. pose proof (chainat_setc b P o p l) as CA. destruct H as [H1 H2 H3 H4 H5 H6]. assert (WB b P o) as H by (constructor; assumption).
  constructor; try assumption.
  - cbn [setc b_chains b_size]. rewrite set_nth_len. exact H3.
  - rewrite CA by (try exact H; lia). cbn [setc b_size]. destruct (Nat.eqb_spec (b_size b) p); [lia|exact H4].
  - cbn [setc b_size]. intros q Lq E. apply ne_true in E. rewrite CA in E by (try exact H; lia). destruct (Nat.eqb_spec q p) as [->|N]; [apply Hl; exact E|].
    apply H6; [exact Lq|apply ne_true; exact E].
Qed.

Lemma seqn_marks b P P' o o' : (forall i, marked (b_size b) P i = true -> marked (b_size b) P' i = true) ->
  bseq (b_size b) P o = filter (marked (b_size b) P) (bseq (b_size b) P' o') ->
  (forall i, marked (b_size b) P' i = true -> marked (b_size b) P i = false -> chainat b i = []) ->
  (forall i, In i (bseq (b_size b) P' o') -> marked (b_size b) P' i = true) ->
  seqn b P o = seqn b P' o'.
Proof.
  intros _ E D I. unfold seqn. rewrite E. apply flat_map_skip. intros i J F. apply D; [apply I; exact J|exact F].
Qed.

Lemma WB_groups b P P' o' gs : (forall p, p < b_size b -> ne b p = true -> P' p = true) -> LInv (b_size b) gs P' o' -> forall o, WB b P o -> WB (set_groups b gs) P' o'.
Proof. intros N L o H. destruct H. constructor; try assumption. Qed.

Lemma b_unlink_ok b P o p : WB b P o -> p < b_size b -> P p = true -> chainat b p = [] ->
  exists gs' o', b_unlink b (BI p (Some (p / 64))) = Some (set_groups b gs') /\ WB (set_groups b gs') (del_mark P p) o' /\ seqn (set_groups b gs') (del_mark P p) o' = seqn b P o /\
    bseq (b_size b) (del_mark P p) o' = filter (marked (b_size b) (del_mark P p)) (bseq (b_size b) P o).
Proof.
  intros H L Pp E. destruct (unlink_bucket_ok _ _ _ _ p (wb_links _ _ _ H) L Pp) as (gs' & o' & U & LI & S).
  exists gs', o'. unfold b_unlink. rewrite U. cbn [bindo]. split; [reflexivity|].
  assert (bseq (b_size b) (del_mark P p) o' = filter (marked (b_size b) (del_mark P p)) (bseq (b_size b) P o)) as BS.
  { apply bseq_shrunk; [exact S|]. intros i. rewrite marked_del by exact L. intros X. apply andb_true_iff in X. apply X. }
  split; [|split; [|exact BS]].
  - apply (WB_groups b P (del_mark P p) o' gs') with (o := o); [|exact LI|exact H]. intros q Lq Nq. unfold del_mark. rewrite (wb_ne _ _ _ H q Lq Nq).
    destruct (Nat.eqb_spec q p) as [->|]; [|reflexivity]. apply ne_true in Nq. contradiction.
  - change (seqn (set_groups b gs') (del_mark P p) o') with (seqn b (del_mark P p) o'). apply seqn_marks.
    + intros i. rewrite marked_del by exact L. intros X. apply andb_true_iff in X. apply X.
    + exact BS.
    + intros i M1 M2. rewrite marked_del, M1 in M2 by exact L. cbn [andb] in M2. apply negb_false_iff, Nat.eqb_eq in M2. subst i. exact E.
    + intros i I. apply (in_bseq _ _ _ _ (wb_links _ _ _ H)) in I. exact I.
Qed.

Lemma filter_filter {A} (f g : A -> bool) l : (forall x, f x = true -> g x = true) -> filter f (filter g l) = filter f l.
Proof.
  intros H. induction l as [|x l IH]; [reflexivity|]. cbn [filter]. destruct (g x) eqn:E; cbn [filter]; [rewrite IH; reflexivity|].
  destruct (f x) eqn:F; [rewrite (H x F) in E; discriminate|exact IH].
Qed.
Lemma append_bits_seq b P o p : WB b P o -> p < b_size b -> chainat b p = [] ->
  exists gs' o', append_bits (b_size b) (b_groups b) (BI p (Some (p / 64))) = Some gs' /\ WB (set_groups b gs') (add_mark P p) o' /\ seqn (set_groups b gs') (add_mark P p) o' = seqn b P o.
Proof.
  intros H L E. destruct (append_bits_ok _ _ _ _ p (wb_links _ _ _ H) L) as (gs' & o' & U & LI & S).
  exists gs', o'. split; [exact U|]. split.
  - apply (WB_groups b P (add_mark P p) o' gs') with (o := o); [|exact LI|exact H]. intros q Lq Nq. unfold add_mark. rewrite (wb_ne _ _ _ H q Lq Nq). reflexivity.
  - change (seqn (set_groups b gs') (add_mark P p) o') with (seqn b (add_mark P p) o'). symmetry. apply seqn_marks.
    + intros i. rewrite marked_add by exact L. intros ->. reflexivity.
    + assert (forall g, filter (marked (b_size b) P) (gseq (b_size b) (add_mark P p) g) = gseq (b_size b) P g) as F.
      { intros g. unfold gseq. apply filter_filter. intros i. rewrite marked_add by exact L. intros ->. reflexivity. }
      assert (forall l, filter (marked (b_size b) P) (flat_map (gseq (b_size b) (add_mark P p)) l) = flat_map (gseq (b_size b) P) l) as F2.
      { intros l. rewrite filter_flat_map. apply flat_map_ext. intros g. apply F. }
      unfold bseq. rewrite F2. destruct S as [->|(-> & Ni & Lg)]; [reflexivity|]. cbn [app flat_map].
      assert (gseq (b_size b) P (p / 64) = []) as ->; [|reflexivity].
      destruct (gseq (b_size b) P (p / 64)) as [|i r] eqn:G; [reflexivity|]. exfalso.
      assert (In i (gseq (b_size b) P (p / 64))) as I by (rewrite G; left; reflexivity). apply in_gseq in I as [D M]. apply Ni.
      apply (in_bseq _ _ _ _ (wb_links _ _ _ H)) in M. unfold bseq in M. apply in_flat_map in M as (g & Ig & X). apply in_gseq in X as [X _]. congruence.
    + intros i M1 M2. rewrite marked_add, M2 in M1 by exact L. cbn [orb] in M1. apply Nat.eqb_eq in M1. subst i. exact E.
    + intros i I. apply (in_bseq _ _ _ _ LI) in I. exact I.
Qed.

Lemma WB_ext b P P' o : (forall i, i < b_size b -> P i = P' i) -> WB b P o -> WB b P' o.
Proof. intros E []. constructor; try assumption; [apply (LInv_ext _ _ P); assumption|]. intros p L N. rewrite <- E by exact L. auto. Qed.
Lemma seqn_ext b P P' o : (forall i, i < b_size b -> P i = P' i) -> seqn b P o = seqn b P' o.
Proof. intros E. unfold seqn, bseq. f_equal. apply flat_map_ext. intros g. apply gseq_ext. intros i _ L. apply E. exact L. Qed.
Lemma Wf_of b P o : WB b P o -> (forall p, p < b_size b -> P p = ne b p) -> Wf b (seqn b P o).
Proof. intros H E. exists o. split; [apply (WB_ext b P); assumption|apply seqn_ext; exact E]. Qed.

(** *** Insertion at the beginning of a bucket, or after node i of the bucket *)
Lemma insert_after_some i (x : node) l : In i (map nd_id l) -> exists l1 y l2, l = l1 ++ y :: l2 /\ nd_id y = i /\ insert_after i x l = Some (l1 ++ y :: x :: l2).
Proof.
  induction l as [|a l IH]; [intros []|]. intros I. cbn [insert_after]. destruct (Nat.eqb_spec (nd_id a) i) as [E|N].
  - exists [], a, l. auto.
  - destruct I as [I|I]; [contradiction|]. destruct (IH I) as (l1 & y & l2 & -> & E & X). rewrite X. cbn [bindo]. exists (a :: l1), y, l2. auto.
Qed.
(** insertion: where the new node goes *)
Definition Inserted (x : node) (l l' : list node) : Prop := exists l1 l2, l = l1 ++ l2 /\ l' = l1 ++ x :: l2.
Lemma Inserted_perm x l l' : Inserted x l l' -> Permutation l' (x :: l).
Proof. intros (l1 & l2 & -> & ->). symmetry. apply Permutation_middle. Qed.

(** ... and after which node *)
Definition InsAt (hint : option nat) (x : node) (l l' : list node) : Prop := exists l1 l2, l = l1 ++ l2 /\ l' = l1 ++ x :: l2 /\ forall i, hint = Some i -> exists l0 y, l1 = l0 ++ [y] /\ nd_id y = i.
Lemma InsAt_ins hint x l l' : InsAt hint x l l' -> Inserted x l l'.
Proof. intros (l1 & l2 & A & B & _). exists l1, l2. auto. Qed.

Lemma insert_node_hint_ok b l p x hint : Wf b l -> p < b_size b -> (forall i, hint = Some i -> In i (map nd_id (chainat b p))) ->
  exists b' l', insert_node_hint b (BI p (Some (p / 64))) x hint = Some b' /\ Wf b' l' /\ InsAt hint x l l' /\
    b_idx b' = b_idx b /\ b_size b' = b_size b /\ b_own b' = b_own b /\
    (forall q, q <> p -> chainat b' q = chainat b q) /\
    (match hint with
     | None => chainat b' p = x :: chainat b p
     | Some i => exists l1 y l2, chainat b p = l1 ++ y :: l2 /\ nd_id y = i /\ chainat b' p = l1 ++ y :: x :: l2
     end).
Proof.
  intros (o & H & ->) L Hh. unfold insert_node_hint.
  assert (exists b1 P o1, append_bucket_group b (BI p (Some (p / 64))) = Some b1 /\ WB b1 P o1 /\ seqn b1 P o1 = seqn b (ne b) o /\ P p = true /\ (forall q, q <> p -> P q = ne b q) /\
     b_chains b1 = b_chains b /\ b_idx b1 = b_idx b /\ b_size b1 = b_size b /\ b_own b1 = b_own b) as (b1 & P & o1 & E1 & H1 & S1 & Pp & Pq & C1 & X1 & X2 & X3).
  { unfold append_bucket_group. rewrite (chain_at b _ o) by (try exact H; lia). cbn [bindo]. destruct (is_nil (chainat b p)) eqn:E.
    - assert (chainat b p = []) as En by (destruct (chainat b p); [reflexivity|discriminate]).
      destruct (append_bits_seq b _ o p H L En) as (gs' & o' & U & W & S). rewrite U. cbn [bindo]. exists (set_groups b gs'), (add_mark (ne b) p), o'.
      split; [reflexivity|]. split; [exact W|]. split; [exact S|]. unfold add_mark. split; [rewrite Nat.eqb_refl, orb_true_r; reflexivity|]. split; [|auto].
      intros q N. apply Nat.eqb_neq in N. rewrite N, orb_false_r. reflexivity.
    - exists b, (ne b), o. split; [reflexivity|]. split; [exact H|]. split; [reflexivity|]. split; [unfold ne; rewrite E; reflexivity|]. auto. }
  rewrite E1. cbn [bindo]. assert (forall q, chainat b1 q = chainat b q) as CE by (intros q; unfold chainat; rewrite C1; reflexivity).
  rewrite <- X2 in L. rewrite (chain_at b1 P o1) by (try exact H1; lia). cbn [bindo].
  destruct (seqn_split b1 P o1 p H1 L Pp) as (A & C & EA & EF & _).
  assert (exists l', match hint with Some i => insert_after i x (chainat b1 p) | None => Some (x :: chainat b1 p) end = Some l' /\ InsAt hint x (chainat b1 p) l' /\ l' <> [] /\
    (match hint with None => l' = x :: chainat b p | Some i => exists l1 y l2, chainat b p = l1 ++ y :: l2 /\ nd_id y = i /\ l' = l1 ++ y :: x :: l2 end)) as (l' & EL & IL & NL & HL).
  { rewrite CE. destruct hint as [i|].
    - destruct (insert_after_some i x (chainat b p) (Hh i eq_refl)) as (l1 & y & l2 & E & Ei & EI). rewrite EI. exists (l1 ++ y :: x :: l2). split; [reflexivity|]. split; [|split].
      + exists (l1 ++ [y]), l2. rewrite E, <- !app_assoc. split; [reflexivity|]. split; [reflexivity|]. intros j [= <-]. exists l1, y. auto.
      + destruct l1; discriminate.
      + eauto 10.
    - exists (x :: chainat b p). split; [reflexivity|]. split; [exists [], (chainat b p); split; [reflexivity|split; [reflexivity|discriminate]]|]. split; [discriminate|reflexivity]. }
  exists (setc b1 p l'), (A ++ l' ++ C). split; [|split; [|split]].
  - destruct hint as [i|]; [rewrite EL; cbn [bindo]|injection EL as <-]; rewrite (set_chain_at b1 P o1) by (try exact H1; lia); reflexivity.
  - assert (WB (setc b1 p l') P o1) as W by (apply WB_setc; auto).
    assert (seqn (setc b1 p l') P o1 = A ++ l' ++ C) as <-.
    { rewrite (EF (setc b1 p l')); [|reflexivity|intros q N; rewrite (chainat_setc b1 P o1) by (try exact H1; lia); apply Nat.eqb_neq in N; rewrite N; reflexivity].
      rewrite (chainat_setc b1 P o1), Nat.eqb_refl by (try exact H1; lia). reflexivity. }
    apply Wf_of; [exact W|]. cbn [setc b_size]. intros q Lq. unfold ne. rewrite (chainat_setc b1 P o1) by (try exact H1; lia). destruct (Nat.eqb_spec q p) as [->|N].
    + rewrite Pp. destruct l'; [contradiction|reflexivity].
    + rewrite Pq by exact N. unfold ne. rewrite CE. reflexivity.
  - rewrite <- S1, EA. destruct IL as (m1 & m2 & -> & -> & IH). exists (A ++ m1), (m2 ++ C). rewrite <- !app_assoc. split; [reflexivity|]. split; [reflexivity|]. intros i Hi. destruct (IH i Hi) as (l0 & y & -> & Ei). exists (A ++ l0), y. rewrite <- app_assoc. auto.
  - cbn [setc b_idx b_size b_own]. split; [exact X1|]. split; [exact X2|]. split; [exact X3|]. split.
    + intros q N. rewrite (chainat_setc b1 P o1) by (try exact H1; lia). apply Nat.eqb_neq in N. rewrite N. apply CE.
    + rewrite (chainat_setc b1 P o1), Nat.eqb_refl by (try exact H1; lia). destruct hint; exact HL.
Qed.
Lemma insert_node_eq (b : barray) it (x : node) : insert_node b it x = insert_node_hint b it x None.
Proof. reflexivity. Qed.

(** *** Removal *)
Lemma remove_id_split i l : NoDup (map nd_id l) -> forall l1 (x : node) l2, l = l1 ++ x :: l2 -> nd_id x = i -> remove_id i l = Some (l1 ++ l2) /\ lookup_id i l = Some x /\ after i l = Some l2 /\ split_id i l = Some (l1, x :: l2) /\
  forall y, replace_id i y l = Some (l1 ++ y :: l2).
Proof.
  intros N l1 x l2 -> E. induction l1 as [|a l1 IH]; cbn [app remove_id lookup_id after split_id replace_id].
  - rewrite E, Nat.eqb_refl. auto.
  - cbn [app map] in N. inversion N as [|? ? Na N']. subst. destruct (Nat.eqb_spec (nd_id a) (nd_id x)) as [X|X].
    + exfalso. apply Na. rewrite X, map_app, in_app_iff. right. left. reflexivity.
    + destruct (IH N') as (E1 & E2 & E3 & E4 & E5). rewrite E1, E2, E3, E4. cbn [bindo]. split; [reflexivity|]. split; [reflexivity|]. split; [reflexivity|]. split; [reflexivity|].
      intros y. rewrite E5. reflexivity.
Qed.
Lemma lookup_id_in i l (x : node) : lookup_id i l = Some x -> In x l /\ nd_id x = i.
Proof. induction l as [|a l IH]; [discriminate|]. cbn [lookup_id]. destruct (Nat.eqb_spec (nd_id a) i); [intros [= ->]; split; [left; reflexivity|assumption]|]. intros X. apply IH in X as [A B]. split; [right|]; assumption. Qed.
Lemma nodup_map_app {A B} (f : A -> B) (l1 l2 l3 : list A) : NoDup (map f (l1 ++ l2 ++ l3)) -> NoDup (map f l2).
Proof.
  rewrite !map_app. intros N. induction (map f l1) as [|a r IH]; [|inversion N; auto]. cbn [app] in N. induction (map f l2) as [|a r IH]; [constructor|]. cbn [app] in N. inversion N. subst.
  constructor; [intros X; apply H1; apply in_or_app; left; exact X|auto].
Qed.
Lemma chain_nodup b P o p : WB b P o -> NoDup (map nd_id (seqn b P o)) -> NoDup (map nd_id (chainat b p)).
Proof.
  intros H N. destruct (chainat b p) as [|x r] eqn:E; [constructor|]. assert (In x (chainat b p)) as I by (rewrite E; left; reflexivity).
  pose proof (chain_lt _ _ _ _ _ H I) as L. destruct (seqn_split b P o p H L (wb_ne _ _ _ H p L (ne_in _ _ _ I))) as (A & C & S & _). rewrite S in N. rewrite <- E. apply (nodup_map_app nd_id A _ C). exact N.
Qed.
(** a node is in one bucket only *)
Lemma chain_unique b P o p q x y : WB b P o -> NoDup (map nd_id (seqn b P o)) -> In x (chainat b p) -> In y (chainat b q) -> nd_id x = nd_id y -> p = q /\ x = y.
Proof.
  intros H N I J E. pose proof (chain_lt _ _ _ _ _ H I) as L. destruct (seqn_split b P o p H L (wb_ne _ _ _ H p L (ne_in _ _ _ I))) as (A & C & S & F & _).
  assert (In y (seqn b P o)) as Iy by (apply in_seqn; eauto).
  apply in_split in I as (c1 & c2 & Ec). rewrite S, Ec in N, Iy.
  assert (A ++ (c1 ++ x :: c2) ++ C = (A ++ c1) ++ x :: (c2 ++ C)) as R by (rewrite <- !app_assoc; reflexivity). rewrite R in N, Iy.
  rewrite map_app in N. cbn [map] in N. assert (x = y) as Exy.
  { apply in_elt_inv in Iy as [->|Iy]; [reflexivity|]. exfalso. apply NoDup_remove_2 in N. apply N. rewrite E, <- map_app. apply in_map. exact Iy. }
  split; [|exact Exy]. subst y. destruct (Nat.eq_dec p q) as [|Nq]; [assumption|]. exfalso.
  (* x in bucket q, so it is in A or C *)
  pose proof (chain_lt _ _ _ _ _ H J) as Lq. pose proof (wb_ne _ _ _ H q Lq (ne_in _ _ _ J)) as Pq.
  assert (In x (seqn (setc b p []) P o)) as X.
  { apply in_seqn; [apply WB_setc; [exact H|exact L|intros X; contradiction]|]. exists q. rewrite (chainat_setc b P o) by (try exact H; lia). destruct (Nat.eqb_spec q p); [congruence|exact J]. }
  rewrite (F (setc b p [])) in X; [|reflexivity|intros q' N'; rewrite (chainat_setc b P o) by (try exact H; lia); apply Nat.eqb_neq in N'; rewrite N'; reflexivity].
  rewrite (chainat_setc b P o), Nat.eqb_refl in X by (try exact H; lia). cbn [app] in X. apply NoDup_remove_2 in N. apply N. rewrite <- map_app. apply in_map.
  apply in_or_app. apply in_app_or in X as [X|X]; [left; apply in_or_app; left; exact X|right; apply in_or_app; right; exact X].
Qed.

Lemma bseq_ext sz P P' o : (forall i, i < sz -> P i = P' i) -> bseq sz P o = bseq sz P' o.
Proof. intros E. unfold bseq. apply flat_map_ext. intros g. apply gseq_ext. intros i _ L. apply E. exact L. Qed.
Lemma filter_all {A} (f : A -> bool) l : (forall x, In x l -> f x = true) -> filter f l = l.
Proof. induction l as [|x l IH]; intros H; [reflexivity|]. cbn [filter]. rewrite H by (left; reflexivity). f_equal. apply IH. intros y I. apply H. right. exact I. Qed.

Lemma extract_node_ord b o p x : WB b (ne b) o -> NoDup (map nd_id (seqn b (ne b) o)) -> In x (chainat b p) ->
  exists b' o' l1 l2, extract_node b (BI p (Some (p / 64))) (nd_id x) = Some b' /\ seqn b (ne b) o = l1 ++ x :: l2 /\ WB b' (ne b') o' /\ seqn b' (ne b') o' = l1 ++ l2 /\
    b_idx b' = b_idx b /\ b_size b' = b_size b /\ b_own b' = b_own b /\ (forall q, q <> p -> chainat b' q = chainat b q) /\
    (exists c1 c2, chainat b p = c1 ++ x :: c2 /\ chainat b' p = c1 ++ c2) /\
    bseq (b_size b) (ne b') o' = filter (marked (b_size b) (ne b')) (bseq (b_size b) (ne b) o).
Proof.
  intros H N I. pose proof (chain_lt _ _ _ _ _ H I) as L. destruct (seqn_split b _ o p H L (ne_in _ _ _ I)) as (A & C & S & F & _).
  pose proof (chain_nodup b _ o p H N) as Nc. apply in_split in I as (c1 & c2 & Ec). destruct (remove_id_split (nd_id x) _ Nc c1 x c2 Ec eq_refl) as (ER & _).
  unfold extract_node. rewrite (chain_at b _ o) by (try exact H; lia). cbn [bindo]. rewrite ER. cbn [bindo]. rewrite (set_chain_at b _ o) by (try exact H; lia). cbn [bindo].
  assert (ne b p = true) as Np by (apply ne_true; rewrite Ec; destruct c1; discriminate).
  assert (WB (setc b p (c1 ++ c2)) (ne b) o) as W by (apply WB_setc; auto).
  assert (forall q, chainat (setc b p (c1 ++ c2)) q = if q =? p then c1 ++ c2 else chainat b q) as CA by (intros q; apply (chainat_setc b (ne b) o); [exact H|lia]).
  assert (seqn (setc b p (c1 ++ c2)) (ne b) o = A ++ (c1 ++ c2) ++ C) as SE.
  { rewrite (F (setc b p (c1 ++ c2))); [rewrite CA, Nat.eqb_refl; reflexivity|reflexivity|]. intros q Nq. rewrite CA. apply Nat.eqb_neq in Nq. rewrite Nq. reflexivity. }
  assert (seqn b (ne b) o = (A ++ c1) ++ x :: (c2 ++ C)) as SL by (rewrite S, Ec, <- !app_assoc; reflexivity).
  assert (A ++ (c1 ++ c2) ++ C = (A ++ c1) ++ (c2 ++ C)) as RE by (rewrite <- !app_assoc; reflexivity). rewrite RE in SE.
  destruct (is_nil (c1 ++ c2)) eqn:En.
  - assert (c1 ++ c2 = []) as E0 by (destruct (c1 ++ c2); [reflexivity|discriminate]).
    destruct (b_unlink_ok (setc b p (c1 ++ c2)) _ o p W L Np) as (gs' & o' & U & W' & S' & B'); [rewrite CA, Nat.eqb_refl; exact E0|].
    set (b' := set_groups (setc b p (c1 ++ c2)) gs') in *.
    assert (forall q, q < b_size b' -> del_mark (ne b) p q = ne b' q) as D.
    { intros q Lq. unfold del_mark, ne. change (chainat b' q) with (chainat (setc b p (c1 ++ c2)) q). rewrite CA. destruct (Nat.eqb_spec q p) as [->|]; cbn [negb].
      - rewrite E0, andb_false_r. reflexivity.
      - rewrite andb_true_r. reflexivity. }
    exists b', o', (A ++ c1), (c2 ++ C). split; [exact U|]. split; [exact SL|]. split; [apply (WB_ext b' (del_mark (ne b) p)); assumption|]. split; [|split; [|split; [|split; [|split; [|split]]]]]; try reflexivity.
    + rewrite <- SE, <- S'. apply seqn_ext. intros i Li. symmetry. apply D. exact Li.
    + intros q Nq. change (chainat (setc b p (c1 ++ c2)) q = chainat b q). rewrite CA. apply Nat.eqb_neq in Nq. rewrite Nq. reflexivity.
    + exists c1, c2. split; [exact Ec|]. change (chainat (setc b p (c1 ++ c2)) p = c1 ++ c2). rewrite CA, Nat.eqb_refl. reflexivity.
    + rewrite <- (bseq_ext (b_size b) (del_mark (ne b) p) (ne b') o') by exact D. cbn [setc b_size] in B'. rewrite B'. apply filter_ext. intros i. apply marked_ext. intros Li. apply D. exact Li.
  - set (b' := setc b p (c1 ++ c2)) in *.
    assert (forall q, q < b_size b' -> ne b q = ne b' q) as D.
    { intros q Lq. unfold ne at 2. rewrite CA. destruct (Nat.eqb_spec q p) as [->|]; [rewrite En, Np; reflexivity|reflexivity]. }
    exists b', o, (A ++ c1), (c2 ++ C). split; [reflexivity|]. split; [exact SL|]. split; [apply (WB_ext b' (ne b)); assumption|]. split; [|split; [|split; [|split; [|split; [|split]]]]]; try reflexivity.
    + rewrite <- SE. apply seqn_ext. intros i Li. symmetry. apply D. exact Li.
    + intros q Nq. rewrite CA. apply Nat.eqb_neq in Nq. rewrite Nq. reflexivity.
    + exists c1, c2. split; [exact Ec|]. rewrite CA, Nat.eqb_refl. reflexivity.
    + rewrite <- (bseq_ext (b_size b) (ne b) (ne b') o) by exact D. symmetry. apply filter_all. intros i Ii. rewrite <- (marked_ext (b_size b) (ne b)); [apply (in_bseq _ _ _ _ (wb_links _ _ _ H)); exact Ii|]. intros Li. apply D. exact Li.
Qed.
Lemma extract_node_ok b l p x : Wf b l -> NoDup (map nd_id l) -> In x (chainat b p) ->
  exists b' l1 l2, extract_node b (BI p (Some (p / 64))) (nd_id x) = Some b' /\ l = l1 ++ x :: l2 /\ Wf b' (l1 ++ l2) /\
    b_idx b' = b_idx b /\ b_size b' = b_size b /\ b_own b' = b_own b /\ (forall q, q <> p -> chainat b' q = chainat b q) /\
    exists c1 c2, chainat b p = c1 ++ x :: c2 /\ chainat b' p = c1 ++ c2.
Proof.
  intros (o & H & ->) N I. destruct (extract_node_ord b o p x H N I) as (b' & o' & l1 & l2 & E & S & W & S' & X1 & X2 & X3 & X4 & X5 & _).
  exists b', l1, l2. split; [exact E|]. split; [exact S|]. split; [exists o'; auto|]. auto.
Qed.
End Inv.
