(** Global invariant of programs over concurrent containers. *)
From Coq Require Import NArith Bool List Arith Lia ZifyBool ZifyNat ZifyN Permutation.
From Verif Require Import FloatModel SizeModel SizeProofs GroupModel GroupSpec FoaModel FoaGroup FoaBase FoaFind FoaArr FoaInv FoaRehash FoaSpec FoaWorld FoaRun
  ConcSpec ConcModel ConcInv ConcStep ConcStep2 ConcStep3.
Import ListNotations.
Local Open Scope N_scope.
Notation set_nth := FoaModel.set_nth.

Section Sys.
Context {K V : Type} (c : Cfg K V).
Hypothesis HC : good_cfg c.
Notation arrays := (arrays K V).
Notation table := (table K V).
Notation Sh := (@Sh K V).
Notation pop := (pop K V). Notation cop := (cop K V). Notation loc := (@loc K V). Notation cres := (cres K V).
Notation ent := (option (cop * loc)).
Notation CBase := (CBase c). Notation CUniq := (CUniq c). Notation CInv := (CInv c). Notation TI := (TI c). Notation TI1 := (TI1 c).
Notation conf := (@conf K V). Notation pc := (@pc K V).
Notation Inv := (Inv c).

(** *** keys in different slots are not equivalent *)
Lemma fop_map {X Y} (R : Y -> Y -> Prop) (f : X -> list Y) l :
  (forall x, (length (f x) <= 1)%nat) ->
  (forall i j x y a b, (i < j)%nat -> nth_error l i = Some x -> nth_error l j = Some y -> In a (f x) -> In b (f y) -> R a b) ->
  ForallOrdPairs R (flat_map f l).
Proof.
  intros H1. induction l as [|x l IH]; intros H; cbn [flat_map]; [constructor|].
  assert (ForallOrdPairs R (flat_map f l)) as IHl.
  { apply IH. intros i j u v a b L Hi Hj. apply (H (S i) (S j) u v); auto. lia. }
  assert (forall a b, In a (f x) -> In b (flat_map f l) -> R a b) as Hx.
  { intros a b Ha Hb. apply in_flat_map in Hb as (y & Hy & Hb). apply In_nth_error in Hy as [j Hj]. apply (H 0%nat (S j) x y a b); auto. lia. }
  specialize (H1 x). destruct (f x) as [|a [|]]; cbn in *; [exact IHl| |lia].
  constructor; [apply Forall_forall; intros b Hb; apply Hx; auto|exact IHl].
Qed.
Lemma live_one (x : cell K V) : (length (live x) <= 1)%nat.
Proof. destruct x; cbn; lia. Qed.
Lemma uniq_of_slots p (a : arrays) : (forall i j e e', nth_error (cells a) i = Some (Live e) -> nth_error (cells a) j = Some (Live e') -> keqf c p (fst e) (fst e') = true -> i = j) ->
  Uniq c p (elems a).
Proof.
  intros H. unfold Uniq, elems. apply fop_map; [apply live_one|].
  intros i j x y e e' L Hi Hj He He'. destruct x; cbn in He; try contradiction. destruct y; cbn in He'; try contradiction.
  destruct He as [<-|[]], He' as [<-|[]]. destruct (keqf c p (fst e0) (fst e1)) eqn:E; [|reflexivity].
  pose proof (H i j _ _ Hi Hj E). lia.
Qed.
Lemma slots_of_uniq p (a : arrays) : equivalence c p -> Uniq c p (elems a) ->
  forall i j e e', nth_error (cells a) i = Some (Live e) -> nth_error (cells a) j = Some (Live e') -> keqf c p (fst e) (fst e') = true -> i = j.
Proof.
  intros (_ & Sy & _). unfold Uniq, elems. induction (cells a) as [|x l IH]; intros U i j e e' Hi Hj E; [destruct i; discriminate|].
  cbn [flat_map] in U. assert (Uniq c p (flat_map live l)) as Ul by (eapply uniq_app_r; exact U).
  assert (forall n y, nth_error l n = Some (Live y) -> In y (flat_map live l)) as Hin.
  { intros n y Hn. apply in_flat_map. exists (Live y). split; [eapply nth_error_In; exact Hn|now left]. }
  destruct i as [|i], j as [|j]; cbn in Hi, Hj.
  - reflexivity.
  - injection Hi as ->. cbn in U. inversion U as [|? ? F _]; subst. rewrite Forall_forall in F. rewrite (F e') in E; [discriminate|]. eapply Hin; exact Hj.
  - injection Hj as ->. cbn in U. inversion U as [|? ? F _]; subst. rewrite Forall_forall in F. rewrite Sy, (F e) in E; [discriminate|]. eapply Hin; exact Hi.
  - f_equal. eapply IH; eauto.
Qed.

(** *** no thread inside *)
Definition Out (vs : list ent) : Prop := forall t o l, nth_error vs t = Some (Some (o, l)) -> outside l = true.
Lemma out_facts (l : loc) : outside l = true -> infl l = None /\ wt l = 0 /\ (forall m, adm m l = 0) /\ (forall o, lock_of o l = None) /\ ectx l = None /\ (forall x n, l <> LCons x n).
Proof. destruct l; try discriminate; intros _; repeat split; try discriminate. Qed.
Lemma out_wsum f vs : Out vs -> (forall l, outside l = true -> f l = 0) -> wsum f vs = 0.
Proof.
  intros H Hf. induction vs as [|[[o l]|] vs IH]; cbn [wsum went]; [reflexivity| |].
  - rewrite (Hf l), IH; [reflexivity| |apply (H O o l); reflexivity]. intros t o' l' E. apply (H (S t) o' l' E).
  - rewrite IH; [reflexivity|]. intros t o' l' E. apply (H (S t) o' l' E).
Qed.
Lemma out_inv k s vs : CInv k s vs -> Out vs -> Inv (tb s).
Proof.
  intros [B U] H. assert (wsum wt vs = 0) as W by (apply out_wsum; [exact H|]; intros l Hl; apply (out_facts l Hl)).
  constructor; try apply B.
  - destruct (cb_fr _ _ _ _ B) as [[_ E]|[HS Hk]]; [left; exact E|right]. exists k. split; [|exact Hk]. split; [exact HS|].
    intros i x Hx. destruct x as [| |e]; cbn.
    + destruct (cb_raw _ _ _ _ B i Hx) as [E|(t & o & l & E1 & E2)]; [exact E|]. destruct (out_facts l (H t o l E1)) as [E3 _]. congruence.
    + exact (cb_moved _ _ _ _ B i Hx).
    + exact (cb_live _ _ _ _ B i e Hx).
  - apply uniq_of_slots. intros i j e e' Hi Hj E. apply (cu_uniq _ _ _ _ U i j (fst e) (fst e')); [left; eauto|left; eauto|exact E].
  - pose proof (cb_sz _ _ _ _ B) as E. unfold A in E. lia.
  - pose proof (cb_sz _ _ _ _ B) as E. pose proof (cb_adm _ _ _ _ B). lia.
Qed.
Lemma inv_out t cn vs : Inv t -> length cn = length (a_groups (arr t)) -> Out vs -> (forall t o l, nth_error vs t = Some (Some (o, l)) -> wf o l) ->
  exists k, CInv k (MkSh t cn) vs.
Proof.
  intros I L H W. assert (exists k, Fr c k (arr t) /\ forall i x, nth_error (cells (arr t)) i = Some x -> slot_ok c (hid t) k (arr t) i x) as (k & Hf & Hs).
  { destruct (i_arr _ _ I) as [E|(k & [HS Hs] & Hk)].
    - exists 1. split; [left; auto|]. rewrite E. intros i x Hx. destruct i; discriminate.
    - exists k. split; [right; auto|exact Hs]. }
  assert (wsum wt vs = 0) as Ww by (apply out_wsum; [exact H|]; intros l Hl; apply (out_facts l Hl)).
  assert (wsum (adm (ml t)) vs = 0) as Wa by (apply out_wsum; [exact H|]; intros l Hl; apply (out_facts l Hl)).
  assert (forall i q, Pk (MkSh t cn) vs i q -> exists e, nth_error (cells (arr t)) i = Some (Live e) /\ q = fst e) as HP.
  { intros i q [Hq|(t2 & p & x & n & E & _)]; [exact Hq|]. pose proof (H _ _ _ E). discriminate. }
  exists k. split; constructor; unfold A; cbn [tb cnt]; try apply I; auto.
  - intros i e Hi. exact (Hs i _ Hi).
  - intros i Hi. exact (Hs i _ Hi).
  - intros i Hi. left. exact (Hs i _ Hi).
  - intros t1 t2 g x x' _ (o & l & E1 & E2). destruct (out_facts l (H _ _ _ E1)) as (_ & _ & _ & E3 & _). rewrite E3 in E2. discriminate.
  - rewrite Ww. pose proof (i_sz _ _ I). lia.
  - rewrite Wa. pose proof (i_sz _ _ I). pose proof (i_szml _ _ I). lia.
  - intros t1 o l E. split; [apply (W _ _ _ E)|]. pose proof (H _ _ _ E) as X. destruct o, l; try discriminate X; exact Logic.I.
  - intros i j q q' Hi Hj E. apply HP in Hi as (e & E1 & ->). apply HP in Hj as (e' & E2 & ->).
    eapply (slots_of_uniq (pid t)); eauto; [apply I|apply I].
  - intros t1 o l E. apply ti1_none. apply (out_facts l). apply (H _ _ _ E).
Qed.

(** *** entering and leaving *)
Definition quiet (x : ent) : Prop := match x with Some (o, l) => outside l = true /\ wf o l | None => True end.
Lemma cinv_quiet_ent k s vs t x y : CInv k s vs -> nth_error vs t = Some x -> quiet x -> quiet y -> CInv k s (set_nth vs t y).
Proof.
  intros [B U] Ht Qx Qy.
  assert (forall t' o l, nth_error (set_nth vs t y) t' = Some (Some (o, l)) -> outside l = false -> nth_error vs t' = Some (Some (o, l))) as Back.
  { intros t' o l E F. destruct (set_cases _ _ _ _ _ _ Ht E) as [[_ <-]|[_ E']]; [cbn in Qy; destruct Qy; congruence|exact E']. }
  assert (forall t' o l, nth_error vs t' = Some (Some (o, l)) -> outside l = false -> nth_error (set_nth vs t y) t' = Some (Some (o, l))) as Forth.
  { intros t' o l E F. destruct (Nat.eq_dec t' t) as [->|N]; [rewrite Ht in E; injection E as ->; cbn in Qx; destruct Qx; congruence|].
    rewrite others_err by exact N. exact E. }
  assert (forall f, (forall l, outside l = true -> f l = 0) -> wsum f (set_nth vs t y) = wsum f vs) as Ws.
  { intros f Hf. pose proof (wsum_set f vs t x y Ht) as X.
    assert (went f x = 0) by (destruct x as [[o l]|]; cbn in *; [apply Hf, Qx|reflexivity]).
    assert (went f y = 0) by (destruct y as [[o l]|]; cbn in *; [apply Hf, Qy|reflexivity]). lia. }
  assert (forall i q, Pk s (set_nth vs t y) i q -> Pk s vs i q) as HP.
  { intros i q [H|(t2 & p & z & n & E & F)]; [left; exact H|right]. exists t2, p, z, n. split; [|exact F]. apply Back; [exact E|reflexivity]. }
  split.
  - constructor; try apply B.
    + intros i Hi. destruct ((cb_raw _ _ _ _ B) i Hi) as [E|(t2 & o & l & E1 & E2)]; [now left|right]. exists t2, o, l. split; [|exact E2]. apply Forth; [exact E1|].
      destruct (outside l) eqn:Eo; [|reflexivity]. destruct (out_facts l Eo). congruence.
    + intros t1 t2 g z z' N (o1 & l1 & E1 & F1) (o2 & l2 & E2 & F2).
      assert (outside l1 = false) as O1 by (destruct (outside l1) eqn:Eo; [destruct (out_facts l1 Eo) as (_ & _ & _ & Z & _); rewrite Z in F1; discriminate|reflexivity]).
      assert (outside l2 = false) as O2 by (destruct (outside l2) eqn:Eo; [destruct (out_facts l2 Eo) as (_ & _ & _ & Z & _); rewrite Z in F2; discriminate|reflexivity]).
      apply ((cb_lock _ _ _ _ B) t1 t2 g z z' N); [exists o1, l1|exists o2, l2]; auto.
    + rewrite Ws; [exact (cb_sz _ _ _ _ B)|]. intros l Hl. apply (out_facts l Hl).
    + rewrite Ws; [exact (cb_adm _ _ _ _ B)|]. intros l Hl. apply (out_facts l Hl).
    + intros t' o l E. destruct (set_cases _ _ _ _ _ _ Ht E) as [[_ <-]|[_ E']]; [|apply ((cb_ti _ _ _ _ B) _ _ _ E')].
      cbn in Qy. destruct Qy as [Q1 Q2]. split; [exact Q2|]. destruct o, l; try discriminate Q1; exact Logic.I.
  - constructor.
    + intros i j q q' Hi Hj E. eapply (cu_uniq _ _ _ _ U); eauto.
    + intros t' o l E. destruct (set_cases _ _ _ _ _ _ Ht E) as [[_ <-]|[_ E']].
      * apply ti1_none. cbn in Qy. destruct Qy as [Q1 Q2]. apply (out_facts l Q1).
      * eapply ti1_mono; [reflexivity|reflexivity| |exact HP|exact (cu_ti _ _ _ _ U _ _ _ E')]. intros g n Hn. exists n. split; [exact Hn|lia].
Qed.

(** *** rehash_if_full *)
Lemma full_ok t n : Inv t ->
  FoaBase.outcome (rehash_if_full c t n)
    (fun _ t' => Inv t' /\ Ids t t' /\ Permutation (elems (arr t')) (elems (arr t)))
    (fun kd t' => Inv t' /\ Ids t t' /\ exists lost, Permutation (elems (arr t)) (lost ++ elems (arr t')) /\ (moves c = false -> lost = [])).
Proof.
  intros I. unfold rehash_if_full. destruct (sz t =? ml t); [|cbn; split; [exact I|]; split; [apply Ids_refl|reflexivity]].
  destruct (growth_ok c t HC I) as (Hp & Hm & Hb & Hr). set (m := growth_request (sz t)) in *.
  assert (forall kd t', ((kd = KAlloc /\ t' = t /\ alloc_fail c m) \/ ((kd = KHash \/ kd = KTransfer) /\ raised c kd /\ RehashFailed c t t')) ->
     Inv t' /\ Ids t t' /\ exists lost, Permutation (elems (arr t)) (lost ++ elems (arr t')) /\ (moves c = false -> lost = [])) as Z.
  { intros kd t' [(_ & -> & _)|(_ & _ & F)].
    - split; [exact I|]. split; [apply Ids_refl|]. exists []. split; [reflexivity|auto].
    - destruct (failed_inv c t t' I F) as (F1 & F2 & _ & lost & F3 & F4 & _). split; [exact F1|]. split; [exact F2|]. exists lost. auto. }
  destruct (N.le_gt_cases (groups_for m) (gmax c)) as [Lg|Lg].
  - eapply outcome_weaken; [apply (unchecked_rehash_ok c t m n HC I Hm Hb)| |].
    + lia.
    + intros _. specialize (Hr Lg). lia.
    + intros u t' (E1 & E2 & E3 & _). auto.
    + intros kd t' X. apply (Z kd t'). exact X.
  - unfold unchecked_rehash. rewrite bind_get.
    eapply outcome_bind; [eapply outcome_weaken; [apply (new_arrays_ok c (aid t) m t n HC Hm Hb)| |]|].
    + intros a s' X. exact X.
    + intros kd s' (-> & -> & F). apply (Z KAlloc t). left. auto.
    + intros na t0 n1 (-> & [[C _] | (_ & k & Eg & Hk & Lt & FR)]); [lia|]. exfalso. lia.
Qed.
End Sys.
