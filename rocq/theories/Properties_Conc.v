(** C35-C39, C41, C42, C43, C49-C51: the concurrent containers. Any number of threads and containers, every interleaving of the steps of the
    model (ConcModel.v); [runs_with c P n es C]: n threads, from no container, have made the visible events es and are in configuration C,
    all configurations satisfying P. Elements, hash functions, predicates and user functions are arbitrary. *)
From Coq Require Import NArith Bool List Arith Lia Permutation.
From Verif Require Import SizeModel FoaModel FoaBase FoaArr FoaSpec FoaWorld FoaExamples
  ConcSpec ConcModel ConcInv ConcSys ConcSys2 ConcLin1 ConcLin3 ConcProps ConcLog ConcVisit ConcProgress ConcExec ConcWrap ConcWrap2 ConcLive ConcConv ConcExamples.
Import ListNotations.
Local Open Scope N_scope.

(** the elements stored in a container, and what a user may know of all containers ([None]: destroyed) *)
Definition stored {K V} (s : @Sh K V) : list (K * V) :=
  flat_map (fun x => match x with Live e => [e] | _ => [] end) (match a_elems (arr (tb s)) with Some cs => cs | None => [] end).
Definition abstract {K V} (C : @conf K V) : world K V :=
  map (option_map (fun s => View (hid (tb s)) (pid (tb s)) (aid (tb s)) (stored s))) (boxes C).
Lemma abstract_absw {K V} (C : @conf K V) : abstract C = absw C.
Proof. reflexivity. Qed.
(** container d of configuration C *)
Definition holds {K V} (C : @conf K V) (d : nat) (s : @Sh K V) : Prop := nth_error (boxes C) d = Some (Some s).
Lemma holds_box {K V} (C : @conf K V) d s : holds C d s -> box C d = Some s.
Proof. unfold holds, box. intros ->. reflexivity. Qed.

Section P.
Context {K V : Type} (c : Cfg K V).
Hypothesis HC : good_cfg c.
Notation run := (runs_with c counters_fit).
Lemma run_inv n es C : run n es C -> GInv c C.
Proof. apply (reach_ginv c HC counters_fit). auto. Qed.
Lemma run_fit n es C : run n es C -> counters_fit C.
Proof. destruct 1; assumption. Qed.


(** *** C35: no two equivalent elements, at any moment *)
Lemma live_positions (cs : list (cell K V)) : forall i j e e', i <> j ->
  nth_error (flat_map (fun x => match x with Live e => [e] | _ => [] end) cs) i = Some e ->
  nth_error (flat_map (fun x => match x with Live e => [e] | _ => [] end) cs) j = Some e' ->
  exists i' j', i' <> j' /\ nth_error cs i' = Some (Live e) /\ nth_error cs j' = Some (Live e').
Proof.
  assert (forall (cs : list (cell K V)) i e, nth_error (flat_map (fun x => match x with Live e => [e] | _ => [] end) cs) i = Some e ->
    exists i', nth_error cs i' = Some (Live e)) as One.
  { intros l i e H. apply nth_error_In, in_flat_map in H as (x & Hx & He). destruct x as [| |y]; cbn in He; try contradiction. destruct He as [->|[]]. apply In_nth_error in Hx. exact Hx. }
  induction cs as [|x cs IH]; intros i j e e' N Hi Hj; [destruct i; discriminate Hi|].
  destruct x as [| |y]; cbn [flat_map app] in Hi, Hj.
  - destruct (IH i j e e' N Hi Hj) as (i' & j' & N' & E1 & E2). exists (S i'), (S j'). auto.
  - destruct (IH i j e e' N Hi Hj) as (i' & j' & N' & E1 & E2). exists (S i'), (S j'). auto.
  - destruct i as [|i], j as [|j]; cbn [nth_error] in Hi, Hj.
    + destruct (N eq_refl).
    + injection Hi as ->. destruct (One _ _ _ Hj) as [j' Ej]. exists 0%nat, (S j'). auto.
    + injection Hj as ->. destruct (One _ _ _ Hi) as [i' Ei]. exists (S i'), 0%nat. auto.
    + destruct (IH i j e e' ltac:(congruence) Hi Hj) as (i' & j' & N' & E1 & E2). exists (S i'), (S j'). auto.
Qed.
Theorem C35_no_equivalent_elements : forall n es C d s i j e e', run n es C -> holds C d s -> i <> j ->
  nth_error (stored s) i = Some e -> nth_error (stored s) j = Some e' -> keqf c (pid (tb s)) (fst e) (fst e') = false.
Proof.
  intros n es C d s i j e e' R Hb N Hi Hj. destruct (live_positions _ _ _ _ _ N Hi Hj) as (i' & j' & N' & E1 & E2).
  apply (ginv_uniq c C d s (run_inv _ _ _ R) (holds_box _ _ _ Hb) i' j' e e' N'); unfold get_cell; destruct (a_elems (arr (tb s))); auto; destruct i', j'; discriminate.
Qed.

(** *** C36: linearizability. The history of calls and returns of every execution is one of the atomic machine of ConcSpec.v *)
Theorem C36_linearizable : forall n es C, run n es C -> atomic_history (keqf c) (moves c) (filter visible es).
Proof. intros n es C R. eapply linearizable; eassumption. Qed.
(** a single-key operation or a whole-container operation that is not "key not found" takes effect in one step, which changes the contents as the
    specification says; so do the calls of the function by visit_all, visit_while and erase_if, and the reading of the counter by size() *)
Theorem C36_instants : forall n es C t a C', run n es C -> gstep c C (Some (ELin t a)) C' ->
  exists ca done, calls_of C t = Pend ca done /\ takes_effect (keqf c) (moves c) (calls_of C) t ca done a (abstract C) (abstract C').
Proof. intros n es C t a C' R St. eapply ginv_instant; [exact HC|eapply run_inv; exact R|exact St]. Qed.
(** and no other step changes the contents *)
Lemma inv_silent C e C' : GInv c C -> gstep c C e C' -> (forall t a, e <> Some (ELin t a)) -> same_world (abstract C) (abstract C').
Proof.
  intros G St Ne.
  assert (forall w : world K V, same_world w w) as Rf.
  { intros w. unfold same_world. induction w as [|[v|] w IH]; constructor; auto. unfold same_view. auto. }
  assert (forall (bs : list (option (@Sh K V))) d s s', nth_error bs d = Some (Some s) -> hid (tb s') = hid (tb s) -> pid (tb s') = pid (tb s) -> aid (tb s') = aid (tb s) ->
    Permutation (stored s) (stored s') -> forall th1 th2, same_world (abstract (Conf bs th1)) (abstract (Conf (FoaModel.set_nth bs d (Some s')) th2))) as Hs.
  { intros bs d s s' Hb E1 E2 E3 Pm th1 th2. unfold abstract. cbn [boxes]. revert d Hb. induction bs as [|b bs IH]; intros d Hb; [destruct d; discriminate|].
    destruct d as [|d]; cbn in Hb.
    - injection Hb as ->. unfold FoaModel.set_nth. cbn [firstn skipn app map option_map]. constructor; [|apply Rf]. repeat split; auto.
    - change (FoaModel.set_nth (b :: bs) (S d) (Some s')) with (b :: FoaModel.set_nth bs d (Some s')). cbn [map]. constructor; [|apply IH, Hb]. destruct b; cbn; [repeat split; auto|exact I]. }
  destruct St as [C t1 d1 o s Ht Hb|C t1 d1 o l s i thr e l' a s' Ht Hb Hst Ha|C t1 d1 o s n0 t' n' cn Ht Hb Hal Hr Hc|
    C t1 d1 o s n0 kd t' n' cn Ht Hb Hal Hr Hc|C t1 d1 o r Ht|C t1 o Ht|C t1 o n0 r w bs Ht Hp He Hbk|C t1 r Ht].
  - apply Rf.
  - destruct a as [a|]; [destruct (Ne t1 a eq_refl)|]. destruct (gi_box _ _ G d1 s Hb) as [k Hk]. pose proof (proj2 (view_at C d1 t1 o l) Ht) as Hv.
    pose proof (lin_ok c k s (views C d1) t1 o l (free_for C t1 d1) i thr Hk Hv) as X. rewrite Hst in X. cbn [lin_good] in X. destruct X as (_ & X & _).
    specialize (X s' Ha). destruct (ap_ids _ _ _ Ha) as (I1 & I2 & I3). destruct C as [bs ths]. apply (Hs bs d1 s s'); auto.
    + unfold box in Hb. cbn [boxes] in Hb. destruct (nth_error bs d1) as [[x|]|]; congruence.
    + change (stored s) with (elems (A s)). change (stored s') with (elems (A s')). rewrite (cells_elems _ _ X). reflexivity.
  - destruct (gi_box _ _ G d1 s Hb) as [k Hk]. pose proof (alone_out C t1 d1 o LFull Ht eq_refl Hal) as Ho.
    pose proof (full_ok c HC (tb s) n0 (out_inv c k s _ Hk Ho)) as X. rewrite Hr in X. destruct X as (_ & [J1 J2 J3] & Pm). destruct C as [bs ths]. apply (Hs bs d1 s (MkSh t' cn)); auto.
    + unfold box in Hb. cbn [boxes] in Hb. destruct (nth_error bs d1) as [[x|]|]; congruence.
    + symmetry. exact Pm.
  - destruct (Ne t1 _ eq_refl).
  - apply Rf.
  - apply Rf.
  - destruct (Ne t1 _ eq_refl).
  - apply Rf.
Qed.
Theorem C36_other_steps_change_nothing : forall n es C e C', run n es C -> gstep c C e C' -> (forall t a, e <> Some (ELin t a)) ->
  same_world (abstract C) (abstract C').
Proof. intros n es C e C' R St Ne. exact (inv_silent C e C' (run_inv _ _ _ R) St Ne). Qed.

(** *** C37: size accounting *)
Theorem C37_counters : forall n es C d s, run n es C -> holds C d s ->
  let m := N.of_nat (length (stored s)) in
  m <= ml (tb s) /\ m <= sz (tb s) <= m + N.of_nat (length (filter (inside d) (th C))) /\ ml (tb s) <= capacity (arr (tb s)) < 2 ^ 64.
Proof. intros n es C d s R Hb. apply (ginv_size c C d s (run_inv _ _ _ R) (holds_box _ _ _ Hb)). Qed.
(** whenever no operation on the container is in flight, the counter is exact *)
Theorem C37_exact_when_idle : forall n es C d s, run n es C -> holds C d s -> existsb (inside d) (th C) = false ->
  sz (tb s) = N.of_nat (length (stored s)) /\ sz (tb s) <= ml (tb s).
Proof.
  intros n es C d s R Hb Hi. destruct (ginv_size c C d s (run_inv _ _ _ R) (holds_box _ _ _ Hb)) as (A & B & _). cbn zeta in *.
  assert (filter (inside d) (th C) = []) as E.
  { destruct (filter (inside d) (th C)) as [|p l] eqn:F; [reflexivity|]. assert (In p (filter (inside d) (th C))) as Hp by (rewrite F; now left).
    apply filter_In in Hp as [H1 H2]. assert (existsb (inside d) (th C) = true) by (apply existsb_exists; eauto). congruence. }
  rewrite E in B. cbn [length] in B. change (stored s) with (elems (arr (tb s))). lia.
Qed.
(** size() returns the number of elements, up to the other calls in progress *)
Theorem C37_size_of_a_call : forall n es C t m C', run n es C -> gstep c C (Some (ELin t (ASize m))) C' ->
  exists d s ts, holds C d s /\ NoDup ts /\ ~ In t ts /\
    (forall t', In t' ts -> exists o l, nth_error (th C) t' = Some (ConcModel.At d o l)) /\
    N.of_nat (length (stored s)) <= m <= N.of_nat (length (stored s)) + N.of_nat (length ts).
Proof.
  intros n es C t m C' R St. destruct (C36_instants _ _ _ _ _ _ R St) as (ca & done & E & T). destruct ca as [d [p|x md f|]|o]; cbn [takes_effect] in T; try contradiction.
  destruct T as (_ & _ & v & ts & Hv & (N1 & N2 & N3) & B). unfold abstract in Hv. rewrite nth_error_map in Hv. destruct (nth_error (boxes C) d) as [[s|]|] eqn:Hb; try discriminate.
  injection Hv as <-. exists d, s, ts. split; [exact Hb|]. split; [exact N1|]. split; [exact N2|]. split; [|exact B].
  intros t' Ht. destruct (N3 t' Ht) as (o & dn & E1). unfold calls_of in E1. destruct (nth_error (th C) t') as [[|d' o' l'| |]|]; try discriminate. injection E1 as -> -> _. eauto.
Qed.
(** an insertion that finds the container full makes room *)
Theorem C37_growth_makes_room : forall n es C t d o s C' s', run n es C -> nth_error (th C) t = Some (ConcModel.At d o LFull) -> holds C d s ->
  gstep c C None C' -> nth_error (th C') t = Some (ConcModel.At d o LEnter) -> holds C' d s' -> sz (tb s') < ml (tb s').
Proof.
  intros n es C t d o s C' s' R Ht Hs St Ht' Hs'. pose proof (run_inv _ _ _ R) as G. remember None as ev eqn:Ev.
  destruct St as [C t1 d1 o1 s1 H1 Hb|C t1 d1 o1 l s1 i thr e l' a s2 H1 Hb Hst Ha|C t1 d1 o1 s1 n0 t' n' cn H1 Hb Hal Hr Hc|
    C t1 d1 o1 s1 n0 kd t' n' cn H1 Hb Hal Hr Hc|C t1 d1 o1 r H1|C t1 o1 H1|C t1 o1 n0 r w bs H1 Hp He Hbk|C t1 r H1]; try discriminate Ev.
  - exfalso. cbn [set_box set_th th] in Ht'. destruct (Nat.eq_dec t t1) as [->|N]; [|rewrite others_err in Ht' by exact N; congruence].
    rewrite Ht in H1. injection H1 as <- <- <-. destruct o as [p|x m f|]; discriminate Hst.
  - destruct (Nat.eq_dec t t1) as [->|N]; [|cbn [set_box set_th th] in Ht'; rewrite others_err in Ht' by exact N; congruence].
    rewrite Ht in H1. injection H1 as <- <-. apply holds_box in Hs, Hs'. rewrite Hs in Hb. injection Hb as <-.
    rewrite (box_set (set_th C t1 (ConcModel.At d o LEnter)) d _ s) in Hs' by exact Hs. rewrite Nat.eqb_refl in Hs'. injection Hs' as <-.
    destruct (gi_box _ _ G d s Hs) as [k Hk]. pose proof (alone_out C t1 d o LFull Ht eq_refl Hal) as Ho.
    pose proof (full_room c HC (tb s) n0 (out_inv c k s _ Hk Ho)) as X. rewrite Hr in X. exact X.
Qed.

(** *** C38: what the user's functions are called on *)
(** A call that has returned r made exactly these calls of user functions, in this order ([instants]): none if no element was found; one if the
    result says that an element was visited, inserted, erased or kept; for traversals, one for each element of the result. What each of them did
    is C36_instants. *)
Theorem C38_calls_of_the_function : forall n es1 t r es2 C, run n (es1 ++ ERet t (AnsC r) :: es2) C ->
  exists pre d o done, filter (ev_by t) es1 = pre ++ ECall t (OnC d o) :: map (ELin t) done /\ instants o r done.
Proof. intros n es1 t r es2 C R. eapply completed; eassumption. Qed.
(** while a thread is about to call a function on an element, or to construct or destroy one, no other thread accesses this element's slot, unless
    both only read it *)
Theorem C38_exclusive_access : forall n es C t t' p p' d i w w', run n es C -> t <> t' ->
  nth_error (th C) t = Some p -> nth_error (th C) t' = Some p' ->
  slot_use d p = Some (i, w) -> slot_use d p' = Some (i, w') -> w = false /\ w' = false.
Proof. intros n es C t t' p p' d i w w' R. apply (ginv_exclusive c C t t' p p' d i w w' (run_inv _ _ _ R)). Qed.
(** elements are changed by no other steps *)
Theorem C38_changes_are_exclusive : forall free (s : @Sh K V) o l i thr e l' a j x d, lstep c free s o l i thr = Step e l' a -> e = ECell j x ->
  slot_use d (ConcModel.At d o l) = Some (j, true).
Proof. intros free s o l i thr e l' a j x d. apply writes_declared. Qed.

(** *** C39: traversals. If an element equivalent to q is present from the call to the return of visit_all, visit_while or erase_if, then the function
    is called at most once on it, and exactly once if the traversal was not interrupted *)
Theorem C39_present_elements_are_visited_once : forall n es0 C0 t d x m f C1 p q es C l st C',
  run n es0 C0 -> gstep c C0 (Some (ECall t (OnC d (Bulk x m f)))) C1 ->
  steps c (fun C => counters_fit C /\ present c C d p q) C1 es C -> (forall a, ~ In (ERet t a) es) ->
  gstep c C (Some (ERet t (AnsC (RBulk l st)))) C' ->
  let calls := length (filter (fun eb => keqf c p q (fst (fst eb))) l) in
  (calls <= 1)%nat /\ (st = BDone -> calls = 1%nat).
Proof.
  intros n es0 C0 t d x m f C1 p q es C l st C' R S1 St Ne S2.
  assert (counters_fit C1) as F1 by (clear - St; induction St as [H|? ? ? ? ? IH]; [apply H|exact IH]).
  pose proof (r_snoc c counters_fit n es0 C0 _ C1 R S1 F1) as R1.
  assert (nth_error (th C1) t = Some (ConcModel.At d (Bulk x m f) LEnter)) as Ht1.
  { remember (Some (ECall t (OnC d (Bulk x m f)))) as ev eqn:Ev. destruct S1; try discriminate Ev; [|destruct a; discriminate Ev].
    injection Ev as -> -> ->. cbn [set_th th]. eapply self_err. eassumption. }
  assert (exists d' o', nth_error (th C) t = Some (ConcModel.At d' o' (LRet (RBulk l st)))) as (d' & o' & Ht2).
  { remember (Some (ERet t (AnsC (RBulk l st)))) as ev eqn:Ev. destruct S2; try discriminate Ev; [destruct a; discriminate Ev|]. injection Ev as -> ->. eauto. }
  assert (nth_error (th C) t = Some (ConcModel.At d (Bulk x m f) (LRet (RBulk l st)))) as Ht3.
  { assert (exists l', nth_error (th C) t = Some (ConcModel.At d (Bulk x m f) l')) as [l' E].
    { clear S2 Ht2. induction St as [H|es C2 e C3 H IH S3 H3]; [eauto|]. destruct IH as [l' IH]; [intros a Ha; apply (Ne a), in_or_app; left; exact Ha|].
      assert (forall t1 p1, t1 <> t \/ (exists l1, p1 = ConcModel.At d (Bulk x m f) l1) -> exists l1, nth_error (FoaModel.set_nth (th C2) t1 p1) t = Some (ConcModel.At d (Bulk x m f) l1)) as Z.
      { intros t1 p1 Hc. destruct (Nat.eq_dec t t1) as [<-|N]; [|rewrite others_err by exact N; eauto]. destruct Hc as [Hc|[l1 ->]]; [congruence|]. exists l1. eapply self_err; exact IH. }
      destruct S3 as [C2 t1 d1 o1 s1 H1 Hb|C2 t1 d1 o1 l1 s1 i thr e l2 a s2 H1 Hb Hst Ha|C2 t1 d1 o1 s1 n0 t' n' cn H1 Hb Hal Hr Hc|
        C2 t1 d1 o1 s1 n0 kd t' n' cn H1 Hb Hal Hr Hc|C2 t1 d1 o1 r H1|C2 t1 o1 H1|C2 t1 o1 n0 r w bs H1 Hp He Hbk|C2 t1 r H1]; cbn [set_box set_th th]; apply Z.
      - left. congruence.
      - destruct (Nat.eq_dec t1 t) as [->|N]; [right|left; exact N]. assert (ConcModel.At d1 o1 l1 = ConcModel.At d (Bulk x m f) l') as E by congruence. injection E as -> -> _. eauto.
      - destruct (Nat.eq_dec t1 t) as [->|N]; [right|left; exact N]. assert (ConcModel.At d1 o1 LFull = ConcModel.At d (Bulk x m f) l') as E by congruence. injection E as -> -> _. eauto.
      - destruct (Nat.eq_dec t1 t) as [->|N]; [right|left; exact N]. assert (ConcModel.At d1 o1 LFull = ConcModel.At d (Bulk x m f) l') as E by congruence. injection E as -> -> _. eauto.
      - left. intros ->. apply (Ne (AnsC r)), in_or_app. right. now left.
      - left. congruence.
      - left. congruence.
      - left. congruence. }
    congruence. }
  exact (visited_once c HC n _ C1 t d x m f p q es C l st R1 Ht1 St Ne Ht3).
Qed.

(** *** C42: operations on whole containers act like those of the non-concurrent containers (FoaSpec) on the contents *)
Theorem C42_whole_container_operations : forall n es C t o r C', run n es C -> nth_error (th C) t = Some (AtW o) ->
  gstep c C (Some (ELin t (AWhole r))) C' -> spec (keqf c) (moves c) (abstract C) o r (abstract C').
Proof.
  intros n es C t o r C' R Ht St. destruct (C36_instants _ _ _ _ _ _ R St) as (ca & done & E & T). unfold calls_of in E. rewrite Ht in E. injection E as <- <-. apply T.
Qed.
(** an insertion that returned "inserted" has inserted its element once and only once, however often it had to start again *)
Theorem C42_inserted_once : forall n es1 t es2 C, run n (es1 ++ ERet t (AnsC RIns) :: es2) C ->
  exists pre d o, filter (ev_by t) es1 = pre ++ [ECall t (OnC d o); ELin t (APoint RIns)].
Proof.
  intros n es1 t es2 C R. destruct (C38_calls_of_the_function _ _ _ _ _ _ R) as (pre & d & o & done & E & Hi). exists pre, d, o. rewrite E.
  destruct o as [p|x m f|]; cbn [instants] in Hi; [subst done; reflexivity|destruct Hi as (? & ? & Hi & _); discriminate|destruct Hi as (? & Hi & _); discriminate].
Qed.

(** *** C41: conversions. x (container d) has no thread inside; it is used as a non-concurrent container by [to_concurrent], as a concurrent one by
    [to_plain]. The result has exactly the arrays of the source (no element is copied, moved or reordered), its hash function, predicate, allocator,
    size and max_load; the source is left empty with the same function objects; afterwards both are containers of a run, to which all theorems apply.
    If the conversion throws (allocation of the locks and counters), the source is unchanged. *)
Theorem C41_to_concurrent : forall n es C d s k, run n es C -> holds C d s -> existsb (inside d) (th C) = false ->
  match to_concurrent c (tb s) k with
  | Ret s' x' _ => tb s' = tb s /\ cnt s' = map (fun _ => 0) (a_groups (arr (tb s))) /\
      hid x' = hid (tb s) /\ pid x' = pid (tb s) /\ aid x' = aid (tb s) /\ sz x' = 0 /\ stored (MkSh x' []) = [] /\
      forall t, nth_error (th C) t = Some (AtW (MoveConstruct d)) ->
        exists C' z, run n (es ++ [ELin t (AWhole (Done VUnit))]) C' /\ holds C' d (MkSh x' z) /\ holds C' (length (boxes C)) s' /\
          forall d', d' <> d -> (d' < length (boxes C))%nat -> nth_error (boxes C') d' = nth_error (boxes C) d'
  | Exn kd x' _ => kd = KAlloc /\ x' = tb s
  | Undef => False
  end.
Proof.
  intros n es C d s k R Hb Hi. apply holds_box in Hb. destruct (conv_same c C d s k (run_inv _ _ _ R) Hb Hi) as (x' & k' & E & I1 & I2 & I3 & E1 & E2).
  rewrite to_concurrent_eq, E.
  assert (forall k2 : nat, let s' := MkSh (tb s) (map (fun _ => 0) (a_groups (arr (tb s)))) in tb s' = tb s /\ cnt s' = map (fun _ => 0) (a_groups (arr (tb s))) /\
      hid x' = hid (tb s) /\ pid x' = pid (tb s) /\ aid x' = aid (tb s) /\ sz x' = 0 /\ stored (MkSh x' []) = [] /\
      forall t, nth_error (th C) t = Some (AtW (MoveConstruct d)) ->
        exists C' z, run n (es ++ [ELin t (AWhole (Done VUnit))]) C' /\ holds C' d (MkSh x' z) /\ holds C' (length (boxes C)) s' /\
          forall d', d' <> d -> (d' < length (boxes C))%nat -> nth_error (boxes C') d' = nth_error (boxes C) d') as X.
  { intros _ s'. split; [reflexivity|]. split; [reflexivity|]. do 4 (split; [assumption|]). split; [exact E1|]. intros t Ht.
    destruct (conv_run c HC n es C t d s k _ _ _ (map (fun _ => 0) (a_groups (arr x'))) (cnt s') R Ht Hb Hi E) as (C' & R' & B1 & B2 & B3); [rewrite map_length; reflexivity|apply map_length|].
    exists C'. eexists. split; [exact R'|]. split; [exact B1|]. split; [exact B2|exact B3]. }
  destruct (a_elems (arr (tb s))); [destruct (throws c KAlloc k'); [split; reflexivity|apply (X 0%nat)]|apply (X 0%nat)].
Qed.
Theorem C41_to_plain : forall n es C d s k, run n es C -> holds C d s -> existsb (inside d) (th C) = false ->
  match to_plain c s k with
  | Ret t s' _ => t = tb s /\
      hid (tb s') = hid (tb s) /\ pid (tb s') = pid (tb s) /\ aid (tb s') = aid (tb s) /\ sz (tb s') = 0 /\ stored s' = [] /\
      forall u, nth_error (th C) u = Some (AtW (MoveConstruct d)) ->
        exists C' z, run n (es ++ [ELin u (AWhole (Done VUnit))]) C' /\ holds C' d s' /\ holds C' (length (boxes C)) (MkSh t z) /\
          forall d', d' <> d -> (d' < length (boxes C))%nat -> nth_error (boxes C') d' = nth_error (boxes C) d'
  | _ => False
  end.
Proof.
  intros n es C d s k R Hb Hi. apply holds_box in Hb. destruct (conv_same c C d s k (run_inv _ _ _ R) Hb Hi) as (x' & k' & E & I1 & I2 & I3 & E1 & E2).
  rewrite to_plain_eq, E. split; [reflexivity|]. cbn [tb]. do 4 (split; [assumption|]). split; [exact E1|]. intros u Ht.
  destruct (conv_run c HC n es C u d s k _ _ _ (map (fun _ => 0) (a_groups (arr x'))) (map (fun _ => 0) (a_groups (arr (tb s)))) R Ht Hb Hi E) as (C' & R' & B1 & B2 & B3);
    [apply map_length|apply map_length|]. exists C'. eexists. split; [exact R'|]. split; [exact B1|]. split; [exact B2|exact B3].
Qed.
(** there and back: the same container *)
Theorem C41_round_trip : forall n es C d s k, run n es C -> holds C d s -> existsb (inside d) (th C) = false ->
  match to_concurrent c (tb s) k with
  | Ret s' _ k' => match to_plain c s' k' with Ret t _ _ => t = tb s | _ => False end
  | Exn _ x' _ => x' = tb s
  | Undef => False
  end.
Proof.
  intros n es C d s k R Hb Hi. apply holds_box in Hb. destruct (conv_same c C d s k (run_inv _ _ _ R) Hb Hi) as (x' & k' & E & _).
  rewrite to_concurrent_eq, E.
  assert (forall z k2, match to_plain c (MkSh (tb s) z) k2 with Ret t _ _ => t = tb s | _ => False end) as X.
  { intros z k2. rewrite to_plain_eq. destruct (conv_same c C d s k2 (run_inv _ _ _ R) Hb Hi) as (x2 & k3 & E2 & _). cbn [tb]. rewrite E2. reflexivity. }
  destruct (a_elems (arr (tb s))); [destruct (throws c KAlloc k'); [reflexivity|apply X]|apply X].
Qed.

(** *** C49: no step is undefined (reads of unconstructed elements, accesses outside the arrays, underflow, ...) *)
Theorem C49_steps_are_defined : forall n es C t d o l s, run n es C -> nth_error (th C) t = Some (ConcModel.At d o l) -> holds C d s ->
  l <> LFull -> (forall r, l <> LRet r) -> forall i thr,
  match lstep c (free_for C t d) s o l i thr with Blocked => True | Ub => False | Step e _ _ => apply e s <> None end.
Proof. intros n es C t d o l s R Ht Hb. apply ginv_defined; [eapply run_inv, R|eapply run_fit, R|exact Ht|apply holds_box, Hb]. Qed.
Theorem C49_growth_is_defined : forall n es C t d o s k, run n es C -> nth_error (th C) t = Some (ConcModel.At d o LFull) -> holds C d s ->
  alone C t d = true -> rehash_if_full c (tb s) k <> Undef.
Proof. intros n es C t d o s k R Ht Hb. eapply ginv_defined_full; [exact HC|eapply run_inv, R|exact Ht|apply holds_box, Hb]. Qed.
Theorem C49_whole_operations_are_defined : forall n es C o k, run n es C -> wpre c o (idle_world C o) -> wexec c o (idle_world C o) k <> Undef.
Proof. intros n es C o k R. apply ginv_defined_whole; [exact HC|eapply run_inv, R]. Qed.

(** *** C50: no deadlock. Whenever calls on containers are in progress, one of them can make its next step; and an operation on whole containers whose
    preconditions hold can be performed as soon as no other thread is inside these containers *)
Theorem C50_no_deadlock : forall n es C t d o l, run n es C -> nth_error (th C) t = Some (ConcModel.At d o l) -> exists t', advances c C t'.
Proof. intros n es C t d o l R Ht. eapply some_advance; [exact HC|eapply run_inv, R|eapply run_fit, R|exact Ht]. Qed.
Theorem C50_whole_operations_proceed : forall n es C t o, run n es C -> nth_error (th C) t = Some (AtW o) -> wpre c o (idle_world C o) ->
  exists r C', gstep c C (Some (ELin t (AWhole r))) C'.
Proof. intros n es C t o R. apply whole_advance; [exact HC|eapply run_inv, R]. Qed.
End P.

(** *** C43: the hypothesis on the insertion counters ([counters_fit]: fewer than 2^32 insertions start probing at one group during one attempt)
    cannot be dropped. There is a run of two threads, in a container whose key 5 is never erased, where two calls insert key 5; two equivalent elements
    are stored; the history is not one of the atomic machine *)
Theorem C43_counter_wrap_breaks_uniqueness : exists es C s, runs_with wcfg (fun _ => True) 2 es C /\ holds C 0 s /\
  stored s = [(5, 105); (5, 105)] /\ ~ atomic_history (keqf wcfg) (moves wcfg) (filter visible es).
Proof.
  destruct wrapped_not_atomic as (es & R & H). exists es, c5. eexists. split; [exact R|]. split; [reflexivity|]. split; [reflexivity|exact H].
Qed.
(** the 32-bit comparison succeeds although 2^32 insertions have been made *)
Theorem C43_wrap_passes_the_check : forall K V (c : Cfg K V) free (s : @Sh K V) x k v f1 f2 g0 m n i thr,
  g0 = N.to_nat (position (x_h x) (a_gsi (arr (tb s)))) -> nth_error (cnt s) g0 = Some (x_cg x + 2 ^ 32 * m) ->
  lstep c free s (Point (PEmplace false k v f1 f2)) (LCnt x n) i thr = Step (ECnt g0) (LCons x n) None.
Proof.
  intros K V c free s x k v f1 f2 g0 m n i thr -> E. cbn [lstep pstep]. rewrite E.
  replace (x_cg x + 2 ^ 32 * m) with (x_cg x + m * 2 ^ 32) by lia. rewrite N.mod_add by discriminate. rewrite N.eqb_refl. reflexivity.
Qed.

(** *** C51: insertion is not lock-free. In a container with one element, threads 0 and 1 have called insert and never return: for every r there is a run
    in which they have started again 2r times, without any other call in progress and without any further event *)
Theorem C51_insertions_can_retry_forever : exists es, forall r, exists C s, runs_with wcfg counters_fit 3 es C /\ holds C 0 s /\
  nth_error (cnt s) 0 = Some (2 * r + 1) /\ length (stored s) = 1%nat /\
  (forall a, ~ In (ERet 0 (AnsC a)) es) /\ (forall a, ~ In (ERet 1 (AnsC a)) es) /\ nth_error (th C) 2 = Some Idle.
Proof.
  exists f0. intros r. exists (shape k0 (2 * r + 1) (2 * r) (2 * r + 1)). eexists. split; [apply live|]. split; [reflexivity|]. split; [reflexivity|].
  split; [reflexivity|]. split; [|split; [|reflexivity]]; intros a H; unfold f0 in H; cbn [In] in H; repeat destruct H as [H|H]; try discriminate H; exact H.
Qed.

(** *** concrete cases: the hypotheses of the theorems above are met *)
Lemma wcfg_good : good_cfg wcfg. Proof. apply ecfg_good. Qed.
(** a run with a restarted insertion, a traversal erasing elements while another thread inserts, size() and rehash(100) (ConcExamples.v) *)
Example run_exists : runs_with wcfg counters_fit 3 (e1 ++ e2' ++ e3 ++ e4) ex4 /\ exists s, holds ex4 0 s /\ stored s = [(8, 108); (5, 106)].
Proof. split; [exact ex4_runs|]. eexists. split; reflexivity. Qed.
(** C35, C37: during the traversal *)
Example C35_case : exists s, runs_with wcfg counters_fit 3 (e1 ++ e2') ex2 /\ holds ex2 0 s /\ stored s = [(5, 106)] /\ sz (tb s) = 1 /\ existsb (inside 0) (th ex2) = true.
Proof. eexists. split; [exact ex2_runs|]. repeat split; reflexivity. Qed.
Example C35_two : exists s, runs_with wcfg counters_fit 3 e1 ex1 /\ holds ex1 0 s /\ stored s = [(7, 107); (5, 105)] /\ sz (tb s) = 2 /\ existsb (inside 0) (th ex1) = false.
Proof. eexists. split; [exact ex1_runs|]. repeat split; reflexivity. Qed.
(** C36: the history, and a history that is not atomic (C43) *)
Example C36_case : filter visible (e1 ++ e2') = [ECall 0 (Whole (New 1 0 0 10)); ERet 0 (AnsW (Done VUnit)); ECall 0 (OnC 0 (ins1 5)); ECall 1 (OnC 0 (ins1 7));
  ERet 1 (AnsC RIns); ERet 0 (AnsC RIns); ECall 2 (OnC 0 (Bulk true BErase pick7))].
Proof. reflexivity. Qed.
(** C39: key 5 is present during the call of erase_if, while another thread inserts *)
Example C39_case : runs_with wcfg counters_fit 3 e1 ex1 /\ gstep wcfg ex1 (Some (ECall 2 (OnC 0 (Bulk true BErase pick7)))) exc /\
  steps wcfg (fun C => counters_fit C /\ present wcfg C 0 0 5) exc (tl e2' ++ e3) exr /\ (forall a, ~ In (ERet 2 a) (tl e2' ++ e3)) /\
  gstep wcfg exr (Some (ERet 2 (AnsC (RBulk [(7, 107, true); (5, 105, false)] BDone)))) (snd r3).
Proof.
  split; [exact ex1_runs|]. split; [exact exc_step|]. split; [exact exc_steps|]. split.
  - intros a H. cbn [tl e2' e3 app In] in H. repeat destruct H as [H|H]; try discriminate H; exact H.
  - apply (do_move_ok nothrow false (MRet 2)). vm_compute. reflexivity.
Qed.
(** C37, C42, C50: an insertion that finds the container full, and one waiting for a group another thread holds *)
Definition small := then_ (MRet 0) (then_ (MWhole 0 0) (then_ (MWCall 0 (New 1 0 0 0)) ([], start 3))).
Definition at_full (l : @loc N N) := match l with LFull => true | _ => false end.
Definition full := until 0 at_full (then_ (MCall 0 0 (ins1 5)) small).
Example C37_case : exists es s C' s', runs_with wcfg counters_fit 3 es (snd full) /\ nth_error (th (snd full)) 0 = Some (ConcModel.At 0 (ins1 5) LFull) /\
  holds (snd full) 0 s /\ sz (tb s) = 0 /\ ml (tb s) = 0 /\ gstep wcfg (snd full) None C' /\
  nth_error (th C') 0 = Some (ConcModel.At 0 (ins1 5) LEnter) /\ holds C' 0 s' /\ ml (tb s') = 29.
Proof.
  do 4 eexists. split; [eapply (played nothrow false 3 (fst full)); vm_compute; reflexivity|].
  split; [vm_compute; reflexivity|]. split; [vm_compute; reflexivity|]. split; [vm_compute; reflexivity|]. split; [vm_compute; reflexivity|].
  split; [apply (do_move_ok nothrow false (MFull 0 0)); vm_compute; reflexivity|]. repeat split; vm_compute; reflexivity.
Qed.
Definition at_lock (l : @loc N N) := match l with LCheck _ _ => true | _ => false end.
Definition is_lock (l : @loc N N) := match l with LLock _ _ => true | _ => false end.
Definition waiting := until 1 is_lock (then_ (MCall 1 0 (era1 5)) (until 0 at_lock (then_ (MCall 0 0 (era1 5)) r1))).
Example C50_case : exists es s x m, runs_with wcfg counters_fit 3 es (snd waiting) /\ holds (snd waiting) 0 s /\
  nth_error (th (snd waiting)) 1 = Some (ConcModel.At 0 (era1 5) (LLock x m)) /\
  lstep wcfg (free_for (snd waiting) 1 0) s (era1 5) (LLock x m) 0 false = Blocked.
Proof.
  do 4 eexists. split; [eapply (played nothrow false 3 (fst waiting)); vm_compute; reflexivity|].
  split; [vm_compute; reflexivity|]. split; vm_compute; reflexivity.
Qed.
(** C41: a non-concurrent container with keys 3 and 4 is moved to a concurrent one, in which 5 is inserted, and which is moved back *)
Definition plain := then_ (MRet 0) (then_ (MWhole 0 0) (then_ (MWCall 0 (On 0 (Insert (4, 9)))) (then_ (MRet 0) (then_ (MWhole 0 0) (then_ (MWCall 0 (On 0 (Insert (3, 8)))) r0))))).
Definition conc1 := then_ (MWCall 0 (MoveConstruct 0)) plain.
Definition conc2 := then_ (MWCall 0 (MoveConstruct 1)) (then_ (MRet 1) (until 1 never (then_ (MCall 1 1 (ins1 5)) (then_ (MRet 0) (then_ (MWhole 0 0) conc1))))).
Example C41_case : exists es1 es2 s1 s2, runs_with wcfg counters_fit 3 es1 (snd conc1) /\ holds (snd conc1) 0 s1 /\ existsb (inside 0) (th (snd conc1)) = false /\
  nth_error (th (snd conc1)) 0 = Some (AtW (MoveConstruct 0)) /\ stored s1 = [(3, 8); (4, 9)] /\
  runs_with wcfg counters_fit 3 es2 (snd conc2) /\ holds (snd conc2) 1 s2 /\ existsb (inside 1) (th (snd conc2)) = false /\
  nth_error (th (snd conc2)) 0 = Some (AtW (MoveConstruct 1)) /\ stored s2 = [(3, 8); (4, 9); (5, 105)] /\
  match to_concurrent wcfg (tb s1) O with Ret s' x' _ => tb s' = tb s1 /\ cnt s' <> [] /\ sz x' = 0 | _ => False end /\
  match to_plain wcfg s2 O with Ret t s' _ => t = tb s2 /\ sz t = 3 /\ sz (tb s') = 0 | _ => False end.
Proof.
  do 4 eexists. split; [eapply (played nothrow false 3 (fst conc1)); vm_compute; reflexivity|]. split; [vm_compute; reflexivity|].
  split; [vm_compute; reflexivity|]. split; [vm_compute; reflexivity|]. split; [vm_compute; reflexivity|].
  split; [eapply (played nothrow false 3 (fst conc2)); vm_compute; reflexivity|]. split; [vm_compute; reflexivity|].
  split; [vm_compute; reflexivity|]. split; [vm_compute; reflexivity|]. split; [vm_compute; reflexivity|].
  split; vm_compute; repeat split; discriminate.
Qed.

(** one query for all theorems of this file *)
Definition all_theorems := (@C35_no_equivalent_elements,
  @C36_linearizable,
  @C36_instants,
  @C36_other_steps_change_nothing,
  @C37_counters,
  @C37_exact_when_idle,
  @C37_size_of_a_call,
  @C37_growth_makes_room,
  @C38_calls_of_the_function,
  @C38_exclusive_access,
  @C38_changes_are_exclusive,
  @C39_present_elements_are_visited_once,
  @C41_to_concurrent,
  @C41_to_plain,
  @C41_round_trip,
  @C42_whole_container_operations,
  @C42_inserted_once,
  @C49_steps_are_defined,
  @C49_growth_is_defined,
  @C49_whole_operations_are_defined,
  @C50_no_deadlock,
  @C50_whole_operations_proceed,
  @C43_counter_wrap_breaks_uniqueness,
  @C43_wrap_passes_the_check,
  @C51_insertions_can_retry_forever).
Print Assumptions all_theorems.
