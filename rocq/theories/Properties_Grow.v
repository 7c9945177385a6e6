(** C63: the cost of growth. Vocabulary in GrowSpec.v: [uses c P t0 i m t]: operations on one container lead from t0 to t, inserting i elements; m elements are moved to
    another array meanwhile; P holds in all states. Exceptions are included. *)
From Coq Require Import NArith ZArith Bool List Arith Lia.
From Verif Require Import SizeModel FoaModel FoaGroup FoaBase FoaFind FoaArr FoaInv FoaRehash FoaSpec FoaWorld FoaApi FoaRun FoaMerge FoaProps FoaProps2 FoaProps3 FoaExamples GrowSpec FoaGrow FoaGrow2.
Import ListNotations.
Local Open Scope m_scope.
Local Open Scope N_scope.

Section P.
Context {K V : Type} (c : Cfg K V).
Hypothesis HC : good_cfg c.
Notation table := (table K V).
Notation any := (fun _ : table => True).

Lemma put_live_stored (t : table) g s x v n : nth_error (cells (arr t)) (slot_index g s) = Some (Live x) ->
  match on_arr (put_cell (slot_index g s) (Live (fst x, v))) t n with Ret _ t' _ | Exn _ t' _ => forall i y, stored t i y -> exists w, stored t' i (fst y, w) | Undef => True end.
Proof.
  intros Hx. unfold on_arr, lens, put_cell. destruct (a_elems (arr t)) as [cs|] eqn:E; [|exact I]. destruct (nth_error cs (slot_index g s)); [|exact I].
  intros i y Hy. unfold stored, cells in *. cbn [set_arr arr a_elems]. rewrite E in *. rewrite set_nth_err by (apply nth_error_Some; congruence).
  destruct (Nat.eqb_spec i (slot_index g s)) as [->|]; [|exists (snd y); destruct y; exact Hy]. rewrite Hx in Hy. injection Hy as <-. exists v. reflexivity.
Qed.
(** an insertion that finds size() below max_load() leaves all elements where they are *)
Theorem C63_insertions_below_max_load_move_nothing : forall t o t', reachable c t -> inserts o = true -> size t < max_load t -> after1 c t o t' ->
  bucket_count t' = bucket_count t /\ max_load t' = max_load t /\ moved o t t' = 0 /\ forall i x, stored t i x -> exists v, stored t' i (fst x, v).
Proof.
  intros t o t' R Ho L (n & A). unfold size, max_load, bucket_count in *. pose proof (reachable_inv c HC t R) as H.
  assert (forall x : K * V, exists v, x = (fst x, v)) as Sg by (intros [k v]; exists v; reflexivity).
  assert (capacity (arr t') = capacity (arr t) /\ ml t' = ml t /\ forall i x, stored t i x -> exists v, stored t' i (fst x, v)) as (Q1 & Q2 & Q3).
  { destruct o; try discriminate; cbn [exec1] in A.
    - pose proof (insert_below c HC t e n R L) as X. unfold bind at 1 in A. destruct (m_insert c e t n) as [r t1 n1|k t1 n1|]; [| |destruct A].
      + rewrite bind_get in A. unfold bind, read_at, read_element in A. destruct (get_cell _ _) as [[| |x]|]; try destruct A. destruct X as (X1 & X2 & X3).
        split; [exact X1|]. split; [exact X2|]. intros i y Hy. destruct (Sg y) as [v Ev]. exists v. rewrite <- Ev. auto.
      + subst. destruct X as (X1 & X2 & X3). split; [exact X1|]. split; [exact X2|]. intros i y Hy. destruct (Sg y) as [v Ev]. exists v. rewrite <- Ev. apply X3, Hy.
    - pose proof (insert_below c HC t (k, v) n R L) as X. unfold m_insert_or_assign in A. rewrite bind_bind in A. unfold bind at 1 in A.
      pose proof (insert_ok c HC t (k, v) n H) as Y.
      destruct (m_insert c (k, v) t n) as [[[g s] b] t1 n1|kd t1 n1|]; [| |destruct A].
      + destruct X as (X1 & X2 & X3). cbn [outcome fst snd] in Y. destruct Y as (I1 & _ & x0 & Hx0 & _). destruct b.
        { cbn [ret bind] in A. unfold bind, ret in A. subst. split; [exact X1|]. split; [exact X2|]. intros i y Hy. destruct (Sg y) as [v0 Ev]. exists v0. rewrite <- Ev. auto. }
        rewrite bind_bind, bind_get in A. rewrite bind_bind in A. unfold bind at 1, read_element in A. destruct (get_cell (arr t1) (slot_index g s)) as [[| |x]|] eqn:Eg; try destruct A. cbn [ret] in A.
        assert (x = x0) as ->.
        { unfold get_cell in Eg. unfold cells in Hx0. destruct (a_elems (arr t1)); [|discriminate]. rewrite Hx0 in Eg. injection Eg as <-. reflexivity. }
        rewrite bind_bind in A. unfold bind at 1 in A. unfold tick in A. destruct (throws c KConstruct n1).
        { subst. split; [exact X1|]. split; [exact X2|]. intros i y Hy. destruct (Sg y) as [v0 Ev]. exists v0. rewrite <- Ev. auto. }
        rewrite bind_bind in A. unfold bind at 1 in A. pose proof (put_value_same t1 (slot_index g s) (Live (fst x0, v)) (S n1)) as Y.
        pose proof (put_live_stored t1 g s x0 v (S n1) Hx0) as Z.
        destruct (on_arr (put_cell (slot_index g s) (Live (fst x0, v))) t1 (S n1)) as [u t2 n2|kd t2 n2|]; [| |destruct A].
        * cbn [ret bind] in A. unfold bind, ret in A. subst. destruct Y as (_ & Y2 & Y3). unfold cap in Y3. split; [congruence|]. split; [congruence|]. intros i y Hy. apply (Z i y), X3, Hy.
        * subst. destruct Y as (_ & Y2 & Y3). unfold cap in Y3. split; [congruence|]. split; [congruence|]. intros i y Hy. apply (Z i y), X3, Hy.
      + subst. destruct X as (X1 & X2 & X3). split; [exact X1|]. split; [exact X2|]. intros i y Hy. destruct (Sg y) as [v0 Ev]. exists v0. rewrite <- Ev. apply X3, Hy.
    - pose proof (insert_below c HC t (k, dv) n R L) as X. unfold m_index in A. rewrite bind_bind in A. unfold bind at 1 in A. destruct (m_insert c (k, dv) t n) as [r t1 n1|kd t1 n1|]; [| |destruct A].
      + rewrite bind_bind, bind_get in A. rewrite bind_bind in A. unfold bind at 1, read_element in A. destruct (get_cell _ _) as [[| |x]|]; try destruct A. destruct X as (X1 & X2 & X3).
        split; [exact X1|]. split; [exact X2|]. intros i y Hy. destruct (Sg y) as [v Ev]. exists v. rewrite <- Ev. auto.
      + subst. destruct X as (X1 & X2 & X3). split; [exact X1|]. split; [exact X2|]. intros i y Hy. destruct (Sg y) as [v Ev]. exists v. rewrite <- Ev. apply X3, Hy. }
  split; [exact Q1|]. split; [exact Q2|]. split; [|exact Q3].
  pose proof (insert_op_change c HC t o n H Ho) as X. unfold moved, size, max_load. rewrite Ho.
  destruct (exec1 c o t n) as [v x n'|k x n'|]; [| |destruct A]; subst; destruct X as [X1 X2];
    (destruct (N.ltb_spec (sz t) (sz t')) as [L1|L1]; [assert (sz t =? ml t = false) as -> by (apply N.eqb_neq; lia); reflexivity|]);
    (destruct (N.eq_dec (sz t') (sz t)) as [->|Ne]; [lia|specialize (X1 ltac:(lia)); lia]).
Qed.
(** Growth is amortized: inserting i elements moves at most 62 elements for each of them, and once the elements that were there at the beginning *)
Theorem C63_growth_is_amortized : forall t0 i m t, reachable c t0 -> uses c any t0 i m t -> m <= 62 * i + size t0.
Proof. intros t0 i m t R U. apply (uses_cost c HC any t0 i m t (reachable_inv c HC t0 R) U). Qed.
(** at most 3, if erasures never lower max_load() below that of a new array with as many buckets *)
Theorem C63_growth_without_drift_is_amortized : forall t0 i m t, reachable c t0 -> uses c (fun t => max_load t = initial_max_load (bucket_count t)) t0 i m t -> m <= 3 * i + size t0.
Proof.
  intros t0 i m t R U. apply (uses_full c HC (fun t => max_load t = initial_max_load (bucket_count t)) t0 i m t (reachable_inv c HC t0 R)); [|exact U].
  intros t1 E. exact E.
Qed.
(** bucket_count() changes only when an insertion finds the container full; then it at most doubles (up to the sentinel), and there is room for at least one 61st more elements *)
Theorem C63_growth_at_most_doubles : forall t o t', reachable c t -> single o = true -> pre1 c o t -> after1 c t o t' ->
  bucket_count t' = bucket_count t \/
  (inserts o = true /\ size t = max_load t /\ size t' = size t + 1 /\ bucket_count t' <= N.max 29 (2 * bucket_count t + 1) /\ size t + size t / 61 + 1 <= max_load t').
Proof.
  intros t o t' R S P (n & A). pose proof (reachable_inv c HC t R) as H. pose proof (single_change c HC t o n H P S) as X. unfold bucket_count, size, max_load.
  assert (Inv c t' /\ change t t') as [H' C] by (destruct (exec1 c o t n) as [v x n'|k x n'|]; [| |destruct A]; subst; (split; [apply X|apply X])).
  destruct C as [C1 C2 C3|C1 C2 C3|C1 C2 C3 C4|C1 C2 C3 C4 C5]; [left; exact C3|left; exact C3|left; exact C4|right].
  split; [|split; [exact C2|split; [exact C1|split; [unfold cap in C4; rewrite C4; apply (growth_doubles c HC t H)|exact C5]]]].
  rewrite (single_split o) in S. destruct (inserts o) eqn:Ei; [reflexivity|]. exfalso. clear X.
  assert (sz t' <= sz t) as L; [|lia].
  destruct (erases o) eqn:He.
  { pose proof (rk_erasing c t o n He) as Y. destruct (exec1 c o t n) as [v x n'|k x n'|]; [| |destruct A]; subst; destruct Y as (i & j & _ & Y & _);
      rewrite (inv_taken c t H), (inv_taken c t' H'); lia. }
  destruct (read_only o) eqn:Hr.
  { pose proof (read_only_ok c o t n H Hr) as Y. destruct (exec1 c o t n) as [v x n'|k x n'|]; [| |destruct A]; subst; subst; lia. }
  destruct o; try discriminate. cbn [exec1] in A. pose proof (FoaOps.clear_ok c t n (FoaOps.inv_w c t H)) as Y. unfold bind in A.
  destruct (clear t n) as [u x n'|k x n'|]; cbn [outcome ret] in *; [|destruct Y|destruct A]. subst. destruct Y as (_ & _ & _ & _ & Es & _). lia.
Qed.
(** space: if a container never has more than p elements, bucket_count() is at most 7(p+2)/3, 29, or what it was at the beginning *)
Theorem C63_bucket_count_is_proportional_to_peak_size : forall p t0 i m t, reachable c t0 -> uses c (fun t => size t <= p) t0 i m t ->
  bucket_count t <= N.max (bucket_count t0) (N.max 29 (7 * (p + 2) / 3)).
Proof. intros p t0 i m t R U. apply (uses_cap c HC (fun t => size t <= p) t0 i m t p (reachable_inv c HC t0 R)); [|exact U]. intros t1 L. exact L. Qed.
(** the insertion of a range is a sequence of insertions *)
Theorem C63_ranges_are_sequences_of_insertions : forall l t n u t' n', reachable c t -> m_insert_range c l t n = Ret u t' n' -> exists m, uses c any t (size t' - size t) m t'.
Proof.
  intros l t n u t' n' R X. pose proof (reachable_inv c HC t R) as H. clear R.
  assert (forall l t1 n i m, Inv c t1 -> uses c any t i m t1 -> i = size t1 - size t -> size t <= size t1 -> m_insert_range c l t1 n = Ret u t' n' -> exists m, uses c any t (size t' - size t) m t') as G.
  { clear X n l. induction l as [|e l IH]; intros t1 n i m H1 U Ei Le X; cbn [m_insert_range] in X.
    - injection X as E1 E2 E3. subst. exists m. exact U.
    - unfold bind in X. destruct (m_insert c e t1 n) as [r t2 n2|k t2 n2|] eqn:E1; try discriminate.
      pose proof (insert_ok c HC t1 e n H1) as Y. rewrite E1 in Y. cbn [outcome] in Y. destruct Y as (H2 & _ & x & Hx & _).
      assert (after1 c t1 (Insert e) t2) as Aft.
      { exists n. cbn [exec1]. unfold bind at 1. rewrite E1. rewrite bind_get. unfold bind, read_at, read_element, get_cell. unfold cells in Hx. destruct (a_elems (arr t2)) as [cs|]; [|destruct (slot_index _ _); discriminate].
        rewrite Hx. reflexivity. }
      pose proof (emplace_change c HC KConstruct t1 e n H1) as Ch. unfold m_insert in E1. rewrite E1 in Ch. destruct Ch as (_ & _ & Ch).
      pose proof (emplace_impl_ok c KConstruct t1 e n HC H1) as Em. rewrite E1 in Em. cbn [outcome fst snd] in Em.
      assert (size t1 <= size t2) as Le2.
      { unfold size. destruct Em as [_ _ _ F T _ _]. destruct (snd r); [destruct (T eq_refl) as (_ & _ & Es & _); lia|destruct (F eq_refl) as [-> _]; lia]. }
      eapply (IH t2 n2 (i + (size t2 - size t1)) (m + moved (Insert e) t1 t2) H2); [| |lia|exact X].
      + eapply uses_step; [exact U|reflexivity|exact I|exact Aft|exact I].
      + lia. }
  apply (G l t n 0 0 H); [constructor; exact I|lia|lia|exact X].
Qed.
End P.

(** *** a case: 300 insertions into a new container move 29+51+104+209 elements *)
Fixpoint use_list (c : Cfg N N) (os : list (op1 N N)) (t : table N N) (i m : N) : option (N * N * table N N) :=
  match os with
  | [] => Some (i, m, t)
  | o :: r => if single o && pre1b o t then match exec1 c o t O with Ret _ t' _ | Exn _ t' _ => use_list c r t' (i + (size t' - size t)) (m + moved o t t') | Undef => None end else None
  end.
Lemma pre1b_pre thr mv o (t : table N N) : pre1b o t = true -> pre1 (ecfg thr mv) o t.
Proof.
  destruct o; cbn [pre1b pre1]; try (intros; exact I).
  - apply N.ltb_lt.
  - intros H. apply andb_prop in H as [A B]. split; [apply Nat.leb_le; exact A|apply N.leb_le; exact B].
  - apply size_okb_ok.
  - apply size_okb_ok.
Qed.
Lemma use_list_ok thr mv os : forall t0 t i m i' m' t', uses (ecfg thr mv) (fun _ => True) t0 i m t -> use_list (ecfg thr mv) os t i m = Some (i', m', t') -> uses (ecfg thr mv) (fun _ => True) t0 i' m' t'.
Proof.
  induction os as [|o os IH]; intros t0 t i m i' m' t' U X; cbn [use_list] in X; [injection X as <- <- <-; exact U|].
  destruct (single o) eqn:S; [|discriminate]. destruct (pre1b o t) eqn:P; [|discriminate]. cbn [andb] in X.
  destruct (exec1 (ecfg thr mv) o t O) as [v t1 n1|k t1 n1|] eqn:E; [| |discriminate];
    (eapply IH; [|exact X]; apply uses_step; [exact U|exact S|apply pre1b_pre; exact P|exists 0%nat; rewrite E; reflexivity|exact I]).
Qed.
Definition t_empty : table N N := tab_of nothrow true [New 0 0 0 0] 0.
Definition sum_up (r : option (N * N * table N N)) : option (N * N * N * N * N) := match r with Some (i, m, t) => Some (i, m, size t, max_load t, bucket_count t) | None => None end.
Definition os_300 : list (op1 N N) := map (fun k => Insert (N.of_nat k, N.of_nat k)) (seq 0 300).
Example C63_case : reachable (ecfg nothrow true) t_empty /\ exists t, uses (ecfg nothrow true) (fun _ => True) t_empty 300 393 t /\ size t = 300 /\ bucket_count t = 479.
Proof.
  split; [apply tab_reachable; vm_compute; reflexivity|].
  destruct (use_list (ecfg nothrow true) os_300 t_empty 0 0) as [[[i m] t]|] eqn:E; [|vm_compute in E; discriminate].
  assert (sum_up (use_list (ecfg nothrow true) os_300 t_empty 0 0) = Some (300, 393, 300, 419, 479)) as Q by (vm_compute; reflexivity).
  rewrite E in Q. cbn [sum_up] in Q. injection Q as -> -> Q1 Q2 Q3. exists t. split; [|split; assumption].
  eapply use_list_ok; [|exact E]. constructor. exact I.
Qed.
(** An insertion may also shrink the array: 30 colliding elements, 20 erasures, 17 times an insertion and an erasure, insertions until size() is max_load(); the next insertion
    halves bucket_count() *)
Definition os_shrink : list (op1 N N) :=
  map (fun k => Insert (N.of_nat k, 0)) (seq 0 30) ++ map (fun k => Erase (N.of_nat k)) (seq 0 20) ++
  concat (repeat [Insert (1, 0); Erase 1] 17) ++ map (fun k => Insert (N.of_nat k, 0)) (seq 0 10).
Definition t_shrink : table N N := tab_of nothrow true (New 1 0 0 0 :: map (On 0) os_shrink) 0.
Example C63_an_insertion_may_shrink_the_array : reachable (ecfg nothrow true) t_shrink /\ (size t_shrink, max_load t_shrink, bucket_count t_shrink) = (20, 20, 59) /\
  exists t', after1 (ecfg nothrow true) t_shrink (Insert (100, 0)) t' /\ (size t', max_load t', bucket_count t') = (21, 29, 29).
Proof.
  split; [apply tab_reachable; vm_compute; reflexivity|]. split; [vm_compute; reflexivity|].
  destruct (exec1 (ecfg nothrow true) (Insert (100, 0)) t_shrink O) as [v t' n'|k t' n'|] eqn:E; [| |vm_compute in E; discriminate].
  - exists t'. split; [exists O; rewrite E; reflexivity|].
    assert (match exec1 (ecfg nothrow true) (Insert (100, 0)) t_shrink O with Ret _ x _ => (size x, max_load x, bucket_count x) | _ => (0, 0, 0) end = (21, 29, 29)) as Q by (vm_compute; reflexivity).
    rewrite E in Q. exact Q.
  - exfalso. assert (match exec1 (ecfg nothrow true) (Insert (100, 0)) t_shrink O with Exn _ _ _ => false | _ => true end = true) as Q by (vm_compute; reflexivity). rewrite E in Q. discriminate.
Qed.
Print Assumptions C63_insertions_below_max_load_move_nothing.
Print Assumptions C63_growth_is_amortized.
Print Assumptions C63_growth_without_drift_is_amortized.
Print Assumptions C63_growth_at_most_doubles.
Print Assumptions C63_bucket_count_is_proportional_to_peak_size.
Print Assumptions C63_ranges_are_sequences_of_insertions.
