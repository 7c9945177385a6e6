(** C66 for operations on two closed-addressing containers: copies, moves between allocators, merge, comparison; see Properties_Calls.v and Properties_FcaCalls.v *)
From Coq Require Import NArith ZArith Bool List Arith Lia Permutation.
From Verif Require Import FloatModel HashArithModel FoaModel FoaBase FcaLinks FcaModel FcaIter FcaInv FcaTab FcaRehash FcaOps FcaSpec FcaWorld FcaRun FcaRun4 FcaProps FcaProps2 FcaExamples CallSpec FoaCalls FoaCalls2 FcaCalls FcaCalls2 FcaCalls3 FcaCalls4 Properties_FcaCalls.
Import ListNotations.
Local Open Scope nat_scope.
(** the most calls; equivalent keys are looked for in containers that allow them only *)
Definition most2 {K V} (c : FCfg K V) (w : @mworld K V) (o : op K V) : option nat :=
  let z i := match slot w i with Some t => size_of t | None => 0 end in
  let look m := if multi c then m else 0 in
  match o with
  | CopyConstruct j _ => Some (4 + z j * (3 + look (z j)))
  | MoveConstructAl j _ => Some (4 + 3 * (1 + z j))
  | CopyAssign i j => Some (6 + z i + z j * (3 + look (z j)))
  | MoveAssign i j => Some (2 + z i + (1 + z j) * (4 + look (1 + z j)))
  | Merge i j => Some (if multi c then (1 + z j) * (5 + 2 * (z i + z j)) else 2 + z i + (1 + z j) * (2 + z i + z j))
  | Equal i j _ => Some (if multi c then (1 + z i) * (1 + z i + 2 * z j) else z i * (1 + z j))
  | _ => None
  end.
Section P.
Context {K V : Type} (c : FCfg K V).
Notation table := (FcaModel.table K V).
Lemma run1_calls {A} i (m : M (table * heap) A) (w : @mworld K V) n d : (forall t, slot w i = Some t -> calls (m (t, hp w) n) n d) -> calls (run1 i m w n) n d.
Proof. intros H. unfold run1. destruct (slot w i) as [t|]; [|exact I]. specialize (H t eq_refl). destruct (m (t, hp w) n); exact H. Qed.
Lemma run2_calls {A} i j (m : M ((table * table) * heap) A) (w : @mworld K V) n d : (forall t x, slot w i = Some t -> slot w j = Some x -> calls (m ((t, x), hp w) n) n d) -> calls (run2 i j m w n) n d.
Proof. intros H. unfold run2. destruct (slot w i) as [t|]; [|exact I]. destruct (slot w j) as [x|]; [|exact I]. destruct (i =? j); [exact I|]. specialize (H t x eq_refl eq_refl). destruct (m ((t, x), hp w) n); exact H. Qed.
Lemma run0_calls {A} (m : M heap A) (w : @mworld K V) n d : calls (m (hp w) n) n d -> calls (run0 m w n) n d.
Proof. intros H. unfold run0. destruct (m (hp w) n); exact H. Qed.
Theorem C66_fca_two_containers_in_the_worst_case : forall rs w o n d, runs c rs w -> most2 c w o = Some d -> calls (exec c o w n) n d.
Proof.
  intros rs w o n d R E.
  assert (IP : forall i t, slot w i = Some t -> in_program c t (hp w)) by (intros i t Hi; exists rs, w, i; auto).
  assert (TI : forall i t, slot w i = Some t -> TInv c t (contents t)) by (intros i t Hi; apply (prog_inv c t (hp w)), (IP i t Hi)).
  assert (SIx : forall i t, slot w i = Some t -> exists r, SI c r (t, hp w) (contents t)) by (intros i t Hi; apply (prog_si c t (hp w)), (IP i t Hi)).
  assert (EL : forall i t, slot w i = Some t -> elements t = Some (contents t)).
  { intros i t Hi. apply elements_ok; [apply (ci_b _ _ _ (ti_c _ _ _ (TI i t Hi)))|apply (ci_ids _ _ _ (ti_c _ _ _ (TI i t Hi)))|apply (ti_size _ _ _ (TI i t Hi))]. }
  unfold size_of in E.
  destruct o as [i o|h p al m|j al|j|j al|i|i j|i j|i j|i j|i j eeq|i k|i m|h e|i h hint|h]; cbn [most2] in E; try discriminate; cbn [exec].
  - injection E as <-. rewrite bind_get. destruct (slot w j) as [x|] eqn:Hj; [|exact I]. cbn [of_option]. rewrite bind_ret. apply calls_0then; [|intro; apply nc_bind; [apply nc_modify|intro; apply nc_ret]].
    apply run0_calls. apply copy_construct_calls, (EL j x Hj).
  - injection E as <-. apply calls_0then; [|intro; apply nc_bind; [apply nc_modify|intro; apply nc_ret]]. apply run1_calls. intros t Hj. rewrite Hj. pose proof (move_construct_al_calls c al (t, hp w) n) as X. cbn [fst] in X. rewrite (nsz_size c t _ (TI j t Hj)) in X. exact X.
  - injection E as <-. rewrite bind_get. destruct (slot w j) as [x|] eqn:Hj; [|exact I]. cbn [of_option]. rewrite bind_ret. apply calls_0then; [|intro; apply nc_ret]. apply run1_calls. intros t Hi. rewrite Hi. destruct (SIx i t Hi) as (r & S0).
    apply (copy_assign_calls c r (t, hp w) (contents t) x (contents x) n S0 (TI j x Hj) (EL j x Hj)).
  - injection E as <-. apply calls_0then; [|intro; apply nc_ret]. apply run2_calls. intros t x Hi Hj. rewrite Hi, Hj. destruct (SIx i t Hi) as (r & S0). apply (move_assign_calls c r t x (hp w) _ _ n S0 (TI j x Hj)).
  - injection E as <-. apply calls_0then; [|intro; apply nc_ret]. apply run2_calls. intros t x Hi Hj. rewrite Hi, Hj. apply (merge_calls c t x (hp w) _ _ n (TI i t Hi) (TI j x Hj)).
  - injection E as <-. rewrite bind_get. destruct (slot w i) as [t|] eqn:Hi; [|exact I]. cbn [of_option]. rewrite bind_ret. destruct (slot w j) as [x|] eqn:Hj; [|exact I]. cbn [of_option]. rewrite bind_ret.
    apply calls_0then; [|intro; apply nc_ret]. apply (equal_calls c eeq t x _ _ w n (TI i t Hi) (TI j x Hj) (EL i t Hi)).
Qed.
(** merge neither allocates, constructs, copies nor moves elements: what it calls, and so what can throw, is the hash function, the predicate and the allocator of bucket arrays;
    comparison calls the hash function and the predicate (and == of the elements) *)
Theorem C66_fca_merge_and_comparison_leave_elements_alone : forall w i j n,
  throws_only (exec c (Merge i j) w n) (fun kd => kd = KHash \/ kd = KEq \/ kd = KAlloc) /\
  forall eeq, throws_only (exec c (Equal i j eeq) w n) (fun kd => kd = KHash \/ kd = KEq).
Proof.
  intros w i j n. split.
  - cbn [exec]. unfold bind, run2. destruct (slot w i) as [t|]; [|exact I]. destruct (slot w j) as [x|]; [|exact I]. destruct (i =? j); [exact I|]. pose proof (tk_merge c ((t, x), hp w) n) as X. destruct (merge c ((t, x), hp w) n); exact X || exact I.
  - intros eeq. cbn [exec]. rewrite bind_get. destruct (slot w i) as [t|]; [|exact I]. cbn [of_option]. rewrite bind_ret. destruct (slot w j) as [x|]; [|exact I]. cbn [of_option]. rewrite bind_ret.
    apply (tk_bind (fun kd => kd = KHash \/ kd = KEq)); [apply tk_equal; auto|intro; apply tk_nc, nc_ret].
Qed.
End P.
(** the two containers of Properties_FcaCalls.v: (allowed, made) *)
Definition os_2 : list (op N N) := [CopyConstruct 0 0%N; Merge 0 1; Equal 0 1 (fun a b => N.eqb (fst a) (fst b))].
Definition costs : list (option nat * nat) := map (fun o => (most2 cfgh w_h o, count (exec cfgh o w_h 0))) os_2.
Example C66_fca_case_two_containers : (exists rs, runs cfgh rs w_h) /\ costs = [(Some 46, 44); (Some 266, 9); (Some 140, 0)].
Proof. split; [apply w_h_runs|]. vm_cast_no_check (eq_refl [(Some 46, 44); (Some 266, 9); (Some 140, 0)]). Qed.
Print Assumptions C66_fca_two_containers_in_the_worst_case.
Print Assumptions C66_fca_merge_and_comparison_leave_elements_alone.
