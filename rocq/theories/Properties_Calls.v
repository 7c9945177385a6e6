(** C66: calls of functions supplied by the user (hash functions, predicates, allocation, construction, copying and moving of elements): which operations make none, so that
    they cannot throw, and how many the others make at most. Any of these calls may throw; a run [m s n] starts when n calls have been made (CallSpec.v). Open addressing. *)
From Coq Require Import NArith Bool List Arith Lia ZifyBool ZifyNat ZifyN.
From Verif Require Import SizeModel FoaModel FoaGroup FoaBase FoaFind FoaArr FoaInv FoaRehash FoaOps FoaSpec FoaWorld FoaApi FoaRun FoaExamples CallSpec FoaCalls FoaCalls2 FoaCalls3 FoaCalls4.
Import ListNotations.
Local Open Scope nat_scope.

(** erase(iterator), erase(first,last), a loop of erase(iterator), clear(), iteration, size(), default construction, move construction, destruction, swap; move assignment if the
    allocator moves along or is the same *)
Definition calls_none {K V} (c : Cfg K V) (w : @mworld K V) (o : op K V) : Prop :=
  match o with
  | On _ (EraseNth _) | On _ (EraseRange _ _) | On _ (EraseLoop _) | On _ Clear | On _ Iterate | On _ Size => True
  | MoveConstruct _ | Destroy _ | Swap _ _ => True
  | MoveAssign i j => exists t x, slot w i = Some t /\ slot w j = Some x /\ (pocma c = true \/ aid t = aid x)
  | New _ _ _ n => n = 0%N
  | _ => False
  end.
Definition size_of {K V} (c : Cfg K V) (t : table K V) : nat := length (contents c t).
(** the most calls an operation on a container with contents of size z makes *)
Definition most1 {K V} (c : Cfg K V) (t : table K V) (o : op1 K V) : option nat :=
  let z := size_of c t in
  let insertion := if (sz t <? ml t)%N then 2 + z else 3 + 3 * z in
  match o with
  | Insert _ | Index _ _ => Some insertion
  | InsertOrAssign _ _ => Some (1 + insertion)
  | InsertRange l => Some (length l * (3 + 3 * (z + length l)))
  | AssignList l => Some (length l * (3 + 3 * length l))
  | Find _ | At _ | Count _ | Contains _ | EqualRange _ | Erase _ => Some (1 + z)
  | EraseIf _ => Some z
  | Rehash _ | Reserve _ => Some (1 + 2 * z)
  | EraseNth _ | EraseRange _ _ | EraseLoop _ | Clear | Iterate | Size => Some 0
  | MergeSelf => Some (z * (1 + z))
  end.
Definition most {K V} (c : Cfg K V) (w : @mworld K V) (o : op K V) : option nat :=
  let z i := match slot w i with Some t => size_of c t | None => 0 end in
  match o with
  | On i o => match slot w i with Some t => most1 c t o | None => None end
  | New _ _ _ _ => Some 1
  | CopyConstruct j _ | MoveConstructAl j _ => Some (1 + 2 * z j)
  | MoveConstruct _ | Destroy _ | Swap _ _ => Some 0
  | CopyAssign _ j => Some (2 + 2 * z j)
  | MoveAssign _ j => Some (1 + 2 * z j)
  | Equal i j _ => Some (z i * (1 + z j))
  | Merge i j => Some (z j * (3 + 3 * (z i + z j)))
  end.

Section P.
Context {K V : Type} (c : Cfg K V).
Hypothesis HC : good_cfg c.

(** operations that call nothing: they return, whatever the functions of the user would do *)
Theorem C66_these_operations_call_nothing_and_never_throw : forall rs w o n, runs c rs w -> pre c o w -> calls_none c w o -> exists v w', exec c o w n = Ret v w' n.
Proof.
  intros rs w o n R P Hn. pose proof (exec_ok c HC o w n (runs_ok c HC rs w R) P) as O. assert (silent c w o) as S by (destruct o as [i []| | | | | | | | | |]; try exact Hn; cbn in *; try reflexivity; contradiction).
  pose proof (silent_exec c w o n S) as X. unfold OK in O. destruct (exec c o w n) as [v w' n'|k w' n'|]; cbn [no_calls outcome] in *; [subst; eauto|contradiction|contradiction].
Qed.

(** the worst case *)
Lemma size_nel t : Inv c t -> size_of c t = nel t.
Proof. intros H. unfold size_of, nel. rewrite (contents_eq c t H). reflexivity. Qed.
Lemma assign_list_calls t l n : Inv c t -> calls (m_assign_list c l t n) n (length l * (3 + 3 * length l)).
Proof.
  intros H. unfold m_assign_list. pose proof (clear_ok c t n (inv_w c t H)) as O. pose proof (nc_clear t n) as N0. unfold bind. destruct (clear t n) as [u t' n'|k t' n'|]; cbn [outcome no_calls] in *; [|contradiction|contradiction].
  destruct O as (I' & _ & E & _). subst n'. pose proof (insert_range_calls c HC l t' n I') as X. unfold nel in X. rewrite E in X. exact X.
Qed.
Lemma most1_ok t o n d : Inv c t -> most1 c t o = Some d -> calls (exec1 c o t n) n d.
Proof.
  intros H E. unfold most1 in E. rewrite (size_nel t H) in E. cbv zeta in E.
  destruct (lookup1 o) eqn:L.
  { assert (d = 1 + nel t) as -> by (destruct o; discriminate || congruence). apply (lookup1_calls c o t n L H). }
  destruct (FoaCalls.silent1 o) eqn:L2.
  { apply nc_cb. apply nc_exec1. exact L2. }
  destruct o; try discriminate L; try discriminate L2; try discriminate E; assert (E2 : forall a b : nat, Some a = Some b -> a = b) by congruence; apply E2 in E; clear E2; subst d; cbn [exec1].
  - apply calls_0then; [apply (insert_calls c t e n H)|intro; apply nc_bind; [apply nc_get|intro; apply nc_bind; [apply nc_read|intro; apply nc_ret]]].
  - apply calls_0then; [apply (insert_range_calls c HC l t n H)|intro; apply nc_ret].
  - apply calls_0then; [apply (assign_list_calls t l n H)|intro; apply nc_ret].
  - apply calls_0then; [|intro; apply nc_ret]. unfold m_insert_or_assign. rewrite Nat.add_comm. apply calls_bind; [apply (insert_calls c t (k, v) n H)|]. intros [[g m] b] s' n' _. destruct b; [apply calls_ret|].
    apply cb_then0; [apply nc_get|intro]. apply cb_then0; [apply nc_read|intro]. apply cb_0then; [apply cb_tick|intro]. apply nc_bind; [apply nc_on_arr, nc_put_cell|intro; apply nc_ret].
  - apply calls_0then; [|intro; apply nc_ret]. unfold m_index. apply calls_0then; [apply (insert_calls c t (k, dv) n H)|intro; apply nc_bind; [apply nc_get|intro; apply nc_bind; [apply nc_read|intro; apply nc_ret]]].
  - pose proof (erase_if_calls c (fun _ => pr) t [] n H) as X. destruct (erase_if c (fun _ => pr) (t, []) n); exact X.
  - apply calls_0then; [apply (rehash_calls c t n0 n (i_arr _ _ H))|intro; apply nc_ret].
  - apply calls_0then; [apply (reserve_calls c t n0 n (i_arr _ _ H))|intro; apply nc_ret].
  - apply calls_0then; [apply (merge_self_calls c HC t n H)|intro; apply nc_ret].
Qed.
Lemma run1_calls {A} i (m : M (table K V) A) w n d : (forall t, slot w i = Some t -> calls (m t n) n d) -> calls (run1 i m w n) n d.
Proof. intros X. unfold run1. destruct (slot w i) as [t|]; [|exact I]. specialize (X t eq_refl). destruct (m t n); exact X. Qed.
Lemma run2_calls {A} i j (m : M (table K V * table K V) A) w n d : (forall t x, slot w i = Some t -> slot w j = Some x -> calls (m (t, x) n) n d) -> calls (run2 i j m w n) n d.
Proof. intros X. unfold run2. destruct (slot w i) as [t|] eqn:E1; [|exact I]. destruct (slot w j) as [x|] eqn:E2; [|exact I]. destruct (i =? j); [exact I|]. specialize (X t x eq_refl eq_refl). destruct (m (t, x) n); exact X. Qed.
Theorem C66_calls_in_the_worst_case : forall rs w o n d, runs c rs w -> pre c o w -> most c w o = Some d -> calls (exec c o w n) n d.
Proof.
  intros rs w o n d R P E. pose proof (runs_ok c HC rs w R) as W.
  assert (Z : forall j x, slot w j = Some x -> (match slot w j with Some t => size_of c t | None => 0 end) = nel x) by (intros j x Hx; rewrite Hx; apply size_nel, (W j x Hx)).
  assert (Pushed : forall t : table K V, Nc (bind (push t) (fun _ => ret (@VUnit K V)))) by (intro; apply nc_bind; [apply nc_modify|intro; apply nc_ret]).
  destruct o as [i o|h p al m|j al|j|j al|i|i j|i j|i j|i j|i j eeq]; cbn [most exec] in *; try discriminate E; try (assert (E2 : forall a b : nat, Some a = Some b -> a = b) by congruence; apply E2 in E; clear E2; subst d).
  - apply run1_calls. intros t Hs. rewrite Hs in E. apply most1_ok; [exact (W i t Hs)|exact E].
  - apply calls_0then; [apply cb_new_table|exact Pushed].
  - rewrite bind_get. destruct P as (x & Hx). rewrite (Z j x Hx), Hx. cbn [of_option]. rewrite bind_ret. apply calls_0then; [apply (copy_construct_calls c x al w n (W j x Hx))|exact Pushed].
  - apply nc_cb. intros w1 n1. apply (silent_exec c w1 (MoveConstruct j)). exact I.
  - apply calls_0then; [|exact Pushed]. apply run1_calls. intros x Hx. rewrite (Z j x Hx). apply (move_construct_al_calls c x al n (W j x Hx)).
  - apply (nc_cb (exec c (Destroy i)) 0). intros w1 n1. apply (silent_exec c w1 (Destroy i)). exact I.
  - rewrite bind_get. destruct P as (_ & t & x & _ & Hx). rewrite (Z j x Hx), Hx. cbn [of_option]. rewrite bind_ret. apply calls_0then; [|intro; apply nc_ret]. apply run1_calls. intros t0 Ht0. apply (copy_assign_calls c x t0 n (W j x Hx)).
  - apply calls_0then; [|intro; apply nc_ret]. apply run2_calls. intros t x _ Hx. rewrite (Z j x Hx). apply (move_assign_calls c t x n (W j x Hx)).
  - apply nc_cb. intros w1 n1. apply (silent_exec c w1 (Swap i j)). exact I.
  - apply calls_0then; [|intro; apply nc_ret]. apply run2_calls. intros t x Ht Hx. rewrite (Z j x Hx), (Z i t Ht). apply (merge_calls c HC t x n (W i t Ht) (W j x Hx)).
  - rewrite bind_get. destruct P as (t & x & Ht & Hx). rewrite (Z j x Hx), (Z i t Ht), Ht, Hx. cbn [of_option]. rewrite !bind_ret. apply calls_0then; [|intro; apply nc_ret]. apply (equal_calls c eeq t x w n (W i t Ht) (W j x Hx)).
Qed.

(** inserting a key that is there, or operator[] of it: the element is looked up, nothing is allocated, constructed or moved; insert_or_assign assigns the value *)
Theorem C66_inserting_a_present_key_only_looks_it_up : forall t o k n, reachable c t ->
  match o with Insert e => k = fst e | Index _ k' => k = k' | InsertOrAssign k' _ => k = k' | _ => False end ->
  (exists e, In e (contents c t) /\ keqf c (pid t) k (fst e) = true) ->
  let assigns := match o with InsertOrAssign _ _ => true | _ => false end in
  calls (exec1 c o t n) n (1 + size_of c t + if assigns then 1 else 0) /\
  throws_only (exec1 c o t n) (fun kd => kd = KHash \/ kd = KEq \/ assigns = true /\ kd = KConstruct).
Proof.
  intros t o k n R Ho (e & I & Ek) assigns. pose proof (reachable_inv c HC t R) as H. rewrite (size_nel t H). rewrite (contents_eq c t H) in I.
  assert (FoaCalls3.insert1 o = Some k) as X by (destruct o; try contradiction; subst; reflexivity).
  destruct (insert1_present c t o k n X H (ex_intro _ e (conj I Ek))) as [Y1 Y2]. split; [subst assigns; destruct o; exact Y1|].
  destruct (exec1 c o t n) as [v t' n'|kd t' n'|]; try exact Logic.I. cbn [throws_only] in *. subst assigns. destruct o; tauto.
Qed.
End P.
Print Assumptions C66_these_operations_call_nothing_and_never_throw.
Print Assumptions C66_calls_in_the_worst_case.
Print Assumptions C66_inserting_a_present_key_only_looks_it_up.
(** a container whose 15 elements all have the same hash value: a lookup of a missing key makes exactly the 16 calls the theorem allows; so does the insertion of a present key, and
    the insertion of a new one at most 17 *)
Definition count {St A} (r : R St A) : nat := match r with Ret _ _ n | Exn _ _ n => n | Undef => 0 end.
Example C66_case : reachable (ecfg nothrow true) t_drift /\ size_of (ecfg nothrow true) t_drift = 15 /\
  count (exec1 (ecfg nothrow true) (Find 100%N) t_drift 0) = 16 /\ most1 (ecfg nothrow true) t_drift (Find 100%N) = Some 16 /\
  count (exec1 (ecfg nothrow true) (Insert (100%N, 0%N)) t_drift 0) = 17 /\ most1 (ecfg nothrow true) t_drift (Insert (100%N, 0%N)) = Some 17.
Proof.
  split; [apply t_drift_reachable|]. repeat split; vm_compute; reflexivity.
Qed.
(** in a world of three containers, where every call of the hash function would throw: clear(), swap, erasure through iterators and destruction still work *)
Definition thr_from (m : nat) : kind -> nat -> bool := fun _ n => (m <=? n)%nat.
Definition ops_c : list (op N N) := New 0 0 0 0 :: New 1 0 0 10 :: ins 0 (seq 0 40) ++ ins 1 (seq 20 25).
Definition cfg_c := ecfg (thr_from 1000) true.
Definition w_c : @mworld N N := match steps cfg_c ops_c [] 0 with Some (_, w) => w | None => [] end.
Lemma w_c_runs : exists rs, runs cfg_c rs w_c.
Proof.
  assert (presb (thr_from 1000) true ops_c [] 0 = true) as P by (vm_compute; reflexivity). unfold w_c. destruct (steps cfg_c ops_c [] 0) as [[rs w]|] eqn:S.
  - exists rs. apply (ops_runs (thr_from 1000) true ops_c); assumption.
  - exists []. constructor.
Qed.
Example C66_case_calls_nothing : map (fun i => option_map (size_of cfg_c) (slot w_c i)) [0; 1] = [Some 40; Some 25] /\
  forall n o, In o [Swap 0 1; On 0 Clear; On 1 (EraseNth 7); On 0 (EraseRange 3 20); Destroy 0; MoveConstruct 1; MoveAssign 0 1] ->
  (exists rs, runs cfg_c rs w_c) /\ pre cfg_c o w_c /\ calls_none cfg_c w_c o /\ exists v w', exec cfg_c o w_c n = Ret v w' n.
Proof.
  split; [vm_compute; reflexivity|]. intros n o Ho. destruct w_c_runs as (rs & R).
  assert (forallb (fun o => preb o w_c) [Swap 0 1; On 0 Clear; On 1 (EraseNth 7); On 0 (EraseRange 3 20); Destroy 0; MoveConstruct 1; MoveAssign 0 1] = true) as F by (vm_compute; reflexivity).
  pose proof (proj1 (forallb_forall _ _) F o Ho) as P. apply (preb_ok (thr_from 1000) true) in P. split; [eauto|]. split; [exact P|].
  assert (calls_none cfg_c w_c o) as C.
  { repeat (destruct Ho as [<-|Ho]; [try exact I|]); [|contradiction]. destruct P as (_ & t & x & Et & Ex & _). exists t, x. split; [exact Et|]. split; [exact Ex|]. right.
    assert (option_map aid (slot w_c 0) = option_map aid (slot w_c 1)) as Q by (vm_compute; reflexivity). rewrite Et, Ex in Q. cbn [option_map] in Q. congruence. }
  split; [exact C|]. apply (C66_these_operations_call_nothing_and_never_throw cfg_c (ecfg_good _ _) rs); assumption.
Qed.
(** and every other operation throws there at once *)
Example C66_case_others_throw : match exec cfg_c (On 0 (Find 3%N)) w_c 1000 with Exn KHash _ 1001 => True | _ => False end.
Proof. vm_compute. exact I. Qed.
(** merging 25 elements, 5 of them new, of a container into one of 40 elements *)
Example C66_case_merge : (exists rs, runs cfg_c rs w_c) /\ most cfg_c w_c (Merge 0 1) = Some 4950 /\ count (exec cfg_c (Merge 0 1) w_c 0) = 50 /\
  most cfg_c w_c (On 0 MergeSelf) = Some 1640 /\ count (exec cfg_c (On 0 MergeSelf) w_c 0) = 80.
Proof. split; [apply w_c_runs|]. repeat split; vm_compute; reflexivity. Qed.
