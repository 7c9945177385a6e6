(** C66 for closed addressing (unordered_map, unordered_set, unordered_multimap, unordered_multiset and their node handles); see Properties_Calls.v *)
From Coq Require Import NArith ZArith Bool List Arith Lia Permutation.
From Verif Require Import FloatModel HashArithModel FoaModel FoaBase FcaLinks FcaModel FcaIter FcaInv FcaTab FcaRehash FcaOps FcaSpec FcaWorld FcaRun FcaRun4 FcaProps FcaProps2 FcaExamples CallSpec FoaCalls FoaCalls2 FcaCalls FcaCalls2 FcaErase2 FcaCalls3 FcaCalls5.
Import ListNotations.
Local Open Scope nat_scope.

(** erase(iterator), erase(first,last), clear(), max_load_factor(z), iteration, size(), default construction, move construction, destruction, swap, extract(iterator), use and
    destruction of node handles; move assignment if the allocator moves along or is the same *)
Definition calls_none {K V} (c : FCfg K V) (w : @mworld K V) (o : op K V) : Prop :=
  match o with
  | On _ (EraseNth _) | On _ (EraseRange _ _) | On _ Clear | On _ (MaxLoadFactor _) | On _ Iterate | On _ Size => True
  | MoveConstruct _ | Destroy _ | Swap _ _ | ExtractNth _ _ | SetHandle _ _ | DropHandle _ => True
  | MoveAssign i j => exists t x, slot w i = Some t /\ slot w j = Some x /\ (pocma (base c) = true \/ f_al t = f_al x)
  | New _ _ _ n => n = 0%N
  | _ => False
  end.
Definition size_of {K V} (t : FcaModel.table K V) : nat := length (contents t).
(** the most calls an operation on a container of z elements makes *)
Definition most1 {K V} (c : FCfg K V) (t : FcaModel.table K V) (o : op1 K V) : option nat :=
  let z := size_of t in
  let growth := if N.ltb (f_size t) (f_ml t) then 0 else 2 + z in
  match o with
  | Find _ | At _ | Count _ | Contains _ => Some (1 + z)
  | EqualRange _ | EraseKey _ => Some (1 + z + if multi c then z else 0)
  | EraseIf _ => Some (1 + z)
  | Rehash _ | Reserve _ => Some (2 + z)
  | Insert _ _ | InsertOrAssign _ _ | Index _ _ => Some (3 + z + growth)
  | InsertHint _ _ _ => Some (4 + z + growth)
  | EraseNth _ | EraseRange _ _ | Clear | MaxLoadFactor _ | Iterate | Size => Some 0
  | InsertRange fwd l => let m := length l in Some (if multi c && fwd then 2 + z + m * (3 + z + m) else m * (5 + 2 * (z + m)))
  | AssignList l => let m := length l in Some (if multi c then 2 + m * (3 + m) else m * (5 + 2 * m))
  end.
Section P.
Context {K V : Type} (c : FCfg K V).
Notation table := (FcaModel.table K V).

Theorem C66_fca_these_operations_call_nothing_and_never_throw : forall rs w o n, runs c rs w -> pre c o w -> calls_none c w o -> exists v w', exec c o w n = Ret v w' n.
Proof.
  intros rs w o n R P Hn. pose proof (exec_ok c w o n (proj1 (runs_ok c _ _ _ R)) P) as O.
  assert (silent c w o) as S by (destruct o as [i []| | | | | | | | | | | | | | |]; try exact Hn; cbn in *; try reflexivity; contradiction).
  pose proof (silent_exec c w o n S) as X. destruct (exec c o w n) as [v w' n'|k w' n'|]; cbn [no_calls outcome] in *; [subst; eauto|contradiction|contradiction].
Qed.
Theorem C66_fca_calls_in_the_worst_case : forall t h o n d, in_program c t h -> (f_size t + 1 < 2 ^ 53)%N -> most1 c t o = Some d -> calls (exec1 c o (t, h) n) n d.
Proof.
  intros t h o n d H Rm E. pose proof (prog_inv c t h H) as TI.
  destruct (bound1 c o t (contents t)) as [d'|] eqn:B.
  - apply (bound1_calls c t (contents t) o h n d TI Rm). destruct o; try discriminate B; exact E.
  - destruct o; try discriminate B; cbn [most1] in E; assert (E2 : forall a b : nat, Some a = Some b -> a = b) by congruence; apply E2 in E; clear E2; subst d; cbn [exec1].
    + apply calls_0then; [|intro; apply nc_ret]. pose proof (range_calls c fwd l (t, h) n) as X. unfold range_bound in X. cbn [fst] in X. rewrite (nn_size c t _ TI) in X. exact X.
    + destruct (prog_si c t h H) as (r & S0). pose proof (clear_ok c r (t, h) (contents t) n (fun _ _ => True) S0) as X. pose proof (nc_clear (t, h) n) as Y. unfold bind at 1.
      destruct (@clear K V (t, h) n) as [u s1 n1|kd s1 n1|]; cbn [no_calls outcome] in *; [|contradiction|exact I]. subst n1.
      apply calls_0then; [|intro; apply nc_ret]. pose proof (range_calls c true l s1 n) as Z. unfold range_bound in Z. rewrite (nn_empty c r s1 (proj1 X)), andb_true_r in Z. exact Z.
Qed.
(** rehash, reserve: only the hash function and the allocator of bucket arrays are called; elements are neither constructed nor moved *)
Theorem C66_fca_rehashing_leaves_elements_alone : forall t h n m, throws_only (rehash c m (t, h) n) (fun kd => kd = KHash \/ kd = KAlloc) /\ throws_only (reserve c m (t, h) n) (fun kd => kd = KHash \/ kd = KAlloc).
Proof. intros t h n m. split; [apply tk_rehash; auto|apply tk_reserve; auto]. Qed.
Theorem C66_fca_inserting_a_present_key_only_looks_it_up : forall t h o k n, in_program c t h -> multi c = false ->
  match o with Insert true e => k = fst e | Index _ k' => k = k' | InsertOrAssign k' _ => k = k' | _ => False end ->
  (exists x, In x (elems t) /\ keqf (base c) (f_pid t) k (fst (snd x)) = true) ->
  let assigns := match o with InsertOrAssign _ _ => true | _ => false end in
  calls (exec1 c o (t, h) n) n (1 + size_of t + if assigns then 1 else 0) /\
  throws_only (exec1 c o (t, h) n) (fun kd => kd = KHash \/ kd = KEq \/ assigns = true /\ kd = KConstruct).
Proof.
  intros t h o k n H M Ho (x & I & Ek) assigns. pose proof (prog_inv c t h H) as T. rewrite (elems_inv c t _ T) in I. apply in_map_iff in I as (y & <- & I).
  assert (FcaCalls2.insert1 o = Some k) as X by (destruct o as [kf e|?|?|?|?|?|?|?|?|?|?|?|?|?|?|?|?|?|?|?|?]; try contradiction; try (destruct kf; [|contradiction]); subst; reflexivity).
  destruct (insert1_present c t (contents t) o k h n X M T (ex_intro _ y (conj I Ek))) as [Y1 Y2]. unfold size_of. split; [subst assigns; destruct o; exact Y1|].
  destruct (exec1 c o (t, h) n) as [v t' n'|kd t' n'|]; try exact Logic.I. cbn [throws_only] in *. subst assigns. destruct o; tauto.
Qed.
(** node handles: extract(key) is a lookup; insertion of a node never allocates, constructs, copies or moves an element *)
Theorem C66_fca_node_handles : forall rs w i t n, runs c rs w -> slot w i = Some t ->
  (forall k, calls (exec c (ExtractKey i k) w n) n (1 + size_of t)) /\
  (forall j hint, pre c (InsertHandle i j hint) w -> calls (exec c (InsertHandle i j hint) w n) n (4 + 2 * size_of t) /\ throws_only (exec c (InsertHandle i j hint) w n) (fun kd => kd = KHash \/ kd = KEq \/ kd = KAlloc)).
Proof.
  intros rs w i t n R Hs. assert (in_program c t (hp w)) as H by (exists rs, w, i; auto). destruct (prog_si c t (hp w) H) as (r & SI0). pose proof (prog_inv c t _ H) as T. split.
  - intros k. cbn [exec]. apply calls_0then; [|intro; apply nc_bind; [apply nc_modify|intro; apply nc_ret]]. unfold run1. rewrite Hs. pose proof (extract_key_calls c k (t, hp w) n) as X. cbn [fst] in X. rewrite (nn_size c t _ T) in X. fold (size_of t) in X.
    destruct (extract_key c k (t, hp w) n); exact X.
  - intros j hint (t1 & o & Hs1 & Hh & Rm & _). assert (t1 = t) as -> by congruence. unfold room in Rm. cbn [exec]. rewrite bind_get, Hh. destruct o as [x|]; [|split; [apply calls_ret|exact I]].
    assert (A : forall hi, calls (insert_handle c hi x (t, hp w) n) n (4 + 2 * size_of t) /\ throws_only (insert_handle c hi x (t, hp w) n) not_elements).
    { intros hi. split; [apply (insert_handle_calls c r (t, hp w) (contents t) hi x n SI0); exact Rm|apply tk_insert_handle]. }
    assert (B : forall hi, calls (bind (insert_handle c hi x) (fun p => bind (deref (fst p)) (fun y => ret (y, snd p))) (t, hp w) n) n (4 + 2 * size_of t) /\ throws_only (bind (insert_handle c hi x) (fun p => bind (deref (fst p)) (fun y => ret (y, snd p))) (t, hp w) n) not_elements).
    { intros hi. apply bind_both; [apply A|]. intro. apply nc_bind; [apply nc_deref|intro; apply nc_ret]. }
    assert (C : forall m, calls (m (t, hp w) n) n (4 + 2 * size_of t) /\ throws_only (m (t, hp w) n) not_elements ->
      calls (bind (run1 i m) (fun r0 => bind (set_hand j (snd r0)) (fun _ => ret (VIns (fst r0) (match snd r0 with None => true | Some _ => false end)))) w n) n (4 + 2 * size_of t) /\
      throws_only (bind (run1 i m) (fun r0 => bind (set_hand j (snd r0)) (fun _ => ret (@VIns K V (fst r0) (match snd r0 with None => true | Some _ => false end)))) w n) (fun kd => kd = KHash \/ kd = KEq \/ kd = KAlloc)).
    { intros m [X Y]. unfold run1, bind. rewrite Hs. destruct (m (t, hp w) n) as [a s' n'|kd s' n'|]; cbn in *; auto. }
    apply C. destruct hint as [m|].
    + rewrite bind_bind. unfold it_at, get_t. rewrite !bind_bind, bind_get, bind_ret. cbn [fst]. destruct (nth_it t m) as [it|] eqn:E; cbn [of_option]; [rewrite bind_ret, bind_ret; apply B|]. split; exact I.
    + rewrite bind_ret. apply B.
Qed.
End P.
Print Assumptions C66_fca_these_operations_call_nothing_and_never_throw.
Print Assumptions C66_fca_calls_in_the_worst_case.
Print Assumptions C66_fca_rehashing_leaves_elements_alone.
Print Assumptions C66_fca_inserting_a_present_key_only_looks_it_up.
Print Assumptions C66_fca_node_handles.
(** a container whose 13 elements share a bucket and that is full: the bounds are reached *)
Definition count {St A} (r : R St A) : nat := match r with Ret _ _ n | Exn _ _ n => n | Undef => 0 end.
Definition ops_13 : list (op N N) := New 1 0 0 10 :: ins 0 (seq 0 13).
Definition s_13 : FcaModel.table N N * heap := Eval vm_compute in st_of nothrow false false true ops_13 0.
Notation cfg0 := (ecfg nothrow false false).
Lemma s_13_ok : in_program cfg0 (fst s_13) (snd s_13).
Proof. apply (any_program nothrow false false ops_13 0). vm_cast_no_check (eq_refl (Some s_13)). Qed.
Example C66_fca_case : in_program cfg0 (fst s_13) (snd s_13) /\ size_of (fst s_13) = 13 /\
  map (fun o => (most1 cfg0 (fst s_13) o, count (exec1 cfg0 o s_13 0))) [Find 100%N; Insert true (100, 0)%N; Insert true (5, 0)%N; Rehash 100; EraseKey 100%N; Clear; InsertRange true [(50, 0); (3, 0); (51, 0)]%N; AssignList [(50, 0); (3, 0); (50, 0)]%N] =
  [(Some 14, 14); (Some 31, 31); (Some 31, 9); (Some 15, 15); (Some 14, 14); (Some 0, 0); (Some 111, 56); (Some 33, 12)].
Proof. split; [apply s_13_ok|]. split; [reflexivity|]. vm_cast_no_check (eq_refl [(Some 14, 14); (Some 31, 31); (Some 31, 9); (Some 15, 15); (Some 14, 14); (Some 0, 0); (Some 111, 56); (Some 33, 12)]). Qed.
(** two containers and two node handles where every call throws from the 1000th on: what calls nothing still works *)
Definition thr_from (m : nat) : kind -> nat -> bool := fun _ n => (m <=? n)%nat.
Definition ops_h : list (op N N) := New 0 0 0 0 :: New 1 0 0 10 :: ins 0 (seq 0 16) ++ ins 1 (seq 20 9) ++ [ExtractKey 0 9%N; ExtractNth 0 3; SetHandle 0 (99, 1)%N].
Notation cfgh := (ecfg (thr_from 1000) false false).
Definition w_h : @mworld N N := Eval vm_compute in w_of (thr_from 1000) false false false ops_h.
Lemma w_h_runs : exists rs, runs cfgh rs w_h.
Proof.
  assert (check (thr_from 1000) false false false ops_h start 0 = Some w_h) as E by (vm_cast_no_check (eq_refl (Some w_h))).
  destruct (check_runs _ _ _ _ _ _ _ _ _ E (runs_nil _ _)) as (rs & R). exists rs. eapply runs_weaken; [|exact R]. cbn. auto.
Qed.
Definition os_h : list (op N N) := [Swap 0 1; On 0 Clear; On 1 (EraseNth 7); On 0 (EraseRange 3 10); On 0 (MaxLoadFactor (Some f32_one)); Destroy 0; MoveConstruct 1; DropHandle 0; ExtractNth 1 4].
Example C66_fca_case_calls_nothing : (exists rs, runs cfgh rs w_h) /\
  forall n o, In o os_h -> pre cfgh o w_h /\ calls_none cfgh w_h o /\ exists v w', exec cfgh o w_h n = Ret v w' n.
Proof.
  split; [apply w_h_runs|]. intros n o Ho. destruct w_h_runs as (rs & R).
  assert (forallb (fun o => preb false false o w_h) os_h = true) as F by (vm_compute; reflexivity).
  pose proof (proj1 (forallb_forall _ _) F o Ho) as P. apply (preb_ok (thr_from 1000)) in P. split; [exact P|].
  assert (calls_none cfgh w_h o) as C by (repeat (destruct Ho as [<-|Ho]; [exact I|]); contradiction).
  split; [exact C|]. apply (C66_fca_these_operations_call_nothing_and_never_throw cfgh rs); assumption.
Qed.
(** inserting the node handle of the value (99, 1) there: 10 calls, 22 are allowed *)
Example C66_fca_case_handles : exists t, slot w_h 1 = Some t /\ size_of t = 9 /\ pre cfgh (InsertHandle 1 0 None) w_h /\ count (exec cfgh (InsertHandle 1 0 None) w_h 0) = 10.
Proof.
  destruct (slot w_h 1) as [t|] eqn:E; [|discriminate]. exists t. split; [reflexivity|]. split.
  - assert (option_map size_of (slot w_h 1) = Some 9) as X by (vm_compute; reflexivity). rewrite E in X. cbn in X. congruence.
  - split; [apply (preb_ok (thr_from 1000)); vm_compute; reflexivity|vm_compute; reflexivity].
Qed.
