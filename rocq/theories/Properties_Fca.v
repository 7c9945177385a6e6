(** Properties of the closed-addressing containers (C22-C31, C48).

    Reading guide. [c : FCfg K V] fixes a container type: hash and equality functions, which events throw, allocator traits, whether equivalent keys are
    allowed ([multi]). [runs c rs w]: some program starting without containers performed the operations of rs (each with what it returned or threw),
    ending with the containers, node handles and heap w; [in_program c t h]: t is a container of such a program and h its heap at that moment.
    [elems t]: the elements (address, (key, value)) of t in iteration order. [live h]: the number of nodes allocated and not freed.
    [exec1 c o (t, h) n]: operation o on t (FcaSpec.v lists the operations and says what each must do); n counts events that may throw.
    [Undef]: undefined behaviour. Floats are integers in units of 2^-149; [f32_one] is 1.0f. *)
From Coq Require Import NArith ZArith Bool List Arith Lia Permutation.
From Verif Require Import FloatModel FoaModel FoaBase FcaLinks FcaModel FcaIter FcaTab FcaSpec FcaWorld FcaApi FcaRehash FcaLoad FcaCopy FcaRun FcaRun4 FcaProps FcaProps2 FcaReserve2 FcaExamples.
From Verif Require FcaOps.
Import ListNotations.
Local Open Scope N_scope.

(** C22. Every history of a program agrees with the specification of FcaSpec.v, whether keys are unique or not; this covers returned values, contents,
    which elements survive an exception and which addresses are kept. *)
Theorem C22_every_history_is_one_of_the_specification :
  forall (K V : Type) (c : FCfg K V) rs w, runs c rs w ->
  history (keqf (base c)) (multi c) (leftover c) (pocca (base c)) (pocma (base c)) (World [] []) rs (look_all w).
Proof. intros K V c rs w R. apply (runs_ok c _ rs w R). Qed.
Print Assumptions C22_every_history_is_one_of_the_specification.
Theorem C22_operations_return_or_propagate_exceptions :
  forall (K V : Type) (c : FCfg K V) rs w o n, runs c rs w -> pre c o w ->
  match exec c o w n with Ret _ _ _ => True | Exn k _ _ => exists j, throws (base c) k j = true | Undef => False end.
Proof.
  intros K V c rs w o n R P. pose proof (exec_ok c w o n (proj1 (runs_ok c _ _ _ R)) P) as Q. destruct (exec c o w n); cbn [outcome] in Q; [exact I|apply Q|exact Q].
Qed.
Print Assumptions C22_operations_return_or_propagate_exceptions.
Theorem C22_keys_are_unique_and_size_is_exact :
  forall (K V : Type) (c : FCfg K V) t h, in_program c t h -> multi c = false ->
  f_size t = N.of_nat (length (elems t)) /\
  ForallOrdPairs (fun a b => keqf (base c) (f_pid t) (key a) (key b) = false) (elems t).
Proof. intros K V c t h H M. split; [apply (size_ok c t h H)|apply (unique_keys c t h H M)]. Qed.
Print Assumptions C22_keys_are_unique_and_size_is_exact.
(** one operation on a container of a program *)
Theorem C22_one_operation :
  forall (K V : Type) (c : FCfg K V) t h o n, in_program c t h -> pre1 c o t ->
  match exec1 c o (t, h) n with
  | Ret v s' _ => in_program c (fst s') (snd s') /\ spec1 (keqf (base c)) (multi c) (f_pid t) o (elems t) (Done v) (elems (fst s'))
  | Exn k s' _ => in_program c (fst s') (snd s') /\ spec1 (keqf (base c)) (multi c) (f_pid t) o (elems t) (Threw k) (elems (fst s'))
  | Undef => False
  end.
Proof.
  intros K V c t h o n H P. pose proof (step1 c t h o n H P) as Q. destruct (exec1 c o (t, h) n); [destruct Q as (A & B & _); auto|destruct Q as (A & B & _); auto|exact Q].
Qed.
Print Assumptions C22_one_operation.
(** nodes: the addresses of all elements in containers and handles are distinct and exactly these nodes are allocated *)
Theorem C22_no_node_is_leaked_or_shared :
  forall (K V : Type) (c : FCfg K V) rs w, runs c rs w -> NoDup (addresses (look_all w)) /\ live (hp w) = length (addresses (look_all w)).
Proof. intros K V c rs w R. apply (no_leak c rs w R). Qed.
Print Assumptions C22_no_node_is_leaked_or_shared.
Example C22_example : in_program (ecfg nothrow false false) (fst s_u) (snd s_u) /\ length (elems (fst s_u)) = 18%nat /\ bucket_count (f_b (fst s_u)) = 29.
Proof. split; [apply arena_program; apply s_u_ok|vm_compute; auto]. Qed.

(** C23. Equivalent keys *)
Theorem C23_equivalent_elements_are_adjacent :
  forall (K V : Type) (c : FCfg K V) t h l1 a l2 b l3, in_program c t h -> elems t = l1 ++ a :: l2 ++ b :: l3 ->
  keqf (base c) (f_pid t) (key a) (key b) = true -> Forall (fun d => keqf (base c) (f_pid t) (key a) (key d) = true) l2.
Proof. intros K V c t h l1 a l2 b l3. apply grouped_keys. Qed.
Print Assumptions C23_equivalent_elements_are_adjacent.
Theorem C23_equal_range_and_count :
  forall (K V : Type) (c : FCfg K V) t h k n, in_program c t h ->
  match exec1 c (EqualRange k) (t, h) n with
  | Ret v s' _ => fst s' = t /\ exists es l1 l2, v = VList es /\ elems t = l1 ++ es ++ l2 /\ es = filter (fun x => keqf (base c) (f_pid t) k (key x)) (elems t)
  | Exn kd _ _ => kd = KHash \/ kd = KEq
  | Undef => False
  end /\
  match exec1 c (Count k) (t, h) n with
  | Ret v s' _ => fst s' = t /\ v = VN (N.of_nat (length (filter (fun x => keqf (base c) (f_pid t) k (key x)) (elems t))))
  | Exn kd _ _ => kd = KHash \/ kd = KEq
  | Undef => False
  end.
Proof.
  intros K V c t h k n H. split.
  - pose proof (step1 c t h (EqualRange k) n H I) as Q. destruct (exec1 c (EqualRange k) (t, h) n) as [v s' n'|kd s' n'|] eqn:E; [|destruct Q as (_ & (Q & _) & _); exact Q|exact Q].
    destruct Q as (_ & Q & _). cbn [spec1] in Q. destruct v; try destruct Q. split; [pose proof (reads_same c t h (EqualRange k) n H I) as X; rewrite E in X; cbn [ends] in X; subst s'; reflexivity|]. destruct H1 as (_ & l1 & l2 & El). exists l, l1, l2. subst l. auto.
  - pose proof (step1 c t h (Count k) n H I) as Q. destruct (exec1 c (Count k) (t, h) n) as [v s' n'|kd s' n'|] eqn:E; [|destruct Q as (_ & (Q & _) & _); exact Q|exact Q].
    destruct Q as (_ & Q & _). cbn [spec1] in Q. destruct v; try destruct Q. split; [pose proof (reads_same c t h (Count k) n H I) as X; rewrite E in X; cbn [ends] in X; subst s'; reflexivity|]. subst. reflexivity.
Qed.
Print Assumptions C23_equal_range_and_count.

(** a new element goes next to an equivalent element the hint points to *)
Theorem C23_hint_is_honoured :
  forall (K V : Type) (c : FCfg K V) t h kf m e n v s' n' y, in_program c t h -> multi c = true -> pre1 c (InsertHint kf m e) t ->
  exec1 c (InsertHint kf m e) (t, h) n = Ret v s' n' ->
  exists x, v = VFound (Some x) /\ snd x = e /\ Permutation (elems (fst s')) (x :: elems t) /\
  (nth_error (elems t) m = Some y -> keqf (base c) (f_pid t) (fst e) (key y) = true -> exists l1 l2, elems (fst s') = l1 ++ y :: x :: l2).
Proof.
  intros K V c t h kf m e n v s' n' y H Mu P E. pose proof (step1 c t h _ n H P) as Q. rewrite E in Q. destruct Q as (_ & Q & _). cbn [spec1] in Q. destruct v as [| | | |[x|]| | | |]; try destruct Q. exists x.
  destruct H0 as (b & B). unfold inserted in B. rewrite Mu in B. destruct B as (B1 & B2 & B3 & B4). split; [reflexivity|]. split; [exact B1|]. split; [exact B4|]. intros Hn Hk. apply (H1 Mu y Hn Hk).
Qed.
Print Assumptions C23_hint_is_honoured.
Example C23_example : in_program (ecfg nothrow true false) (fst s_m) (snd s_m) /\ map key (elems (fst s_m)) = [1; 1; 1; 1; 1; 1; 1; 1; 2; 2; 2; 2; 2; 2; 3; 40; 50].
Proof. split; [apply arena_program; apply s_m_ok|vm_compute; reflexivity]. Qed.

(** C24. [concat (b_chains (f_b t))]: the nodes linked into the buckets *)
Theorem C24_iteration_visits_every_element_exactly_once :
  forall (K V : Type) (c : FCfg K V) t h, in_program c t h ->
  NoDup (map fst (elems t)) /\ Permutation (elems t) (map el (concat (b_chains (f_b t)))) /\ length (elems t) = N.to_nat (f_size t) /\
  forall m, (m <= length (elems t))%nat -> exists it, nth_it t m = Some it /\ e_eqb it e_end = Nat.eqb m (length (elems t)) /\
    forall x, nth_error (elems t) m = Some x -> forall n, deref it (t, h) n = Ret x (t, h) n.
Proof.
  intros K V c t h H. destruct (iterate c t h H) as (l & _ & E & A & B & D). split; [exact A|]. split; [exact B|]. split; [|exact D]. rewrite (size_ok c t h H). lia.
Qed.
Print Assumptions C24_iteration_visits_every_element_exactly_once.
Example C24_example : in_program (ecfg nothrow false false) (fst s_u) (snd s_u) /\ option_map (fun it => e_eqb it e_end) (nth_it (fst s_u) 18) = Some true.
Proof. split; [apply arena_program; apply s_u_ok|vm_compute; reflexivity]. Qed.

(** C25. [Near n bc mlf]: n * (1 - 2^-23) <= mlf * bc. [in_program_arena]: no copy assignment of the program replaced an allocator (see C30). *)
Theorem C25_load_after_insertion_exceeds_the_maximum_by_at_most_rounding :
  forall (K V : Type) (c : FCfg K V) t h o n v s' n', in_program_arena c t h -> pre1 c o t -> strong1 o -> exec1 c o (t, h) n = Ret v s' n' ->
  f_size (fst s') = f_size t + 1 -> f_size (fst s') <= 2 ^ 30 ->
  match f_mlf (fst s') with None => True | Some m => (Z.of_N (f_size (fst s')) * (2 ^ 23 - 1) * f32_one <= 2 ^ 23 * (m * Z.of_N (bucket_count (f_b (fst s')))))%Z end.
Proof.
  intros K V c t h o n v s' n' H P So E Sz L. pose proof (load_insert c t h o n v s' n' H P So E Sz L) as Q. unfold Near in Q. destruct (f_mlf (fst s')); [rewrite Z.mul_assoc; exact Q|exact I].
Qed.
Print Assumptions C25_load_after_insertion_exceeds_the_maximum_by_at_most_rounding.
Theorem C25_load_after_rehash_and_reserve_exceeds_the_maximum_by_at_most_rounding :
  forall (K V : Type) (c : FCfg K V) t h o j n v s' n', in_program c t h -> o = Rehash j \/ o = Reserve j -> exec1 c o (t, h) n = Ret v s' n' -> f_size t <= 2 ^ 30 ->
  match f_mlf (fst s') with None => True | Some m => (Z.of_N (f_size (fst s')) * (2 ^ 23 - 1) * f32_one <= 2 ^ 23 * (m * Z.of_N (bucket_count (f_b (fst s')))))%Z end.
Proof.
  intros K V c t h o j n v s' n' H Ho E L. assert (Near (f_size (fst s')) (bucket_count (f_b (fst s'))) (f_mlf (fst s'))) as Q.
  { destruct Ho as [-> | ->]; [|rewrite reserve_is_rehash in E]; apply (load_rehash c t h _ n v s' n' H E L). }
  unfold Near in Q. destruct (f_mlf (fst s')); [rewrite Z.mul_assoc; exact Q|exact I].
Qed.
Print Assumptions C25_load_after_rehash_and_reserve_exceeds_the_maximum_by_at_most_rounding.
(** with the default maximum of 1.0 the bound is exact below 2^23 elements, also for the value load_factor() returns *)
Theorem C25_default_load_factor :
  forall (K V : Type) (c : FCfg K V) t h o n v s' n', in_program_arena c t h -> pre1 c o t -> exec1 c o (t, h) n = Ret v s' n' ->
  (strong1 o /\ f_size (fst s') = f_size t + 1) \/ (exists j, o = Rehash j \/ o = Reserve j) ->
  f_mlf (fst s') = Some f32_one -> f_size (fst s') < 2 ^ 23 ->
  f_size (fst s') <= bucket_count (f_b (fst s')) /\ (load_factor (fst s') <= f32_one)%Z.
Proof.
  intros K V c t h o n v s' n' H P E Ho Em L. apply default_load; auto. destruct Ho as [[So Sz]|(j & Ho)].
  - apply (load_insert c t h o n v s' n' H P So E Sz). lia.
  - destruct (arena_program c t h H) as [HP _]. destruct Ho as [-> | ->]; [|rewrite reserve_is_rehash in E]; destruct (rehash_done c t h _ n v s' n' HP E) as (_ & _ & _ & Es & _); apply (load_rehash c t h _ n v s' n' HP E); lia.
Qed.
Print Assumptions C25_default_load_factor.
(** other maxima can be exceeded: with max_load_factor(0.88679242f) the 47th insertion leaves 53 buckets *)
Theorem C25_load_factor_bound_refuted :
  ~ (forall (c : FCfg N N) t h e n v s' n', in_program_arena c t h -> pre1 c (Insert true e) t -> exec1 c (Insert true e) (t, h) n = Ret v s' n' -> f_size (fst s') = f_size t + 1 ->
     match f_mlf (fst s') with Some m => (load_factor (fst s') <= m)%Z | None => True end).
Proof.
  intros H. specialize (H (ecfg nothrow false false) (fst s_load) (snd s_load) (100, 1) 0%nat).
  assert (match exec1 (ecfg nothrow false false) (Insert true (100, 1)) (fst s_load, snd s_load) 0%nat with
     Ret _ s _ => (f_size (fst s) =? f_size (fst s_load) + 1) && match f_mlf (fst s) with Some m => Z.ltb m (load_factor (fst s)) | None => false end | _ => false end = true) as X by (vm_compute; reflexivity).
  destruct (exec1 _ _ _ _) as [v s n'|k s n'|] eqn:E; [|discriminate|discriminate]. apply andb_prop in X as [X1 X2]. apply N.eqb_eq in X1.
  specialize (H v s n' s_load_ok ltac:(vm_compute; reflexivity) eq_refl X1). destruct (f_mlf (fst s)) as [m|]; [|discriminate]. apply Z.ltb_lt in X2. lia.
Qed.
Print Assumptions C25_load_factor_bound_refuted.
Example C25_example : in_program_arena (ecfg nothrow false false) (fst s_load) (snd s_load) /\ pre1 (ecfg nothrow false false) (Insert true (100, 1)) (fst s_load) /\
  returns (exec1 (ecfg nothrow false false) (Insert true (100, 1)) s_load 0%nat) (fun _ s => (f_size (fst s) =? 47) && (bucket_count (f_b (fst s)) =? 53)) = true.
Proof. split; [apply s_load_ok|]. split; vm_compute; auto. Qed.

(** C26. The heap is the same, so no node was created or destroyed; addresses and values are the same. *)
Theorem C26_rehash_keeps_nodes :
  forall (K V : Type) (c : FCfg K V) t h o j n v s' n', in_program c t h -> o = Rehash j \/ o = Reserve j -> exec1 c o (t, h) n = Ret v s' n' ->
  snd s' = h /\ Permutation (elems (fst s')) (elems t) /\ in_program c (fst s') (snd s') /\
  (o = Rehash j -> j <= 1649267441651 -> j <= bucket_count (f_b (fst s'))).
Proof.
  intros K V c t h o j n v s' n' H Ho E. assert (exists j', exec1 c (Rehash j') (t, h) n = Ret v s' n') as (j' & E').
  { destruct Ho as [-> | ->]; [eauto|rewrite reserve_is_rehash in E; eauto]. }
  destruct (rehash_done c t h j' n v s' n' H E') as (A & B & _). split; [exact A|]. split; [exact B|]. pose proof (step1 c t h (Rehash j') n H I) as Q. rewrite E' in Q. split; [apply Q|].
  intros ->. apply (rehash_buckets c t h j n v s' n' H E).
Qed.
Print Assumptions C26_rehash_keeps_nodes.
(** the requested number is not reached beyond the largest entry of the table of primes *)
Theorem C26_rehash_reaches_every_request_refuted :
  ~ (forall (c : FCfg N N) t h j n v s' n', in_program c t h -> j < 2 ^ 64 -> exec1 c (Rehash j) (t, h) n = Ret v s' n' -> j <= bucket_count (f_b (fst s'))).
Proof.
  intros H. destruct (arena_program _ _ _ s_u_ok) as [P _].
  assert (forall j, exec1 (ecfg nothrow false false) (Rehash j) s_u 0%nat <> Undef) as ND.
  { intros j E. pose proof (step1 _ _ _ (Rehash j) 0%nat P I) as Q. destruct s_u as [t h]. cbn [fst snd] in Q. rewrite E in Q. exact Q. }
  destruct (exec1 (ecfg nothrow false false) (Rehash (2 ^ 63)) s_u 0%nat) as [v s n'|k s n'|] eqn:E; [| |destruct (ND _ E)].
  - specialize (H _ (fst s_u) (snd s_u) (2 ^ 63) 0%nat v s n' P ltac:(reflexivity)). rewrite <- surjective_pairing in H. specialize (H E).
    pose proof (step1 _ _ _ (Rehash (2 ^ 63)) 0%nat P I) as Q. rewrite <- surjective_pairing, E in Q. destruct Q as (Q & _).
    pose proof (bc_bound _ _ (FcaTab.ci_b _ _ _ (FcaTab.ti_c _ _ _ (prog_inv _ _ _ Q)))). lia.
  - pose proof (step1 _ _ _ (Rehash (2 ^ 63)) 0%nat P I) as Q. rewrite <- surjective_pairing, E in Q. destruct Q as (_ & _ & _ & _ & (j & Q)). discriminate.
Qed.
Print Assumptions C26_rehash_reaches_every_request_refuted.
(** below the maximum load no insertion rehashes: iterators stay valid *)
Theorem C26_no_rehash_below_the_maximum_load :
  forall (K V : Type) (c : FCfg K V) t h o n v s' n', in_program_arena c t h -> pre1 c o t -> strong1 o -> exec1 c o (t, h) n = Ret v s' n' ->
  f_mlf t = Some f32_one -> f_size t < bucket_count (f_b t) ->
  bucket_count (f_b (fst s')) = bucket_count (f_b t) /\
  forall e j it, nth_it t j = Some it -> nth_error (elems t) j = Some e -> In e (elems (fst s')) -> exists j', nth_it (fst s') j' = Some it /\ nth_error (elems (fst s')) j' = Some e.
Proof.
  intros K V c t h o n v s' n' H P So E Em L. pose proof (default_no_rehash c t h o n v s' n' H P So Em E L) as B. split; [exact B|]. destruct (arena_program c t h H) as [HP _].
  pose proof (step1 c t h o n HP P) as Q. rewrite E in Q. destruct Q as (Q & _ & _ & Hh). intros e j it A1 A2 A3. apply (iterators_stay c t (fst s') h (snd s') e j it HP Q Hh B A1 A2 A3).
Qed.
Print Assumptions C26_no_rehash_below_the_maximum_load.
(** after reserve(k), insertions do not rehash and do not invalidate iterators as long as the size is at most k; whatever the maximum load factor *)
Theorem C26_reserve_prevents_rehashing :
  forall (K V : Type) (c : FCfg K V) t h k n v s1 n1 s2 n2, in_program_arena c t h -> exec1 c (Reserve k) (t, h) n = Ret v s1 n1 -> insertions c s1 n1 s2 n2 -> f_size (fst s2) <= k ->
  bucket_count (f_b (fst s2)) = bucket_count (f_b (fst s1)) /\
  forall e j it, nth_it (fst s1) j = Some it -> nth_error (elems (fst s1)) j = Some e -> In e (elems (fst s2)) -> exists j', nth_it (fst s2) j' = Some it /\ nth_error (elems (fst s2)) j' = Some e.
Proof. intros K V c t h k n v s1 n1 s2 n2 H E X L. apply (reserve_insertions c t h k n v s1 n1 s2 n2 H E X L). Qed.
Print Assumptions C26_reserve_prevents_rehashing.
(** insertions never reduce the number of buckets *)
Theorem C26_insertions_never_shrink :
  forall (K V : Type) (c : FCfg K V) t h n s2 n2, in_program_arena c t h -> insertions c (t, h) n s2 n2 -> bucket_count (f_b t) <= bucket_count (f_b (fst s2)).
Proof. intros K V c t h n s2 n2. apply insertions_grow. Qed.
Print Assumptions C26_insertions_never_shrink.
(** with a maximum load factor for which buckets and maximum load disagree (C25), 46 elements: reserve(60), insertion of a new and of an old key *)
Definition s_res : FcaModel.table N N * heap := Eval vm_compute in match exec1 (ecfg nothrow false false) (Reserve 60) s_load 0%nat with Ret _ s _ => s | _ => s_load end.
Definition after_ins (e : N * N) (s : FcaModel.table N N * heap) : option (value N N * (FcaModel.table N N * heap) * nat) := match exec1 (ecfg nothrow false false) (Insert true e) s 0%nat with Ret v s' n => Some (v, s', n) | _ => None end.
Definition s_res2 : value N N * (FcaModel.table N N * heap) * nat := Eval vm_compute in match after_ins (100, 1) s_res with Some x => x | None => (VUnit, s_load, 0%nat) end.
Lemma s_res2_ok : after_ins (100, 1) s_res = Some s_res2. Proof. vm_cast_no_check (eq_refl (Some s_res2)). Qed.
Lemma s_res_ok : match exec1 (ecfg nothrow false false) (Reserve 60) (fst s_load, snd s_load) 0%nat with Ret v s n => Some (v, s, n) | _ => None end = Some (VUnit, s_res, 48%nat).
Proof. vm_compute. reflexivity. Qed.
Example C26_reserve_example : in_program_arena (ecfg nothrow false false) (fst s_load) (snd s_load) /\ (exists v n, exec1 (ecfg nothrow false false) (Reserve 60) (fst s_load, snd s_load) 0%nat = Ret v s_res n) /\
  (exists n, insertions (ecfg nothrow false false) s_res 0%nat (snd (fst s_res2)) n) /\ f_size (fst s_res) = 46 /\ f_size (fst (snd (fst s_res2))) = 47 /\ bucket_count (f_b (fst s_load)) = 53 /\ bucket_count (f_b (fst s_res)) = 97.
Proof.
  split; [apply s_load_ok|]. split.
  - pose proof s_res_ok as X. destruct (exec1 _ (Reserve 60) _ _) as [v s n|? ? ?|]; [|discriminate X|discriminate X]. injection X as -> -> ->. eauto.
  - split; [|vm_compute; auto]. pose proof s_res2_ok as X. unfold after_ins in X. destruct (exec1 (ecfg nothrow false false) (Insert true (100, 1)) s_res 0%nat) as [v s n|? ? ?|] eqn:E; [|discriminate X|discriminate X].
    assert (s = snd (fst s_res2)) as <- by (apply (f_equal (fun o => match o with Some x => snd (fst x) | None => s end)) in X; exact X). exists n. eapply (i_one _ _ _ (Insert true (100, 1))); [|exact I|exact E|apply i_none]. vm_compute. reflexivity.
Qed.
Example C26_example : in_program_arena (ecfg nothrow false false) (fst s_u) (snd s_u) /\ f_mlf (fst s_u) = Some f32_one /\ f_size (fst s_u) < bucket_count (f_b (fst s_u)) /\
  returns (exec1 (ecfg nothrow false false) (Rehash 100) s_u 0%nat) (fun _ s => (bucket_count (f_b (fst s)) =? 193) && negb (forallb (fun p => Nat.eqb (fst (fst p)) (fst (snd p))) (combine (elems (fst s)) (elems (fst s_u))))) = true.
Proof. split; [apply s_u_ok|]. vm_compute. repeat split. Qed.

(** C27. Erasure: what is removed and returned is in [spec1]; every iterator to a remaining element still designates it. *)
Theorem C27_erasure_removes_exactly_the_designated_elements :
  forall (K V : Type) (c : FCfg K V) t h o n v s' n', in_program c t h -> pre1 c o t -> removes o -> exec1 c o (t, h) n = Ret v s' n' ->
  spec1 (keqf (base c)) (multi c) (f_pid t) o (elems t) (Done v) (elems (fst s')) /\ bucket_count (f_b (fst s')) = bucket_count (f_b t) /\
  forall e j it, nth_it t j = Some it -> nth_error (elems t) j = Some e -> In e (elems (fst s')) -> exists j', nth_it (fst s') j' = Some it /\ nth_error (elems (fst s')) j' = Some e.
Proof. intros K V c t h o n v s' n' H P Ro E. destruct (erase_keeps c t h o n v s' n' H P Ro E) as (_ & A & B & D). auto. Qed.
Print Assumptions C27_erasure_removes_exactly_the_designated_elements.
Theorem C27_extraction :
  forall (K V : Type) (c : FCfg K V) rs w i t o n v w' n', runs c rs w -> slot w i = Some t -> (exists k, o = ExtractKey i k) \/ (exists m, o = ExtractNth i m) -> pre c o w -> exec c o w n = Ret v w' n' ->
  exists t', slot w' i = Some t' /\ runs c (rs ++ [(o, Done v)]) w' /\ bucket_count (f_b t') = bucket_count (f_b t) /\ hp w' = hp w /\
  forall e j it, nth_it t j = Some it -> nth_error (elems t) j = Some e -> In e (elems t') -> exists j', nth_it t' j' = Some it /\ nth_error (elems t') j' = Some e.
Proof. intros K V c rs w i t o n v w' n'. apply extract_keeps. Qed.
Print Assumptions C27_extraction.
Example C27_example : in_program (ecfg nothrow true false) (fst s_m) (snd s_m) /\ returns (exec1 (ecfg nothrow true false) (EraseKey 1) s_m 0%nat) (fun v s => is_n v 8 && (f_size (fst s) =? 9)) = true.
Proof. split; [apply arena_program; apply s_m_ok|vm_compute; auto]. Qed.

(** C28 *)
Theorem C28_equality_is_permutation_equality :
  forall (K V : Type) (c : FCfg K V) rs w i j t x eeq n v w' n', runs c rs w -> slot w i = Some t -> slot w j = Some x -> pre c (Equal i j eeq) w -> exec c (Equal i j eeq) w n = Ret v w' n' ->
  w' = w /\ exists b, v = VBool b /\
  (b = true <-> exists l', Permutation (elems x) l' /\ Forall2 (fun a d => keqf (base c) (f_pid x) (key a) (key d) = true /\ eeq (snd a) (snd d) = true) (elems t) l').
Proof. intros K V c rs w i j t x eeq n v w' n'. apply equal_iff. Qed.
Print Assumptions C28_equality_is_permutation_equality.
(** two multimaps filled in different orders, with different bucket counts *)
Example C28_example : exists rs w, runs (ecfg nothrow true false) rs w /\ pre (ecfg nothrow true false) (Equal 0 1 peq) w /\ exists n, exec (ecfg nothrow true false) (Equal 0 1 peq) w 0%nat = Ret (VBool true) w n.
Proof.
  set (c := ecfg nothrow true false). assert (match slot w_eq 0, slot w_eq 1 with Some t, Some x => f_pid t =? f_pid x | _, _ => false end && match exec c (Equal 0 1 peq) w_eq 0%nat with Ret (VBool b) _ _ => b | _ => false end = true) as X by (vm_compute; reflexivity).
  apply andb_prop in X as [X1 X2]. destruct (check_runs _ _ _ _ _ _ _ _ [] w_eq_run (runs_nil c _)) as (rs & R0). exists rs, w_eq. assert (runs c rs w_eq) as R by (eapply runs_weaken; [|exact R0]; auto). clear R0. remember w_eq as w. clear Heqw.
  assert (pre c (Equal 0 1 peq) w) as P.
  { cbn [pre]. destruct (slot w 0) as [t|]; [|discriminate]. destruct (slot w 1) as [x|]; [|discriminate]. exists t, x. split; [reflexivity|]. split; [reflexivity|]. split; [apply N.eqb_eq; exact X1|]. intros _. unfold peq. split; [|split; [|split]].
    - intros e. rewrite !N.eqb_refl. reflexivity.
    - intros a b. rewrite (N.eqb_sym (fst a)), (N.eqb_sym (snd a)). reflexivity.
    - intros a b d A B. apply andb_prop in A as [A1 A2], B as [B1 B2]. apply N.eqb_eq in A1, A2, B1, B2. rewrite A1, A2, B1, B2, !N.eqb_refl. reflexivity.
    - intros a b A. apply andb_prop in A as [A _]. exact A. }
  split; [exact R|]. split; [exact P|]. pose proof P as (t & x & H1 & H2 & _). destruct (exec c (Equal 0 1 peq) w 0%nat) as [v w' n'|k w' n'|] eqn:Eq; [|discriminate|discriminate].
  destruct (equal_iff c rs w 0 1 t x peq 0%nat v w' n' R H1 H2 P Eq) as (-> & b & -> & _). subst b. exists n'. reflexivity.
Qed.

(** C29. An insertion that fails leaves the container exactly as it was, unless the hash function throws while nodes are being rehashed; then some elements are
    lost, the rest is in a valid container, and nothing leaks. *)
Theorem C29_failed_insertion :
  forall (K V : Type) (c : FCfg K V) t h o n k s' n', in_program c t h -> pre1 c o t -> strong1 o -> exec1 c o (t, h) n = Exn k s' n' ->
  (exists j, throws (base c) k j = true) /\ in_program c (fst s') (snd s') /\
  (k <> KHash \/ f_size t + 1 <= f_ml t -> fst s' = t /\ live (snd s') = live h) /\
  exists lost, Permutation (elems t) (lost ++ elems (fst s')) /\ live h = (live (snd s') + length lost)%nat.
Proof. intros K V c t h o n k s' n'. apply insert_exn. Qed.
Print Assumptions C29_failed_insertion.
Theorem C29_failed_rehash :
  forall (K V : Type) (c : FCfg K V) t h o j n k s' n', in_program c t h -> o = Rehash j \/ o = Reserve j -> exec1 c o (t, h) n = Exn k s' n' ->
  (exists i, throws (base c) k i = true) /\ in_program c (fst s') (snd s') /\
  ((k = KAlloc /\ s' = (t, h)) \/
   (k = KHash /\ bucket_count (f_b (fst s')) = bucket_count (f_b t) /\ exists lost, Permutation (elems t) (lost ++ elems (fst s')) /\ live h = (live (snd s') + length lost)%nat)).
Proof. intros K V c t h o j n k s' n' H [-> | ->] E; [|rewrite reserve_is_rehash in E]; apply (rehash_exn c t h _ n k s' n' H E). Qed.
Print Assumptions C29_failed_rehash.
(** the hash function throws at its fifth call during the rehash: four of 13 elements are lost *)
Example C29_example : in_program (ecfg (late KHash) false false) (fst s_late) (snd s_late) /\
  throwing (exec1 (ecfg (late KHash) false false) (Insert true (99, 0)) s_late 990%nat) (fun k s => is_hash k && Nat.eqb (length (elems (fst s))) 9 && Nat.eqb (live (snd s)) 9) = true /\
  throwing (exec1 (ecfg (late KConstruct) false false) (Insert true (99, 0)) s_late_c 1000%nat) (fun k _ => is_construct k) = true.
Proof. split; [apply arena_program; apply s_late_ok|vm_compute; auto]. Qed.

(** C30. The insertion threshold [f_ml] is the one computed from the container's own bucket count and maximum load factor ... *)
Theorem C30_threshold_matches_the_buckets_partial :
  forall (K V : Type) (c : FCfg K V) t h, in_program_arena c t h -> f_ml t = max_load_for (f_mlf t) (bucket_count (f_b t)).
Proof. intros K V c t h H. apply (arena_program c t h H). Qed.
Print Assumptions C30_threshold_matches_the_buckets_partial.
(** ... unless a copy assignment replaced the allocator by a different one: the threshold of the old buckets stays, and 23 elements end up in 13 buckets *)
Theorem C30_threshold_after_every_assignment_refuted :
  ~ (forall (c : FCfg N N) t h, in_program c t h -> f_mlf t = Some f32_one -> f_size t < 2 ^ 23 -> f_size t <= bucket_count (f_b t)).
Proof.
  intros H. specialize (H (ecfg nothrow false true) (fst s_stale) (snd s_stale) s_stale_ok).
  assert (let t := fst s_stale in f_mlf t = Some f32_one /\ f_size t = 23 /\ bucket_count (f_b t) = 13) as (A & B & D) by (vm_compute; auto).
  specialize (H A). rewrite B, D in H. specialize (H ltac:(reflexivity)). lia.
Qed.
Print Assumptions C30_threshold_after_every_assignment_refuted.
(** assigning from an empty container in this situation leaves a container without buckets into which the next insertion writes *)
Theorem C30_insertion_after_every_assignment_is_defined_refuted :
  ~ (forall (c : FCfg N N) t h x, in_program c t h -> in_program c x h -> f_al t <> f_al x ->
     forall n u s n' e, copy_assign c x (t, h) n = Ret u s n' -> exec1 c (Insert true e) s n' <> Undef).
Proof.
  intros H. set (c := ecfg nothrow false true). set (s := s_empty0). set (x := s_empty1).
  specialize (H c (fst s) (snd s) (fst x) s_empty0_ok). assert (snd s = snd x) as E by (vm_compute; reflexivity). 
  assert (in_program c (fst x) (snd s)) as Px by (rewrite E; exact s_empty1_ok). specialize (H Px ltac:(vm_compute; discriminate) 0%nat).
  assert (match copy_assign c (fst x) (fst s, snd s) 0%nat with Ret u s1 n1 => match exec1 c (Insert true (1, 2)) s1 n1 with Undef => true | _ => false end | _ => false end = true) as X by (vm_compute; reflexivity).
  destruct (copy_assign c (fst x) (fst s, snd s) 0%nat) as [u s1 n1|k s1 n1|]; [|discriminate|discriminate]. apply (H u s1 n1 (1, 2) eq_refl). destruct (exec1 c (Insert true (1, 2)) s1 n1); [discriminate|discriminate|reflexivity].
Qed.
Print Assumptions C30_insertion_after_every_assignment_is_defined_refuted.

(** C31. [in_bucket t m e]: the iteration from begin(m) to end(m) meets e *)
Theorem C31_bucket_is_in_range :
  forall (K V : Type) (c : FCfg K V) t h k (X : Type) (s : X) n, in_program c t h -> 0 < bucket_count (f_b t) ->
  match bucket_of c t k s n with Ret m s' _ => s' = s /\ m < bucket_count (f_b t) | Exn kd s' _ => kd = KHash /\ (exists j, throws (base c) kd j = true) /\ s' = s | Undef => False end.
Proof. intros K V c t h k X s n. apply bucket_ok. Qed.
Print Assumptions C31_bucket_is_in_range.
Theorem C31_local_iteration :
  forall (K V : Type) (c : FCfg K V) t h, in_program c t h ->
  (forall m, N.of_nat m < bucket_count (f_b t) -> exists l, local_elements t m = Some l /\ bucket_size t m = Some (N.of_nat (length l)) /\ NoDup (map fst (map el l))) /\
  (forall e, In e (elems t) -> exists m, N.of_nat m < bucket_count (f_b t) /\ in_bucket t m e) /\
  (forall e m, in_bucket t m e -> In e (elems t) /\ forall (X : Type) (s : X) n i s' n', bucket_of c t (key e) s n = Ret i s' n' -> i = N.of_nat m) /\
  (exists ls, Forall2 (fun m l => local_elements t m = Some l) (seq 0 (N.to_nat (bucket_count (f_b t)))) ls /\ Permutation (map el (concat ls)) (elems t) /\
     N.of_nat (list_sum (map (@length _) ls)) = f_size t).
Proof.
  intros K V c t h H. split; [intros m; apply (local_lists c t h m H)|]. split; [intros e; apply (local_ex c t h e H)|]. split; [intros e m B; destruct (local_at c t h m e H B) as (A1 & _ & A2); split; [exact A1|exact A2]|].
  destruct (local_all c t h H) as (ls & A & B). exists ls. split; [exact A|]. split; [exact B|]. rewrite (size_ok c t h H). f_equal. rewrite <- (Permutation_length B), map_length. clear. induction ls as [|a ls IH]; [reflexivity|]. cbn [map concat list_sum fold_right]. rewrite app_length. unfold list_sum in IH. lia.
Qed.
Print Assumptions C31_local_iteration.
Example C31_example : in_program (ecfg nothrow true false) (fst s_m) (snd s_m) /\ option_map (@length _) (local_elements (fst s_m) 1) = Some 8%nat.
Proof. split; [apply arena_program; apply s_m_ok|vm_compute; auto]. Qed.

(** C48. x.merge(x) of a multi container that is not empty never ends: for every number of rounds, the loop is still running after that many (or an exception ended it) *)
Theorem C48_self_merge_never_ends :
  forall (K V : Type) (c : FCfg K V) t h rounds n, in_program c t h -> multi c = true -> f_size t <> 0 ->
  match merge_self c rounds (t, h) n with Ret b s _ => b = false /\ f_size (fst s) = f_size t | Exn k _ _ => exists j, throws (base c) k j = true | Undef => False end.
Proof.
  intros K V c t h rounds n H Mu Z. destruct (prog_si c t h H) as (r & S). assert (contents t <> []) as Nl. { intros E. pose proof (FcaTab.ti_size _ _ _ (FcaOps.si_t _ _ _ _ S)) as X. cbn [fst] in X. rewrite E in X. cbn in X. lia. }
  pose proof (merge_self_step c r rounds (t, h) (contents t) n Mu S Nl) as Q. destruct (merge_self c rounds (t, h) n) as [b s n'|k s n'|]; cbn [outcome] in Q; [|exact Q|exact Q].
  destruct Q as (-> & l' & S' & P). split; [reflexivity|]. rewrite (FcaTab.ti_size _ _ _ (FcaOps.si_t _ _ _ _ S')). pose proof (FcaTab.ti_size _ _ _ (FcaOps.si_t _ _ _ _ S)) as X. cbn [fst] in X. rewrite X, (Permutation_length P). reflexivity.
Qed.
Print Assumptions C48_self_merge_never_ends.
Example C48_example : in_program (ecfg nothrow true false) (fst s_m) (snd s_m) /\ f_size (fst s_m) = 17.
Proof. split; [apply arena_program; apply s_m_ok|vm_compute; auto]. Qed.
