(** Properties of the open-addressing containers (C01-C04, C06-C09, C11-C16, C45, C47).

    Reading guide. [c : Cfg K V] fixes a container type: hash and equality functions, which events throw, element size, allocator traits.
    [good_cfg c] only says that element sizes are positive and that array sizes the allocator can deliver do not wrap.
    [runs c rs w]: some program starting without containers performed the operations of rs (each with what it returned or threw), ending
    with the containers w; [reachable c t]: t is a container of such a program. [contents c t]: the elements seen by iterating from
    begin() to end(). [stored t i x]: element x lives at address i of the element array. [Undef]: undefined behaviour. *)
From Coq Require Import NArith ZArith Bool List Arith Lia Permutation.
From Verif Require Import SizeModel GroupModel FoaModel FoaBase FoaArr FoaIterModel FoaSpec FoaWorld FoaRun FoaMerge FoaProps FoaProps2 FoaProps3 FoaExamples.
Import ListNotations.
Local Open Scope N_scope.

Notation ex := (ecfg nothrow true).
(** C01 *)
Theorem C01_every_history_is_one_of_abstract_maps :
  forall (K V : Type) (c : Cfg K V), good_cfg c -> forall rs w, runs c rs w -> history (keqf c) (moves c) [] rs (look_all c w).
Proof. intros K V c HC rs w. apply (runs_history c HC). Qed.
Print Assumptions C01_every_history_is_one_of_abstract_maps.
(** every operation of a program whose preconditions hold returns or throws; throwing needs an allocation or a user function that throws *)
Theorem C01_operations_return_or_propagate_exceptions :
  forall (K V : Type) (c : Cfg K V), good_cfg c -> forall rs w o n, runs c rs w -> pre c o w ->
  match exec c o w n with
  | Ret _ _ _ => True
  | Exn k _ _ => k = KAlloc \/ exists j, throws c k j = true
  | Undef => False
  end.
Proof. intros K V c HC rs w o n. apply exec_total. exact HC. Qed.
Print Assumptions C01_operations_return_or_propagate_exceptions.
Example C01_example : exists rs w, runs ex rs w /\ map snd (skipn 98 rs) =
  [Done (VIns (5, 105) false); Done (VFound (Some (5, 105))); Done (VFound None); Done VUnit; Done VUnit; Done (VN 63);
   Done (VList (map (fun k => (N.of_nat k, N.of_nat k + 100)) (seq 28 11))); Done VUnit; Done VUnit].
Proof.
  assert (option_map (fun p => map snd (skipn 98 (fst p))) (steps ex ops1 [] 0) = Some [Done (VIns (5, 105) false); Done (VFound (Some (5, 105))); Done (VFound None); Done VUnit; Done VUnit; Done (VN 63);
   Done (VList (map (fun k => (N.of_nat k, N.of_nat k + 100)) (seq 28 11))); Done VUnit; Done VUnit]) as X by (vm_compute; reflexivity).
  destruct (steps ex ops1 [] 0) as [[rs w]|] eqn:E; [|discriminate X]. exists rs, w.
  split; [apply (ops_runs nothrow true ops1); [vm_compute; reflexivity|exact E]|]. injection X as X. exact X.
Qed.

(** C02 *)
Theorem C02_size_is_the_number_of_elements :
  forall (K V : Type) (c : Cfg K V), good_cfg c -> forall t, reachable c t ->
  sz t = N.of_nat (length (contents c t)) /\ (sz t = 0 <-> contents c t = []) /\
  ForallOrdPairs (fun x y => keqf c (pid t) (fst x) (fst y) = false) (contents c t).
Proof.
  intros K V c HC t R. destruct (size_exact c HC t R) as [A B]. split; [exact A|]. split; [|exact B]. rewrite A. destruct (contents c t); cbn; split; try congruence; try lia; discriminate.
Qed.
Print Assumptions C02_size_is_the_number_of_elements.
Example C02_example : reachable ex t_big /\ sz t_big = 63.
Proof. split; [apply t_big_reachable|vm_compute; reflexivity]. Qed.

(** C03: iterating from begin() to end() yields the elements of the array in slot order, each once; begin() incremented m times
    designates the m-th of them, and is end() exactly for m = size(). The order is that of internal traversal. *)
Theorem C03_iteration_visits_every_element_exactly_once :
  forall (K V : Type) (c : Cfg K V), good_cfg c -> forall t, reachable c t ->
  exists l,
  (forall x, In x l <-> exists i, stored t i x) /\ length l = N.to_nat (sz t) /\ NoDup l /\
  (forall (St : Type) (s : St) n, m_iterate c t s n = Ret l s n) /\
  (forall n, match for_all (fun _ => arr t) (fun g m => bind (read_element (arr t) (slot_index g m)) (fun e => modify (fun seen => seen ++ [e]))) [] n with
     Ret _ seen _ => seen = l | _ => False end) /\
  (forall m, (m <= length l)%nat -> exists it, nth_it c t m = Some it /\ it_eqb it it_end = Nat.eqb m (length l) /\
      forall x, nth_error l m = Some x -> forall (St : Type) (s : St) n, it_deref (arr t) it s n = Ret x s n).
Proof. intros K V c HC t R. apply (iteration c HC t R). Qed.
Print Assumptions C03_iteration_visits_every_element_exactly_once.

(** C04 *)
Theorem C04_erase_iterator :
  forall (K V : Type) (c : Cfg K V), good_cfg c -> forall t m n, reachable c t -> (m < length (contents c t))%nat ->
  exists it, nth_it c t m = Some it /\
  match m_erase_at c it t n with
  | Ret it' t' _ =>
      contents c t' = firstn m (contents c t) ++ skipn (S m) (contents c t) /\
      capacity (arr t') = capacity (arr t) /\
      (exists it2, nth_it c t' m = Some it2 /\ it_eqb it' it2 = true) /\
      (forall j x, (j < length (contents c t))%nat -> j <> m -> nth_it c t j = Some x -> nth_it c t' (if (j <? m)%nat then j else (j - 1)%nat) = Some x) /\
      (exists i x, nth_error (contents c t) m = Some x /\ stored t i x /\ forall j y, stored t' j y <-> (stored t j y /\ j <> i))
  | _ => False
  end.
Proof. intros K V c HC t m n. apply erase_iter. exact HC. Qed.
Print Assumptions C04_erase_iterator.
Theorem C04_erase_range :
  forall (K V : Type) (c : Cfg K V), good_cfg c -> forall t m m2 n, reachable c t -> (m <= m2 <= length (contents c t))%nat ->
  exists it it2, nth_it c t m = Some it /\ nth_it c t m2 = Some it2 /\
  match m_erase_range c (S (N.to_nat (capacity (arr t)))) it it2 t n with
  | Ret r t' _ => contents c t' = firstn m (contents c t) ++ skipn m2 (contents c t) /\ capacity (arr t') = capacity (arr t) /\ r = it2 /\
      exists it3, nth_it c t' m = Some it3 /\ it_eqb r it3 = true
  | _ => False
  end.
Proof. intros K V c HC t m m2 n. apply erase_range. exact HC. Qed.
Print Assumptions C04_erase_range.
(** the erase-while-iterating loop sees every element once and erases those satisfying the predicate *)
Theorem C04_erase_while_iterating :
  forall (K V : Type) (c : Cfg K V), good_cfg c -> forall t pr n, reachable c t ->
  exists it, nth_it c t 0 = Some it /\
  match erase_loop c (S (N.to_nat (capacity (arr t)))) pr it t n with
  | Ret seen t' _ => seen = contents c t /\ contents c t' = filter (fun e => negb (pr e)) (contents c t) /\ capacity (arr t') = capacity (arr t)
  | _ => False
  end.
Proof. intros K V c HC t pr n. apply erase_while_iterating. exact HC. Qed.
Print Assumptions C04_erase_while_iterating.
(** erase_if with a predicate that may depend on all its previous arguments (the log) and may throw: called once per element, in order *)
Theorem C04_erase_if :
  forall (K V : Type) (c : Cfg K V), good_cfg c -> forall t (pr : list (K * V) -> K * V -> bool) n, reachable c t ->
  let keep := fix keep log l := match l with [] => [] | e :: r => (if pr log e then [] else [e]) ++ keep (log ++ [e]) r end in
  match erase_if c pr (t, []) n with
  | Ret r s _ => snd s = contents c t /\ contents c (fst s) = keep [] (contents c t) /\
      r = N.of_nat (length (contents c t) - length (contents c (fst s))) /\ capacity (arr (fst s)) = capacity (arr t)
  | Exn _ s _ => exists l1 e l2, contents c t = l1 ++ e :: l2 /\ snd s = l1 ++ [e] /\ contents c (fst s) = keep [] l1 ++ e :: l2
  | Undef => False
  end.
Proof.
  intros K V c HC t pr n R keep. assert (forall l log, kept pr log l = keep log l) as E.
  { induction l as [|e l IH]; intros log; [reflexivity|]. cbn. destruct (pr log e); cbn; rewrite IH; reflexivity. }
  pose proof (erase_if_stateful c HC t pr n R) as X. destruct (erase_if c pr (t, []) n); [rewrite <- E; exact X| |exact X].
  destruct X as (l1 & e & l2 & A & B & D). rewrite E in D. exists l1, e, l2. auto.
Qed.
Print Assumptions C04_erase_if.
Example C04_example : reachable ex t_big /\ (5 < length (contents ex t_big))%nat.
Proof. split; [apply t_big_reachable|vm_compute; lia]. Qed.

(** C06 *)
Theorem C06_size_max_load_bucket_count :
  forall (K V : Type) (c : Cfg K V), good_cfg c -> forall t, reachable c t ->
  sz t <= ml t /\ ml t <= capacity (arr t) /\ capacity (arr t) < 2 ^ 64 /\ capacity (arr t) = N.of_nat (length (cells (arr t))) /\
  (sz t < ml t -> exists i, nth_error (cells (arr t)) i = Some Raw).
Proof.
  intros K V c HC t R. destruct (load_bounds c HC t R) as (A & B & D & E). do 4 (split; [assumption|]). apply (free_slot c HC t R).
Qed.
Print Assumptions C06_size_max_load_bucket_count.
Example C06_example : reachable ex t_drift /\ (sz t_drift, ml t_drift, capacity (arr t_drift)) = (15, 24, 29).
Proof. split; [apply t_drift_reachable|vm_compute; reflexivity]. Qed.

(** C07 *)
Theorem C07_insertion_below_max_load_moves_nothing :
  forall (K V : Type) (c : Cfg K V), good_cfg c -> forall t e n, reachable c t -> sz t < ml t ->
  match m_insert c e t n with
  | Ret _ t' _ => capacity (arr t') = capacity (arr t) /\ ml t' = ml t /\ forall i x, stored t i x -> stored t' i x
  | Exn _ t' _ => capacity (arr t') = capacity (arr t) /\ ml t' = ml t /\ forall i x, stored t i x <-> stored t' i x
  | Undef => False
  end.
Proof. intros K V c HC t e n. apply insert_below. exact HC. Qed.
Print Assumptions C07_insertion_below_max_load_moves_nothing.
Theorem C07_erasure_moves_nothing :
  forall (K V : Type) (c : Cfg K V), good_cfg c -> forall t k n, reachable c t ->
  match m_erase c k t n with
  | Ret _ t' _ | Exn _ t' _ => capacity (arr t') = capacity (arr t) /\
      forall i x, stored t' i x <-> (stored t i x /\ (t' = t \/ keqf c (pid t) k (fst x) = false))
  | Undef => False
  end.
Proof. intros K V c HC t k n. apply erase_key_stable. exact HC. Qed.
Print Assumptions C07_erasure_moves_nothing.
Theorem C07_lookup_changes_nothing :
  forall (K V : Type) (c : Cfg K V), good_cfg c -> forall t o n, reachable c t ->
  match o with Find _ | At _ | Count _ | Contains _ | EqualRange _ | Iterate | Size => True | _ => False end ->
  match exec1 c o t n with Ret _ t' _ | Exn _ t' _ => t' = t | Undef => False end.
Proof. intros K V c HC t o n R Ho. apply read_only_ok; [apply (rinv c HC t R)|]. destruct o; try contradiction; reflexivity. Qed.
Print Assumptions C07_lookup_changes_nothing.
Example C07_example : reachable ex t_big /\ sz t_big < ml t_big.
Proof. split; [apply t_big_reachable|vm_compute; reflexivity]. Qed.

(** C08 *)
Theorem C08_rehash :
  forall (K V : Type) (c : Cfg K V), good_cfg c -> forall t n m, reachable c t -> size_ok c n ->
  match rehash c n t m with
  | Ret _ t' _ => n <= capacity (arr t') /\ sz t' = sz t /\ sz t' <= ml t' /\ Permutation (contents c t') (contents c t) /\
      (n = 0 -> contents c t = [] -> capacity (arr t') = 0)
  | Exn k t' _ => k = KAlloc /\ t' = t \/ k = KHash \/ k = KTransfer
  | Undef => False
  end.
Proof. intros K V c HC t n m. apply rehash_post. exact HC. Qed.
Print Assumptions C08_rehash.
(** the capacities an array can have are 0 and 15*2^k-1 for k >= 1; rehash gives the smallest of them that is at least n and at least size()/max_load_factor() (0 only if both are 0) *)
Theorem C08_rehash_gives_the_smallest_capacity :
  forall (K V : Type) (c : Cfg K V), good_cfg c -> forall t n m u t' m', reachable c t -> size_ok c n -> rehash c n t m = Ret u t' m' ->
  let needed := N.max n (ceil_div_mlf (sz t)) in
  (needed = 0 /\ capacity (arr t') = 0) \/
  (0 < needed /\ needed <= capacity (arr t') /\ (exists k, 1 <= k /\ capacity (arr t') = 15 * 2 ^ k - 1) /\
    forall k, 1 <= k -> needed <= 15 * 2 ^ k - 1 -> capacity (arr t') <= 15 * 2 ^ k - 1).
Proof. intros K V c HC t n m u t' m'. apply rehash_least. exact HC. Qed.
Print Assumptions C08_rehash_gives_the_smallest_capacity.
Example C08_example : reachable ex t_big /\ size_ok ex 300 /\
  match rehash ex 300 t_big 0%nat with Ret _ t' _ => capacity (arr t') = 479 /\ sz t' = 63 | _ => False end.
Proof. split; [apply t_big_reachable|]. split; [apply size_okb_ok; reflexivity|vm_compute; auto]. Qed.

(** C09: [clean c t]: t was constructed, or cleared, or given a new array by rehash, and since then no element has been erased *)
Theorem C09_reserve_without_erasures :
  forall (K V : Type) (c : Cfg K V), good_cfg c -> forall t n m, clean c t -> size_ok c (ceil_div_mlf n) ->
  match reserve c n t m with
  | Ret _ t' _ => n <= ml t' /\ Permutation (contents c t') (contents c t) /\
      forall es m2, sz t' + N.of_nat (length es) <= n ->
        match m_insert_range c es t' m2 with
        | Ret _ t2 _ | Exn _ t2 _ => capacity (arr t2) = capacity (arr t') /\ forall i x, stored t' i x -> stored t2 i x
        | Undef => False
        end
  | Exn k t' _ => k = KAlloc /\ t' = t \/ k = KHash \/ k = KTransfer
  | Undef => False
  end.
Proof. intros K V c HC t n m. apply reserve_post. exact HC. Qed.
Print Assumptions C09_reserve_without_erasures.
Example C09_example : exists t, clean ex t /\ sz t = 40 /\ size_ok ex (ceil_div_mlf 300).
Proof.
  assert (forall l t n u t' n', clean ex t -> exec1 ex (InsertRange l) t n = Ret u t' n' -> clean ex t') as X.
  { intros l t n u t' n' C E. exact (clean_op ex t (InsertRange l) n u t' n' C eq_refl I E). }
  destruct (new_table ex 1 0 0 5 tt 0%nat) as [t0 [] m0|k s m0|] eqn:E0; [|vm_compute in E0; discriminate|vm_compute in E0; discriminate].
  assert (clean ex t0) as C0.
  { apply (clean_new ex 1 0 0 5 0%nat t0 m0); [apply ecfg_agree|apply size_okb_ok; reflexivity|exact E0]. }
  destruct (exec1 ex (InsertRange (map (fun k => (N.of_nat k, 1)) (seq 0 40))) t0 0%nat) as [v t1 m1|k s m1|] eqn:E1.
  - exists t1. split; [eapply X; [exact C0|exact E1]|]. split; [|apply size_okb_ok; reflexivity].
    vm_compute in E0. injection E0 as <- <-. vm_compute in E1. injection E1 as <- <- <-. reflexivity.
  - vm_compute in E0. injection E0 as <- <-. vm_compute in E1. discriminate.
  - vm_compute in E0. injection E0 as <- <-. vm_compute in E1. discriminate.
Qed.
(** after erasures the guarantee is lost: max_load() has been lowered and reserve does not restore it *)
Theorem C09_reserve_after_erasures_refuted :
  ~ (forall (c : Cfg N N), good_cfg c -> forall t n m u t' m', reachable c t -> size_ok c (ceil_div_mlf n) -> reserve c n t m = Ret u t' m' -> n <= ml t').
Proof.
  intros H. specialize (H ex (ecfg_good _ _) t_drift 25 0%nat tt t_drift 0%nat t_drift_reachable ltac:(apply size_okb_ok; reflexivity)).
  assert (reserve ex 25 t_drift 0%nat = Ret tt t_drift 0%nat) as E by (vm_compute; reflexivity). specialize (H E). vm_compute in H. congruence.
Qed.
Print Assumptions C09_reserve_after_erasures_refuted.

(** C11 *)
Theorem C11_copy_construct :
  forall (K V : Type) (c : Cfg K V), good_cfg c -> forall x al n, reachable c x ->
  match copy_construct c x al tt n with
  | Ret t _ _ => hid t = hid x /\ pid t = pid x /\ aid t = al /\ Permutation (contents c t) (contents c x) /\ sz t = sz x /\ sz t <= ml t
  | Exn k _ _ => k = KAlloc \/ k = KHash \/ k = KTransfer
  | Undef => False
  end.
Proof. intros K V c HC x al n. apply copy_construct_post. exact HC. Qed.
Print Assumptions C11_copy_construct.
Theorem C11_copy_assign :
  forall (K V : Type) (c : Cfg K V), good_cfg c -> forall x t n, reachable c x -> reachable c t ->
  match copy_assign c x t n with
  | Ret _ t' _ => hid t' = hid x /\ pid t' = pid x /\ aid t' = (if pocca c then aid x else aid t) /\ Permutation (contents c t') (contents c x) /\ sz t' = sz x /\ sz t' <= ml t'
  | Exn k t' _ => exists rest, Permutation (contents c x) (contents c t' ++ rest)
  | Undef => False
  end.
Proof. intros K V c HC x t n. apply copy_assign_post. exact HC. Qed.
Print Assumptions C11_copy_assign.
Theorem C11_move_construct :
  forall (K V : Type) (c : Cfg K V), good_cfg c -> forall x n, reachable c x ->
  match move_construct c x n with
  | Ret t x' _ => t = x /\ contents c x' = [] /\ sz x' = 0 /\ hid x' = hid x /\ pid x' = pid x
  | _ => False
  end.
Proof. intros K V c HC x n. apply move_construct_post. exact HC. Qed.
Print Assumptions C11_move_construct.
Theorem C11_move_construct_with_allocator :
  forall (K V : Type) (c : Cfg K V), good_cfg c -> forall x al n, reachable c x ->
  match move_construct_al c al x n with
  | Ret t x' _ => hid t = hid x /\ pid t = pid x /\ aid t = al /\ Permutation (contents c t) (contents c x) /\ contents c x' = [] /\
      (al = aid x -> forall i e, stored t i e <-> stored x i e)
  | Exn k x' _ => x' = x \/ contents c x' = []
  | Undef => False
  end.
Proof. intros K V c HC x al n. apply move_construct_al_post. exact HC. Qed.
Print Assumptions C11_move_construct_with_allocator.
Theorem C11_move_assign :
  forall (K V : Type) (c : Cfg K V), good_cfg c -> forall t x n, reachable c x -> reachable c t ->
  match move_assign c (t, x) n with
  | Ret _ s _ => hid (fst s) = hid x /\ pid (fst s) = pid x /\ aid (fst s) = (if pocma c then aid x else aid t) /\
      Permutation (contents c (fst s)) (contents c x) /\ contents c (snd s) = [] /\ sz (snd s) = 0 /\
      (pocma c = true \/ aid t = aid x -> forall i e, stored (fst s) i e <-> stored x i e)
  | Exn k s _ => pocma c = false /\ aid t <> aid x
  | Undef => False
  end.
Proof. intros K V c HC t x n. apply move_assign_post. exact HC. Qed.
Print Assumptions C11_move_assign.
Theorem C11_swap :
  forall (K V : Type) (c : Cfg K V), good_cfg c -> forall t x n, reachable c x -> reachable c t -> pocs c = true \/ aid t = aid x ->
  match swap_tables c (t, x) n with Ret _ s _ => s = (x, t) | _ => False end.
Proof. intros K V c HC t x n. apply swap_post. exact HC. Qed.
Print Assumptions C11_swap.
Example C11_example : reachable ex t_big /\ reachable ex t_drift /\
  match copy_assign ex t_drift t_big 0%nat with Ret _ t' _ => sz t' = 15 | _ => False end.
Proof. split; [apply t_big_reachable|]. split; [apply t_drift_reachable|vm_compute; reflexivity]. Qed.

(** C12: equal iff some rearrangement of the contents of y matches the contents of x element by element *)
Theorem C12_equality :
  forall (K V : Type) (c : Cfg K V), good_cfg c -> forall (eeq : K * V -> K * V -> bool) x y n, reachable c x -> reachable c y ->
  (forall a b, keqf c (pid x) a b = keqf c (pid y) a b) ->
  match equal_tables c eeq x y tt n with
  | Ret b _ _ => b = true <-> exists l, Permutation (contents c y) l /\
      Forall2 (fun e e' => keqf c (pid y) (fst e) (fst e') = true /\ eeq e e' = true) (contents c x) l
  | Exn k _ _ => k = KHash \/ k = KEq
  | Undef => False
  end.
Proof. intros K V c HC eeq x y n. apply equal_post. exact HC. Qed.
Print Assumptions C12_equality.
Theorem C12_equality_symmetric :
  forall (K V : Type) (c : Cfg K V), good_cfg c -> forall (eeq : K * V -> K * V -> bool) x y n m b b' n' m', reachable c x -> reachable c y ->
  (forall a b, keqf c (pid x) a b = keqf c (pid y) a b) -> (forall e e', eeq e e' = eeq e' e) ->
  equal_tables c eeq x y tt n = Ret b tt n' -> equal_tables c eeq y x tt m = Ret b' tt m' -> b = b'.
Proof. intros K V c HC eeq x y n m b b' n' m'. apply equal_symmetric. exact HC. Qed.
Print Assumptions C12_equality_symmetric.
(** same elements inserted in opposite orders into arrays of different sizes, one with erased elements and a constant hash *)
Definition ops_eq : list (op N N) := New 0 0 0 0 :: New 1 0 0 100 :: ins 0 (seq 0 30) ++ ins 1 (rev (seq 0 40)) ++ ers 1 (seq 30 10).
Example C12_example : let x := tab_of nothrow true ops_eq 0 in let y := tab_of nothrow true ops_eq 1 in
  reachable ex x /\ reachable ex y /\ capacity (arr x) <> capacity (arr y) /\
  match equal_tables ex (fun e e' => (fst e =? fst e') && (snd e =? snd e')) x y tt 0%nat with Ret b _ _ => b = true | _ => False end.
Proof. cbv zeta. split; [apply tab_reachable; vm_compute; reflexivity|]. split; [apply tab_reachable; vm_compute; reflexivity|]. split; vm_compute; congruence. Qed.

(** C13 *)
Theorem C13_merge :
  forall (K V : Type) (c : Cfg K V), good_cfg c -> forall t x n, reachable c t -> reachable c x ->
  match merge c (t, x) n with
  | Ret _ s _ => exists moved left, Permutation (contents c x) (moved ++ left) /\ contents c (snd s) = left /\
      Permutation (contents c (fst s)) (moved ++ contents c t) /\
      (forall e, In e moved -> lookup (keqf c) (pid t) (fst e) (contents c t) = None) /\
      (forall e, In e left -> lookup (keqf c) (pid t) (fst e) (contents c (fst s)) <> None)
  | Exn k s _ => exists lost, Permutation (contents c t ++ contents c x) (contents c (fst s) ++ contents c (snd s) ++ lost) /\
      (moves c = false -> length lost = 1%nat)
  | Undef => False
  end.
Proof. intros K V c HC t x n. apply merge_post. exact HC. Qed.
Print Assumptions C13_merge.
Example C13_example : reachable ex t_drift /\ reachable ex t_big /\
  match merge ex (t_drift, t_big) 0%nat with Ret _ s _ => capacity (arr (fst s)) <> capacity (arr t_drift) /\ sz (fst s) = 64 /\ sz (snd s) = 14 | _ => False end.
Proof. split; [apply t_drift_reachable|]. split; [apply t_big_reachable|]. vm_compute. repeat split; congruence. Qed.

(** C14: in the model constructing over an object, destroying or reading raw memory, and releasing an array that still holds objects (or with
    the wrong allocator) are undefined behaviour; no program, whatever it throws, runs into it, and after every operation the
    objects in the array of a container are exactly its elements *)
Theorem C14_no_double_construction_or_destruction_and_no_leak :
  forall (K V : Type) (c : Cfg K V), good_cfg c -> forall rs w o n, runs c rs w -> pre c o w ->
  exec c o w n <> Undef /\
  forall r w', returned (exec c o w n) r w' -> forall i t, slot w' i = Some t ->
    (forall j x, nth_error (cells (arr t)) j = Some x -> x <> Moved) /\
    length (filter (fun x => negb (is_raw x)) (cells (arr t))) = N.to_nat (sz t).
Proof. intros K V c HC rs w o n. apply objects. exact HC. Qed.
Print Assumptions C14_no_double_construction_or_destruction_and_no_leak.
Example C14_example : exists rs w, runs ex rs w /\ pre ex (Destroy 2) w.
Proof.
  destruct (steps ex ops1 [] 0) as [[rs w]|] eqn:E; [|vm_compute in E; discriminate]. exists rs, w.
  split; [apply (ops_runs nothrow true ops1); [vm_compute; reflexivity|exact E]|].
  assert (match steps ex ops1 [] 0 with Some (_, w) => has w 2 | None => false end = true) as X by (vm_compute; reflexivity). rewrite E in X. apply has_ok. exact X.
Qed.

(** C15 *)
Theorem C15_strong_guarantee_of_insertion :
  forall (K V : Type) (c : Cfg K V), good_cfg c -> forall t e n k t' n', reachable c t -> m_insert c e t n = Exn k t' n' ->
  k = KAlloc \/ k = KConstruct \/ k = KEq \/ sz t < ml t \/ moves c = false ->
  contents c t' = contents c t /\ sz t' = sz t /\ ml t' = ml t /\ capacity (arr t') = capacity (arr t) /\ forall i x, stored t' i x <-> stored t i x.
Proof. intros K V c HC t e n k t' n'. apply insert_exn. exact HC. Qed.
Print Assumptions C15_strong_guarantee_of_insertion.
Example C15_example : reachable (ecfg (late KConstruct) true) (t_late KConstruct true 29) /\
  (exists t' n', m_insert (ecfg (late KConstruct) true) (1000, 1) (t_late KConstruct true 29) 2000%nat = Exn KConstruct t' n') /\
  reachable (ecfg (late KAlloc) true) (t_late KAlloc true 29) /\
  exists t' n', m_insert (ecfg (late KAlloc) true) (1000, 1) (t_late KAlloc true 29) 2000%nat = Exn KAlloc t' n'.
Proof.
  split; [apply tab_reachable; vm_compute; reflexivity|]. split; [eexists; eexists; vm_compute; reflexivity|].
  split; [apply tab_reachable; vm_compute; reflexivity|]. eexists; eexists; vm_compute; reflexivity.
Qed.

(** C16 *)
Theorem C16_rehash_exceptions :
  forall (K V : Type) (c : Cfg K V), good_cfg c -> forall t n m k t' m', reachable c t -> size_ok c n -> rehash c n t m = Exn k t' m' ->
  capacity (arr t') = capacity (arr t) /\ sz t' = N.of_nat (length (contents c t')) /\ sz t' <= ml t' /\
  (exists d, contents c t' = skipn d (contents c t)) /\ (moves c = false \/ k = KAlloc -> t' = t).
Proof. intros K V c HC t n m k t' m'. apply rehash_exn. exact HC. Qed.
Print Assumptions C16_rehash_exceptions.
Theorem C16_growing_insertion_exceptions :
  forall (K V : Type) (c : Cfg K V), good_cfg c -> forall t e n k t' n', reachable c t -> m_insert c e t n = Exn k t' n' ->
  capacity (arr t') = capacity (arr t) /\ sz t' = N.of_nat (length (contents c t')) /\ sz t' <= ml t' /\
  exists d, contents c t' = skipn d (contents c t).
Proof. intros K V c HC t e n k t' n'. apply insert_rehash_exn. exact HC. Qed.
Print Assumptions C16_growing_insertion_exceptions.
Example C16_example : let c := ecfg (late KTransfer) true in let t := t_late KTransfer true 29 in reachable c t /\ size_ok c 100 /\
  match rehash c 100 t 980%nat with Exn KTransfer t' _ => sz t' = 19 | _ => False end.
Proof. cbv zeta. split; [apply tab_reachable; vm_compute; reflexivity|]. split; [apply size_okb_ok; reflexivity|]. vm_compute. reflexivity. Qed.

(** C45 *)
Theorem C45_insert_range :
  forall (K V : Type) (c : Cfg K V), good_cfg c -> forall t es n u t' n', reachable c t -> m_insert_range c es t n = Ret u t' n' ->
  forall k, lookup (keqf c) (pid t) k (contents c t') =
    match lookup (keqf c) (pid t) k (contents c t) with Some x => Some x | None => lookup (keqf c) (pid t) k es end.
Proof. intros K V c HC t es n u t' n'. apply range_lookup. exact HC. Qed.
Print Assumptions C45_insert_range.
Theorem C45_assign_list :
  forall (K V : Type) (c : Cfg K V), good_cfg c -> forall t es n u t' n', reachable c t -> m_assign_list c es t n = Ret u t' n' ->
  forall k, lookup (keqf c) (pid t) k (contents c t') = lookup (keqf c) (pid t) k es.
Proof. intros K V c HC t es n u t' n'. apply assign_lookup. exact HC. Qed.
Print Assumptions C45_assign_list.
(** a hint changes neither the resulting state nor the element designated by the result *)
Theorem C45_hint_is_irrelevant :
  forall (K V : Type) (c : Cfg K V), good_cfg c -> forall t hint e n, reachable c t ->
  match m_insert_hint c hint e t n, m_insert c e t n with
  | Ret it t' _, Ret r t'' _ => t' = t'' /\ exists x, (forall (St : Type) (s : St) m, it_deref (arr t') it s m = Ret x s m) /\ keqf c (pid t) (fst e) (fst x) = true
  | Exn k t' _, Exn k' t'' _ => k = k' /\ t' = t''
  | _, _ => False
  end.
Proof. intros K V c HC t hint e n. apply hint_irrelevant. exact HC. Qed.
Print Assumptions C45_hint_is_irrelevant.
Example C45_example : reachable ex t_big /\ match m_insert_range ex [(1, 0); (200, 1); (200, 2); (201, 3)] t_big 0%nat with Ret _ t' _ => sz t' = 65 /\ ml t' = 104 | _ => False end.
Proof. split; [apply t_big_reachable|vm_compute; auto]. Qed.

(** C47: the source of a failed move assignment between unequal, non-propagating allocators has lost its own hash function: elements it
    still holds are no longer found. (The allocation fails; the containers had been given distinct hash objects.) *)
Definition ops_mv : list (op N N) := New 1 0 7 0 :: New 0 0 8 0 :: ins 1 (seq 1 40).
Theorem C47_failed_move_assignment_keeps_source_usable_refuted :
  ~ (forall (c : Cfg N N), good_cfg c -> forall t x n k s n', reachable c t -> reachable c x -> move_assign c (t, x) n = Exn k s n' ->
     forall e m m', In e (contents c (snd s)) -> m_find c (fst e) (snd s) m <> Ret None (snd s) m').
Proof.
  intros H. set (c := ecfg (late KAlloc) true). set (t := tab_of (late KAlloc) true ops_mv 0). set (x := tab_of (late KAlloc) true ops_mv 1).
  specialize (H c (ecfg_good _ _) t x 1000%nat).
  destruct (move_assign c (t, x) 1000%nat) as [u s n'|k s n'|] eqn:E; [vm_compute in E; discriminate| |vm_compute in E; discriminate].
  specialize (H k s n' ltac:(apply tab_reachable; vm_compute; reflexivity) ltac:(apply tab_reachable; vm_compute; reflexivity) eq_refl (1, 101)).
  vm_compute in E. injection E as <- <- <-.
  refine (H 0%nat 1%nat _ _).
  - vm_compute. repeat (first [left; reflexivity|right]).
  - vm_compute. reflexivity.
Qed.
Print Assumptions C47_failed_move_assignment_keeps_source_usable_refuted.
