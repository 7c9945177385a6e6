(** C65: the cost of growth of the closed-addressing containers. Vocabulary in FcaGrowSpec.v: [uses c P s0 i m s]: operations on one container lead from s0 to s, inserting
    i elements; m elements are moved to other buckets meanwhile; P holds in all states. Exceptions are included. *)
From Coq Require Import NArith ZArith Bool List Arith Lia.
From Verif Require Import FloatModel HashArithModel FoaModel FcaModel FcaIter FcaTab FcaSpec FcaWorld FcaProps FcaProps2 FcaExamples FcaGrowSpec FcaGrow.
Import ListNotations.
Local Open Scope N_scope.

(** inserting i elements moves at most 5 elements for each of them and each that was there at the beginning, and 9 more, whatever max_load_factor() is *)
Theorem C65_growth_is_amortized :
  forall (K V : Type) (c : FCfg K V) s0 i m s, in_program_arena c (fst s0) (snd s0) -> uses c (fun _ => True) s0 i m s -> m <= 5 * (i + size s0) + 9.
Proof. intros K V c s0 i m s. apply uses_any. Qed.
Print Assumptions C65_growth_is_amortized.
(** at most 4, and 3 more, in containers of at most 2^30 elements *)
Theorem C65_growth_of_containers_of_usual_sizes_is_amortized :
  forall (K V : Type) (c : FCfg K V) s0 i m s, in_program_arena c (fst s0) (snd s0) -> uses c (fun s => size s <= 2 ^ 30) s0 i m s -> m <= 4 * (i + size s0) + 3.
Proof. intros K V c s0 i m s. apply uses_30. Qed.
Print Assumptions C65_growth_of_containers_of_usual_sizes_is_amortized.
(** none with an infinite max_load_factor() *)
Theorem C65_no_element_is_moved_without_a_load_limit :
  forall (K V : Type) (c : FCfg K V) s0 i m s, in_program_arena c (fst s0) (snd s0) -> f_mlf (fst s0) = None -> uses c (fun _ => True) s0 i m s -> m = 0.
Proof.
  intros K V c s0 i m s H0 E0 U. induction U as [H|i m s o s' U IH So P1 A Ps]; [reflexivity|].
  destruct (uses_inv c _ _ _ _ _ H0 U) as (H & E & L & _). destruct (step_change c s o s' H So P1 A) as [E' C].
  rewrite IH, (inf_step c o s s' H ltac:(congruence) C). reflexivity.
Qed.
Print Assumptions C65_no_element_is_moved_without_a_load_limit.
(** while bucket_count() is the same, the elements that remain keep their nodes and their positions: an iterator to an element (nth_it: reached from begin() by j increments) is still
    the iterator to that element *)
Theorem C65_elements_stay :
  forall (K V : Type) (c : FCfg K V) s o s', in_program_arena c (fst s) (snd s) -> single o = true -> pre1 c o (fst s) -> after1 c s o s' -> buckets s' = buckets s ->
  forall j it (x : nat * (K * V)), nth_it (fst s) j = Some it -> nth_error (elems (fst s)) j = Some x -> In x (elems (fst s')) ->
  exists j', nth_it (fst s') j' = Some it /\ nth_error (elems (fst s')) j' = Some x.
Proof.
  intros K V c s o s' H So P A Eb j it x. destruct (arena_program c _ _ H) as [HP _]. destruct (arena_program c _ _ (prog_next c s o s' H P A)) as [HP' _].
  destruct A as (n & E). pose proof (step1 c (fst s) (snd s) o n HP P) as Q. rewrite <- surjective_pairing in Q.
  assert (f_hid (fst s') = f_hid (fst s)) as Eh by (destruct (exec1 c o s n); [| |contradiction]; subst; apply Q).
  apply (iterators_stay c (fst s) (fst s') (snd s) (snd s')); assumption.
Qed.
Print Assumptions C65_elements_stay.
(** bucket_count() changes only when an insertion finds size() + 1 > max_load; then it is multiplied by at least 1.8 *)
Theorem C65_growth_multiplies_bucket_count :
  forall (K V : Type) (c : FCfg K V) s o s', in_program_arena c (fst s) (snd s) -> single o = true -> pre1 c o (fst s) -> after1 c s o s' ->
  f_mlf (fst s') = f_mlf (fst s) /\
  (buckets s' = buckets s \/ (inserts o = true /\ f_ml (fst s) < size s + 1 /\ size s' = size s + 1 /\ 9 * buckets s <= 5 * buckets s' /\ 0 < buckets s')).
Proof.
  intros K V c s o s' H So P A. destruct (step_change c s o s' H So P A) as [Em C]. split; [exact Em|]. pose proof (prog_next c s o s' H P A) as H'.
  destruct C as [Ni Eb Ls|Eb Es|Eb Es|Hi Lb Es Lm G|Hi Eb Ls Lm]; auto. right. split; [exact Hi|]. split; [exact Lm|]. split; [exact Es|]. split; [|lia].
  destruct (buckets_in c s H) as [Z|Z]; [rewrite Z; lia|]. destruct (buckets_in c s' H') as [Y|Y]; [lia|]. apply sizes_ratio; assumption.
Qed.
Print Assumptions C65_growth_multiplies_bucket_count.
(** space: if a container never has more than p elements, bucket_count() is at most 9/4 * (p / max_load_factor() + 1), 13, or what it was at the beginning. max_load_factor() is
    z / 2^149 (f32_one is 2^149) *)
Theorem C65_bucket_count_is_proportional_to_peak_size :
  forall (K V : Type) (c : FCfg K V) p s0 i m s, in_program_arena c (fst s0) (snd s0) -> uses c (fun s => size s <= p) s0 i m s ->
  buckets s <= N.max (buckets s0) 13 \/ exists z, f_mlf (fst s0) = Some z /\ (4 * z * Z.of_N (buckets s) <= 9 * (Z.of_N p * f32_one + z))%Z.
Proof.
  intros K V c p s0 i m s H U. destruct (uses_space c p s0 i m s H U) as [X|X]; [left; exact X|right]. destruct (uses_inv c _ _ _ _ _ H U) as (_ & E & _). unfold tight in X. rewrite E in X.
  destruct (f_mlf (fst s0)) as [z|]; [exists z; split; [reflexivity|exact X]|contradiction].
Qed.
Print Assumptions C65_bucket_count_is_proportional_to_peak_size.
(** with the default max_load_factor() 1.0: 9/4 * (p + 1) *)
Corollary C65_bucket_count_with_the_default_load_factor :
  forall (K V : Type) (c : FCfg K V) p s0 i m s, in_program_arena c (fst s0) (snd s0) -> f_mlf (fst s0) = Some f32_one -> uses c (fun s => size s <= p) s0 i m s ->
  buckets s <= N.max (buckets s0) (N.max 13 (9 * (p + 1) / 4)).
Proof.
  intros K V c p s0 i m s H E U. destruct (C65_bucket_count_is_proportional_to_peak_size K V c p s0 i m s H U) as [X|(z & Ez & X)]; [lia|].
  assert (z = f32_one) as -> by congruence. assert (0 < f32_one)%Z as P by reflexivity. set (e := f32_one) in *. clearbody e.
  assert (4 * Z.of_N (buckets s) <= 9 * (Z.of_N p + 1))%Z as Y by nia. assert (buckets s <= 9 * (p + 1) / 4) as W; [|lia]. apply N.div_le_lower_bound; lia.
Qed.
Print Assumptions C65_bucket_count_with_the_default_load_factor.

(** *** a case: 300 insertions into a new container *)
Fixpoint use_list (c : FCfg N N) (mu : bool) (os : list (op1 N N)) (s : table N N * heap) (i m : N) : option (N * N * (table N N * heap)) :=
  match os with
  | [] => Some (i, m, s)
  | o :: r => if single o && pre1b mu o (fst s) then match exec1 c o s O with Ret _ s' _ | Exn _ s' _ => use_list c mu r s' (i + (size s' - size s)) (m + moved o s s') | Undef => None end else None
  end.
Lemma pre1b_pre thr mu pc o (t : table N N) : single o = true -> pre1b mu o t = true -> pre1 (ecfg thr mu pc) o t.
Proof.
  destruct o; cbn [pre1b pre1 single inserts erases orb]; try discriminate; intros _ H; try exact I.
  all: repeat match goal with H : _ && _ = true |- _ => apply andb_prop in H as [? H] end.
  all: repeat match goal with H : roomb _ _ = true |- _ => apply roomb_ok in H end.
  all: repeat match goal with H : (_ <=? _) = true |- _ => apply N.leb_le in H | H : (_ <? _) = true |- _ => apply N.ltb_lt in H | H : (_ <=? _)%nat = true |- _ => apply Nat.leb_le in H | H : negb _ = true |- _ => apply negb_true_iff in H end.
  all: auto.
Qed.
Lemma use_list_ok thr mu pc os : forall s0 s i m i' m' s', uses (ecfg thr mu pc) (fun _ => True) s0 i m s -> use_list (ecfg thr mu pc) mu os s i m = Some (i', m', s') -> uses (ecfg thr mu pc) (fun _ => True) s0 i' m' s'.
Proof.
  induction os as [|o os IH]; intros s0 s i m i' m' s' U X; cbn [use_list] in X; [injection X as <- <- <-; exact U|].
  destruct (single o) eqn:So; [|discriminate]. destruct (pre1b mu o (fst s)) eqn:P; [|discriminate]. cbn [andb] in X.
  destruct (exec1 (ecfg thr mu pc) o s O) as [v s1 n1|k s1 n1|] eqn:E; [| |discriminate];
    (eapply IH; [|exact X]; apply uses_step; [exact U|exact So|apply pre1b_pre; assumption|exists 0%nat; rewrite E; reflexivity|exact I]).
Qed.
Definition sum_up (r : option (N * N * (table N N * heap))) := match r with Some (i, m, s) => Some (i, m, size s, buckets s) | None => None end.
Definition os_300 : list (op1 N N) := map (fun k => Insert true (N.of_nat k, N.of_nat k)) (seq 0 300).
Definition s_empty := st_of nothrow false false true [New 0 0 0 0] 0.
Lemma sum_up_ok thr mu pc os s0 i m a b : sum_up (use_list (ecfg thr mu pc) mu os s0 0 0) = Some (i, m, a, b) -> exists s, uses (ecfg thr mu pc) (fun _ => True) s0 i m s /\ size s = a /\ buckets s = b.
Proof.
  intros Q. destruct (use_list (ecfg thr mu pc) mu os s0 0 0) as [[[i' m'] s]|] eqn:E; cbn [sum_up] in Q; [|discriminate]. injection Q as -> -> Q1 Q2. exists s. split; [|split; assumption].
  eapply use_list_ok; [|exact E]. constructor. exact I.
Qed.
Lemma start_ok thr mu pc s : nth_st thr mu pc true [New 0 0 0 0] 0 = Some s -> in_program_arena (ecfg thr mu pc) (fst s) (snd s).
Proof. apply st_program. Qed.
Example C65_case : in_program_arena (ecfg nothrow false false) (fst s_empty) (snd s_empty) /\ f_mlf (fst s_empty) = Some f32_one /\
  exists s, uses (ecfg nothrow false false) (fun _ => True) s_empty 300 385 s /\ size s = 300 /\ buckets s = 389.
Proof.
  split; [apply start_ok; vm_cast_no_check (eq_refl (Some s_empty))|]. split; [vm_cast_no_check (eq_refl (Some f32_one))|].
  apply (sum_up_ok nothrow false false os_300). vm_cast_no_check (eq_refl (Some (300, 385, 300, 389))).
Qed.
(** another: the hash function throws when called for the 7th time in an operation, so every growth fails and may lose elements: after 40 attempts 27 elements have been inserted, 14 of them
    lost *)
Definition late7 : kind -> nat -> bool := fun k n => match k with KHash => Nat.eqb n 7 | _ => false end.
Definition s_empty7 := st_of late7 false false true [New 0 0 0 0] 0.
Example C65_case_with_exceptions : in_program_arena (ecfg late7 false false) (fst s_empty7) (snd s_empty7) /\
  exists s, uses (ecfg late7 false false) (fun _ => True) s_empty7 27 14 s /\ size s = 13 /\ buckets s = 13.
Proof.
  split; [apply start_ok; vm_cast_no_check (eq_refl (Some s_empty7))|].
  apply (sum_up_ok late7 false false (firstn 40 os_300)). vm_cast_no_check (eq_refl (Some (27, 14, 13, 13))).
Qed.
