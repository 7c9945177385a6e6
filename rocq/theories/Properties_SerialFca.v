(** C20: saving and loading closed-addressing containers (reading guide: Properties_Fca.v and SerialSpec.v). [kf]: whether the key is an argument of the
    function that inserts the element (it depends on the type of the container). Containers with equivalent keys accept every element. *)
From Coq Require Import NArith ZArith Bool List Arith Lia Permutation.
From Verif Require Import FloatModel FoaModel FoaBase FcaLinks FcaModel FcaIter FcaTab FcaSpec FcaWorld FcaApi FcaRun FcaRun4 FcaProps FcaProps2 FcaExamples SerialSpec SerialFacts FcaSerialModel FcaSerial.
Import ListNotations.
Local Open Scope N_scope.

(** the elements of a container without their addresses, and when load must reject an element *)
Definition values {K V} (t : FcaModel.table K V) : list (K * V) := map snd (elems t).
Definition clashes {K V} (c : FCfg K V) (t : FcaModel.table K V) (x y : K * V) : bool := negb (multi c) && keqf (base c) (f_pid t) (fst x) (fst y).

Theorem C20_closed_addressing_save :
  forall (K V : Type) (c : FCfg K V) t h n, in_program c t h -> exists a, f_save t (t, h) n = Ret a (t, h) n /\ saved (values t) a /\ items a = values t.
Proof.
  intros K V c t h n (rs & w & i & R & S & <-). eexists. split; [apply (f_save_ok c (fun _ _ => True) w i); [exists t; exact S|eapply at_start; eassumption]|]. split; [|reflexivity].
  split; [|reflexivity]. cbn [count]. unfold values. rewrite map_length. apply (size_ok c t (hp w)). exists rs, w, i. auto.
Qed.
Print Assumptions C20_closed_addressing_save.
(** any archive, any previous contents. Only a throwing hash function can make loaded elements disappear again (during rehashing, C29) *)
Theorem C20_closed_addressing_load :
  forall (K V : Type) (c : FCfg K V) kf t h a n, in_program c t h -> N.of_nat (length (items a)) < 2 ^ 53 ->
  match f_load c kf a (t, h) n with
  | Ret r s' _ => in_program c (fst s') (snd s') /\ loaded (clashes c t) a (fst r) (values (fst s')) /\ f_pid (fst s') = f_pid t /\ f_hid (fst s') = f_hid t
  | Exn k s' _ => in_program c (fst s') (snd s') /\ (exists lost, interrupted (clashes c t) a (lost ++ values (fst s')) /\ (k <> KHash -> lost = [])) /\ exists j, throws (base c) k j = true
  | Undef => False
  end.
Proof.
  intros K V c kf t h a n (rs & w & i & R & S & <-) L. assert (there w i) as T by (exists t; exact S). pose proof (at_start c (fun _ _ => True) rs w i t R S) as A.
  pose proof (f_load_ok c (fun _ _ => True) (fun _ _ _ => Logic.I) w i kf t (hp w) a n T A L) as X. destruct (f_load c kf a (t, hp w) n) as [r s' n'|k s' n'|]; [| |exact X].
  - destruct X as (A' & Ep & Eh & X). split; [eapply at_program; eassumption|]. auto.
  - destruct X as (A' & _ & _ & Rk & X). split; [eapply at_program; eassumption|]. auto.
Qed.
Print Assumptions C20_closed_addressing_load.
(** containers with equivalent keys: no archive is bad *)
Theorem C20_equivalent_keys_are_never_rejected :
  forall (K V : Type) (c : FCfg K V) kf t h a n r s' n', multi c = true -> in_program c t h -> N.of_nat (length (items a)) < 2 ^ 53 -> f_load c kf a (t, h) n = Ret r s' n' ->
  (N.to_nat (count a) <= length (items a))%nat -> fst r = Loaded.
Proof.
  intros K V c kf t h a n r s' n' Mu H L E Lc. pose proof (C20_closed_addressing_load K V c kf t h a n H L) as X. rewrite E in X. destruct X as (_ & X & _). destruct (fst r); [reflexivity| |]; cbn [loaded] in X.
  - destruct X as (l1 & e & l2 & _ & _ & _ & Ex & _). exfalso. apply existsb_exists in Ex as (y & _ & Ey). unfold clashes in Ey. rewrite Mu in Ey. discriminate.
  - destruct X as (X & _). lia.
Qed.
Print Assumptions C20_equivalent_keys_are_never_rejected.
(** iterators saved after the container: the recorded iterator of the i-th element designates it when loading is complete, for every maximum load factor
    ([in_program_arena]: no arena allocation failed, see Properties_Fca.v C25) *)
Theorem C20_closed_addressing_tracked_positions :
  forall (K V : Type) (c : FCfg K V) kf t h a n tracked s' n', in_program_arena c t h -> N.of_nat (length (items a)) < 2 ^ 53 -> f_load c kf a (t, h) n = Ret (Loaded, tracked) s' n' ->
  Forall2 (fun it e => exists j x, nth_it (fst s') j = Some it /\ nth_error (elems (fst s')) j = Some x /\ snd x = e) tracked (firstn (N.to_nat (count a)) (items a)).
Proof.
  intros K V c kf t h a n tr s' n' (rs & w & i & R & S & <-) L E. assert (there w i) as T by (exists t; exact S). pose proof (at_start c _ rs w i t R S) as A.
  pose proof (load_tracked c w i kf t (hp w) a n T A L) as X. rewrite E in X. specialize (X eq_refl). cbn [snd] in X. clear - X. induction X as [|it e l l' (x & (j & P1 & P2) & P3) X IH]; constructor; [eauto|exact IH].
Qed.
Print Assumptions C20_closed_addressing_tracked_positions.
(** what was saved is loaded: container j of the program becomes equal to container i *)
Theorem C20_closed_addressing_round_trip :
  forall (K V : Type) (c : FCfg K V) kf rs w i j x t a n, runs c rs w -> slot w i = Some x -> slot w j = Some t -> i <> j -> f_pid x = f_pid t -> f_save x (x, hp w) n = Ret a (x, hp w) n -> f_size x < 2 ^ 53 ->
  match f_load c kf a (t, hp w) n with
  | Ret r s' _ => fst r = Loaded /\ Permutation (values (fst s')) (values x) /\
      exists rs' w', runs c rs' w' /\ slot w' i = Some x /\ slot w' j = Some (fst s') /\
      forall eeq m v w2 n2, (forall e, eeq e e = true) -> pre c (Equal i j eeq) w' -> exec c (Equal i j eeq) w' m = Ret v w2 n2 -> v = VBool true
  | Exn k _ _ => exists i, throws (base c) k i = true
  | Undef => False
  end.
Proof.
  intros K V c kf rs w i j x t a n R Hi Hj Ne Ep Es L. assert (there w j) as T by (exists t; exact Hj). pose proof (at_start c (fun _ _ => True) rs w j t R Hj) as A.
  assert (in_program c x (hp w)) as Hx by (exists rs, w, i; auto). destruct (C20_closed_addressing_save K V c x (hp w) n Hx) as (a' & Es' & Sv & Ei). rewrite Es in Es'. injection Es' as <-.
  assert (N.of_nat (length (items a)) < 2 ^ 53) as La by (rewrite Ei; unfold values; rewrite map_length, <- (size_ok c x (hp w) Hx); exact L).
  pose proof (f_load_ok c (fun _ _ => True) (fun _ _ _ => Logic.I) w j kf t (hp w) a n T A La) as X. destruct (f_load c kf a (t, hp w) n) as [r s' n'|k s' n'|]; [| |exact X].
  2:{ destruct X as (_ & _ & _ & Rk & _). exact Rk. }
  destruct X as (A' & Ep' & _ & Ld).
  assert (distinct (feqv c (f_pid t)) (items a)) as D.
  { rewrite Ei, <- Ep. apply (distinct_at c (fun _ _ => True) w i (x, hp w)); [exists x; exact Hi|eapply at_start; eassumption]. }
  assert (forall e e', feqv c (f_pid t) e e' = feqv c (f_pid t) e' e) as Sy by (apply (pid_sym c (fun _ _ => True) w j (t, hp w) T A)).
  destruct (loaded_all (feqv c (f_pid t)) Sy a (fst r) (values x) Sv D _ Ld) as [E1 P]. split; [exact E1|]. split; [exact P|].
  destruct A' as (rs' & R'). exists rs'. eexists. split; [exact R'|]. split; [|split].
  - rewrite (put_slot w j _ _ i t Hj). destruct (Nat.eqb_spec i j); [contradiction|exact Hi].
  - apply put_there. exact T.
  - intros eeq m v w2 n2 Re Pq Eq. set (w' := put_tab w j (Some (fst s')) (snd s')) in *.
    assert (slot w' i = Some x) as Hi' by (unfold w'; rewrite (put_slot w j _ _ i t Hj); destruct (Nat.eqb_spec i j); [contradiction|exact Hi]). assert (slot w' j = Some (fst s')) as Hj' by (apply put_there; exact T).
    destruct (equal_iff c rs' w' i j x (fst s') eeq m v w2 n2 R' Hi' Hj' Pq Eq) as (_ & b & -> & Hb). f_equal. apply Hb.
    pose proof (prog_inv c x (hp w) Hx) as TI. destruct (ci_agree _ _ _ (ti_c _ _ _ TI)) as [(Rf & _ & _) _]. rewrite Ep', <- Ep.
    clear - P Re Rf. unfold vals, values in P. symmetry in P. revert P. generalize (elems x) as l. generalize (elems (fst s')) as m. intros m l P.
    destruct (Permutation_map_inv _ _ P) as (m' & E & Pm). exists m'. split; [exact Pm|]. clear - E Re Rf. revert m' E. induction l as [|y l IH]; intros [|z m'] E; try discriminate E; [constructor|].
    cbn [map] in E. injection E as E1 E2. constructor; [|apply IH; exact E2]. unfold key. rewrite E1. split; [apply Rf|apply Re].
Qed.
Print Assumptions C20_closed_addressing_round_trip.

(** examples: a set with 18 elements and a multiset; an archive with a repeated key is rejected by the first and accepted by the second *)
Definition rep_archive : archive (N * N) := Archive 4 [(7, 1); (100, 2); (7, 3); (8, 4)].
Definition result_is (r : load_result) (m : nat) (x : load_result * list eit) (s : FcaModel.table N N * heap) : bool :=
  (match r, fst x with Loaded, Loaded | BadArchive, BadArchive | ReadFailed, ReadFailed => true | _, _ => false end) && Nat.eqb (length (elems (fst s))) m && Nat.eqb (length (snd x)) m.
Example C20_closed_addressing_case : in_program_arena (ecfg nothrow false false) (fst s_u) (snd s_u) /\ in_program_arena (ecfg nothrow true false) (fst s_m) (snd s_m) /\ length (elems (fst s_u)) = 18%nat /\
  returns (f_load (ecfg nothrow false false) true rep_archive s_u 0%nat) (result_is BadArchive 2) = true /\
  returns (f_load (ecfg nothrow true false) true rep_archive s_m 0%nat) (result_is Loaded 4) = true /\
  returns (f_load (ecfg nothrow false false) false (Archive 1000 [(1, 1); (2, 2)]) s_u 0%nat) (result_is ReadFailed 2) = true /\
  match f_save (fst s_u) s_u 0%nat with Ret a _ _ => returns (f_load (ecfg nothrow false false) false a s_load 0%nat) (result_is Loaded 18) = true | _ => False end.
Proof. split; [apply s_u_ok|]. split; [apply s_m_ok|]. vm_compute. repeat split; reflexivity. Qed.
