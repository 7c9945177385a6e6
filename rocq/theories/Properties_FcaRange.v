(** C45 for closed addressing: ranges, initializer lists, hints (unordered_map, unordered_set, unordered_multimap, unordered_multiset).
    [in_program c t h]: t is a container of a program, h the heap at that moment. [elems t]: address and value of each element, in iteration order. *)
From Coq Require Import NArith ZArith Bool List Arith Lia Permutation.
From Verif Require Import FloatModel HashArithModel FoaModel FoaBase FcaLinks FcaModel FcaIter FcaInv FcaTab FcaRehash FcaOps FcaSpec FcaWorld FcaRun FcaRun4 FcaProps FcaProps2 FcaExamples.
Import ListNotations.
Local Open Scope nat_scope.

Section P.
Context {K V : Type} (c : FCfg K V).
Notation table := (FcaModel.table K V).
Notation St := (table * heap)%type.
Notation eqk := (keqf (base c)).
(** the values of the elements with keys equivalent to k *)
Definition values_of (t : table) (k : K) : list (K * V) := map snd (filter (fun x => eqk (f_pid t) k (fst (snd x))) (elems t)).
Definition with_key (p : N) (k : K) (es : list (K * V)) : list (K * V) := filter (fun e => eqk p k (fst e)) es.
Definition first (l : list (K * V)) : list (K * V) := firstn 1 l.
(** insert(e) for the successive elements e of a list *)
Fixpoint one_by_one (kf : bool) (es : list (K * V)) : M St unit :=
  match es with [] => ret tt | e :: r => bind (exec1 c (Insert kf e)) (fun _ => one_by_one kf r) end.

Lemma eqv t h : in_program c t h -> (forall x y, eqk (f_pid t) x y = eqk (f_pid t) y x) /\ (forall x y z, eqk (f_pid t) x y = true -> eqk (f_pid t) y z = true -> eqk (f_pid t) x z = true).
Proof.
  intros H. destruct (prog_inv c t h H) as [I _]. destruct (ci_agree _ _ _ I) as [(_ & Sy & Tr) _]. split; [exact Sy|exact Tr].
Qed.
Lemma filter_perm {A} (f : A -> bool) l l' : Permutation l l' -> Permutation (filter f l) (filter f l').
Proof.
  induction 1; cbn [filter]; [constructor|destruct (f x); [constructor|]; assumption| |etransitivity; eassumption].
  destruct (f x), (f y); try reflexivity. constructor.
Qed.
Lemma filter_map_snd (p : N) k (l : list (nat * (K * V))) : map snd (filter (fun x => eqk p k (fst (snd x))) l) = with_key p k (map snd l).
Proof. induction l as [|a l IH]; [reflexivity|]. cbn [filter map with_key]. unfold with_key in *. cbn [filter]. destruct (eqk p k (fst (snd a))); cbn [map]; rewrite IH; reflexivity. Qed.
Lemma with_key_app p k a b : with_key p k (a ++ b) = with_key p k a ++ with_key p k b. Proof. apply filter_app. Qed.
(** what [added] adds, key by key *)
Lemma added_multi p (es : list (K * V)) : multi c = true -> forall ks, FcaSpec.added eqk (multi c) p ks es = es.
Proof. intros E. induction es as [|e es IH]; intros ks; [reflexivity|]. cbn [FcaSpec.added]. rewrite E in *. cbn [negb andb]. rewrite IH. reflexivity. Qed.
Section A.
Variable p : N.
Hypothesis Sy : forall x y, eqk p x y = eqk p y x.
Hypothesis Tr : forall x y z, eqk p x y = true -> eqk p y z = true -> eqk p x z = true.
Lemma added_there k (es : list (K * V)) : multi c = false -> forall ks, existsb (eqk p k) ks = true -> with_key p k (FcaSpec.added eqk (multi c) p ks es) = [].
Proof.
  intros E. induction es as [|e es IH]; intros ks Hk; [reflexivity|]. cbn [FcaSpec.added]. rewrite E in *. cbn [negb andb]. destruct (existsb (eqk p (fst e)) ks) eqn:X; [apply IH; exact Hk|].
  unfold with_key. cbn [filter]. destruct (eqk p k (fst e)) eqn:Y.
  - exfalso. apply existsb_exists in Hk as (z & Iz & Ez). assert (existsb (eqk p (fst e)) ks = true) as W; [|congruence]. apply existsb_exists. exists z. split; [exact Iz|]. apply (Tr _ k); [rewrite Sy; exact Y|exact Ez].
  - apply IH. cbn [existsb]. rewrite Hk, orb_true_r. reflexivity.
Qed.
Lemma added_absent k (es : list (K * V)) : multi c = false -> forall ks, existsb (eqk p k) ks = false -> with_key p k (FcaSpec.added eqk (multi c) p ks es) = first (with_key p k es).
Proof.
  intros E. induction es as [|e es IH]; intros ks Hk; [reflexivity|]. cbn [FcaSpec.added]. destruct (negb (multi c) && existsb (eqk p (fst e)) ks) eqn:X.
  - rewrite IH by exact Hk. unfold with_key at 2. cbn [filter]. destruct (eqk p k (fst e)) eqn:Y; [|reflexivity]. exfalso. rewrite E in X. cbn [negb andb] in X. apply existsb_exists in X as (z & Iz & Ez).
    assert (existsb (eqk p k) ks = true) as W; [|congruence]. apply existsb_exists. exists z. split; [exact Iz|]. apply (Tr _ (fst e)); assumption.
  - unfold with_key at 1 2. cbn [filter]. destruct (eqk p k (fst e)) eqn:Y.
    + cbn [first firstn]. f_equal. apply added_there; [exact E|]. cbn [existsb]. rewrite Y. reflexivity.
    + apply IH. cbn [existsb]. rewrite Y, Hk. reflexivity.
Qed.
End A.
Lemma existsb_keys p k (l : list (nat * (K * V))) : existsb (eqk p k) (map key l) = match with_key p k (map snd l) with [] => false | _ => true end.
Proof. induction l as [|a l IH]; [reflexivity|]. cbn [map existsb]. unfold with_key in *. cbn [filter]. unfold key at 1. destruct (eqk p k (fst (snd a))); [reflexivity|exact IH]. Qed.

(** insert(first,last), insert(il): with unique keys the first element of the range with a key is inserted if there was none in the container; with equivalent keys, all are *)
Theorem C45_fca_range : forall t h fwd es n v s' n', in_program c t h -> pre1 c (InsertRange fwd es) t -> exec1 c (InsertRange fwd es) (t, h) n = Ret v s' n' ->
  forall k, if multi c then Permutation (values_of (fst s') k) (values_of t k ++ with_key (f_pid t) k es)
    else values_of (fst s') k = match values_of t k with [] => first (with_key (f_pid t) k es) | l => l end.
Proof.
  intros t h fwd es n v s' n' H P E k. pose proof (step1 c t h _ n H P) as Q. rewrite E in Q. destruct Q as (H' & Q & Pp & _). cbn [spec1] in Q. destruct v; try destruct Q. rename H0 into Q.
  destruct Q as (Mx & _ & Pm). unfold values_of. rewrite Pp, !filter_map_snd.
  assert (Permutation (with_key (f_pid t) k (map snd (elems (fst s')))) (with_key (f_pid t) k (FcaSpec.added eqk (multi c) (f_pid t) (map key (elems t)) es) ++ with_key (f_pid t) k (map snd (elems t)))) as W.
  { rewrite <- Mx, <- with_key_app, <- map_app. apply filter_perm, Permutation_map, Pm. }
  destruct (eqv t h H) as [Sy Tr]. destruct (multi c) eqn:Mu.
  - rewrite <- Mu in W. rewrite (added_multi _ _ Mu) in W. rewrite W. apply Permutation_app_comm.
  - rewrite <- Mu in W. pose proof (existsb_keys (f_pid t) k (elems t)) as X. destruct (with_key (f_pid t) k (map snd (elems t))) as [|a l] eqn:Y.
    + rewrite (added_absent _ Sy Tr k es Mu _ X), app_nil_r in W. destruct (with_key (f_pid t) k es) as [|b m]; cbn [first firstn] in *.
      * apply Permutation_sym, Permutation_nil in W. exact W.
      * apply Permutation_sym, Permutation_length_1_inv in W. exact W.
    + rewrite (added_there _ Sy Tr k es Mu _ X) in W. cbn [app] in W.
      assert (l = []) as ->; [|apply Permutation_sym, Permutation_length_1_inv in W; exact W].
      pose proof (unique_keys c t h H Mu) as U. rewrite <- filter_map_snd in Y. clear - U Y Sy Tr. revert a l Y. induction (elems t) as [|x r IH]; intros a l Y; [discriminate Y|].
      inversion U as [|? ? F U']; subst. cbn [filter] in Y. destruct (eqk (f_pid t) k (fst (snd x))) eqn:X; [|apply (IH U' a l Y)]. cbn [map] in Y. injection Y as _ Y. destruct l as [|b l]; [reflexivity|]. exfalso.
      assert (In b (map snd (filter (fun x0 => eqk (f_pid t) k (fst (snd x0))) r))) as Ib by (rewrite Y; left; reflexivity). apply in_map_iff in Ib as (z & <- & Iz). apply filter_In in Iz as [Iz Ez].
      rewrite Forall_forall in F. pose proof (F z Iz) as G. unfold key in G. cbn in G. assert (eqk (f_pid t) (fst (snd x)) (fst (snd z)) = true) as G'; [apply (Tr _ k); [rewrite Sy; exact X|exact Ez]|congruence].
Qed.

(** operator=(il): nothing else is in the container afterwards *)
Theorem C45_fca_assign_list : forall t h es n v s' n', in_program c t h -> pre1 c (AssignList es) t -> exec1 c (AssignList es) (t, h) n = Ret v s' n' ->
  if multi c then Permutation (map snd (elems (fst s'))) es
  else forall k, values_of (fst s') k = first (with_key (f_pid t) k es).
Proof.
  intros t h es n v s' n' H P E. pose proof (step1 c t h _ n H P) as Q. rewrite E in Q. destruct Q as (H' & Q & Pp & _). cbn [spec1] in Q. destruct v; try destruct Q. rename H0 into Q.
  destruct Q as (Mx & Pm). destruct (eqv t h H) as [Sy Tr]. destruct (multi c) eqn:Mu.
  - rewrite <- Mu in Mx. rewrite (added_multi _ _ Mu) in Mx. rewrite <- Mx. apply Permutation_map, Pm.
  - intros k. unfold values_of. rewrite Pp, filter_map_snd. rewrite <- Mu in Mx.
    assert (Permutation (with_key (f_pid t) k (map snd (elems (fst s')))) (first (with_key (f_pid t) k es))) as W.
    { rewrite <- (added_absent _ Sy Tr k es Mu [] eq_refl), <- Mx. apply filter_perm, Permutation_map, Pm. }
    destruct (with_key (f_pid t) k es) as [|b m]; cbn [first firstn] in *; [apply Permutation_sym, Permutation_nil in W; exact W|apply Permutation_sym, Permutation_length_1_inv in W; exact W].
Qed.

(** a range equals its elements one after another: the same values are in the container *)
Lemma one_ok kf es : forall t h n u s' n', in_program c t h -> pre1 c (InsertRange true es) t -> one_by_one kf es (t, h) n = Ret u s' n' ->
  exists xs, map snd xs = FcaSpec.added eqk (multi c) (f_pid t) (map key (elems t)) es /\ Permutation (elems (fst s')) (xs ++ elems t).
Proof.
  induction es as [|e es IH]; intros t h n u s' n' H P E.
  - cbn [one_by_one] in E. unfold ret in E. injection E as _ <- _. exists []. split; [reflexivity|apply Permutation_refl].
  - cbn [one_by_one] in E. unfold bind in E. pose proof (step1 c t h (Insert kf e) n H) as Q.
    assert (pre1 c (Insert kf e) t) as P1. { cbn [pre1] in P |- *. unfold FcaWorld.room in *. cbn [length] in P. lia. }
    specialize (Q P1). destruct (exec1 c (Insert kf e) (t, h) n) as [v s1 n1|k s1 n1|]; [|discriminate E|discriminate E]. destruct Q as (H1 & Q & Pp & _). cbn [spec1] in Q. destruct v; try destruct Q.
    destruct s1 as [t1 h1]. cbn [fst snd] in *. unfold inserted in Q. unfold FcaSpec.lookup in Q.
    assert (existsb (eqk (f_pid t) (fst e)) (map key (elems t)) = match List.find (FcaSpec.has eqk (f_pid t) (fst e)) (elems t) with Some _ => true | None => false end) as X.
    { clear. induction (elems t) as [|a l IH]; [reflexivity|]. cbn [map existsb List.find]. unfold FcaSpec.has at 1. destruct (eqk (f_pid t) (fst e) (key a)); [reflexivity|exact IH]. }
    cbn [FcaSpec.added]. rewrite X. pose proof (size_ok c t h H) as Sz. pose proof (size_ok c t1 h1 H1) as Sz1. cbn [pre1] in P. unfold FcaWorld.room in P. cbn [length] in P.
    destruct (if multi c then None else List.find (FcaSpec.has eqk (f_pid t) (fst e)) (elems t)) as [y|] eqn:D.
    + destruct Q as (_ & _ & El). assert (pre1 c (InsertRange true es) t1) as P2. { cbn [pre1]. unfold FcaWorld.room. rewrite El, <- Sz in Sz1. rewrite Sz1. clear - P. lia. }
      destruct (IH t1 h1 n1 u s' n' H1 P2 E) as (xs & Mx & Pm). rewrite Pp, El in Mx. rewrite El in Pm. exists xs. destruct (multi c); [discriminate D|]. rewrite D. cbn [negb andb]. split; [exact Mx|exact Pm].
    + destruct Q as (Ev & _ & _ & Px). assert (pre1 c (InsertRange true es) t1) as P2.
      { cbn [pre1]. unfold FcaWorld.room. rewrite (Permutation_length Px) in Sz1. cbn [length] in Sz1. rewrite Sz1. clear - P Sz. lia. }
      destruct (IH t1 h1 n1 u s' n' H1 P2 E) as (xs & Mx & Pm). rewrite Pp in Mx.
      assert (negb (multi c) && match List.find (FcaSpec.has eqk (f_pid t) (fst e)) (elems t) with Some _ => true | None => false end = false) as -> by (destruct (multi c); [reflexivity|rewrite D; reflexivity]).
      exists (x :: xs). split.
      * cbn [map]. rewrite Ev. f_equal. rewrite Mx. clear - Px Ev. revert es.
        assert (forall ks ks', (forall k, existsb (eqk (f_pid t) k) ks = existsb (eqk (f_pid t) k) ks') -> forall es, FcaSpec.added eqk (multi c) (f_pid t) ks es = FcaSpec.added (V := V) eqk (multi c) (f_pid t) ks' es) as G.
        { intros ks ks' Hk es. revert ks ks' Hk. induction es as [|a es IH]; intros ks ks' Hk; [reflexivity|]. cbn [FcaSpec.added]. rewrite (Hk (fst a)). destruct (negb (multi c) && existsb (eqk (f_pid t) (fst a)) ks'); [apply IH; exact Hk|].
          f_equal. apply IH. intros k. cbn [existsb]. rewrite Hk. reflexivity. }
        intros es. apply G. intros k. replace (fst e :: map key (elems t)) with (map key (x :: elems t)) by (cbn [map]; unfold key at 1; rewrite Ev; reflexivity). clear - Px.
        induction Px; cbn [map existsb]; [reflexivity|rewrite IHPx; reflexivity|rewrite !orb_assoc, (orb_comm (eqk (f_pid t) k (key y))); reflexivity|congruence].
      * rewrite Pm. rewrite Px. cbn [app]. apply Permutation_sym, Permutation_middle.
Qed.
Theorem C45_fca_range_is_one_by_one : forall t h fwd kf es n v s1 n1 m u s2 n2, in_program c t h -> pre1 c (InsertRange fwd es) t ->
  exec1 c (InsertRange fwd es) (t, h) n = Ret v s1 n1 -> one_by_one kf es (t, h) m = Ret u s2 n2 -> Permutation (map snd (elems (fst s1))) (map snd (elems (fst s2))).
Proof.
  intros t h fwd kf es n v s1 n1 m u s2 n2 H P E1 E2. pose proof (step1 c t h _ n H P) as Q. rewrite E1 in Q. destruct Q as (_ & Q & _). cbn [spec1] in Q. destruct v; try destruct Q. rename H0 into Q.
  destruct Q as (Mx & _ & Pm). destruct (one_ok kf es t h m u s2 n2 H P E2) as (ys & My & Pn). rewrite Pm, Pn, !map_app, Mx, My. apply Permutation_refl.
Qed.

(** a hint, of any quality, changes neither the values in the container nor the value the result designates. With unique keys and the key present: nothing changes, and the result is
    the element that is there *)
Theorem C45_fca_hint_does_not_matter : forall t h kf m e n v s1 n1 j r s2 n2, in_program c t h -> pre1 c (InsertHint kf m e) t ->
  exec1 c (InsertHint kf m e) (t, h) n = Ret v s1 n1 -> exec1 c (Insert kf e) (t, h) j = Ret r s2 n2 ->
  exists x y b, v = VFound (Some x) /\ r = VIns y b /\ snd x = snd y /\ Permutation (map snd (elems (fst s1))) (map snd (elems (fst s2))) /\
    (b = false -> x = y /\ elems (fst s1) = elems t /\ elems (fst s2) = elems t).
Proof.
  intros t h kf m e n v s1 n1 j r s2 n2 H P E1 E2. pose proof (step1 c t h _ n H P) as Q. rewrite E1 in Q. destruct Q as (_ & Q & _).
  pose proof (step1 c t h (Insert kf e) j H (proj1 P)) as Q2. rewrite E2 in Q2. destruct Q2 as (_ & Q2 & _). cbn [spec1] in Q, Q2.
  destruct v as [| | | |[x|]| | | |]; try (exfalso; exact Q). destruct r as [|y b| | | | | | |]; try (exfalso; exact Q2). destruct Q as [(b1 & B1) _]. exists x, y, b. split; [reflexivity|]. split; [reflexivity|].
  unfold inserted in B1, Q2. destruct (if multi c then None else FcaSpec.lookup eqk (f_pid t) (fst e) (elems t)) as [z|].
  - destruct B1 as (-> & _ & B1), Q2 as (-> & _ & B2). rewrite B1, B2. split; [reflexivity|]. split; [apply Permutation_refl|]. intros _. split; [reflexivity|]. split; [reflexivity|]. reflexivity.
  - destruct B1 as (Ex & _ & _ & B1), Q2 as (Ey & -> & _ & B2). split; [congruence|]. split; [rewrite B1, B2; cbn [map]; rewrite Ex, Ey; apply Permutation_refl|]. intros D. discriminate D.
Qed.
End P.
Print Assumptions C45_fca_range.
Print Assumptions C45_fca_assign_list.
Print Assumptions C45_fca_range_is_one_by_one.
Print Assumptions C45_fca_hint_does_not_matter.

(** a container with unique keys and one with equivalent keys *)
Definition some_range : list (N * N) := [(100, 1); (5, 2); (100, 3); (101, 4)]%N.
Definition vals {A} (r : R (FcaModel.table N N * heap) A) (k : N) (c : FCfg N N) : option (list (N * N)) := match r with Ret _ s _ => Some (values_of c (fst s) k) | _ => None end.
Notation cu := (ecfg nothrow false false).
Notation cm := (ecfg nothrow true false).
Example C45_fca_cases : in_program cu (fst s_u) (snd s_u) /\ in_program cm (fst s_m) (snd s_m) /\ pre1 cu (InsertRange true some_range) (fst s_u) /\ pre1 cm (InsertRange true some_range) (fst s_m) /\
  map (fun k => vals (exec1 cu (InsertRange true some_range) s_u 0) k cu) [5; 100; 101]%N = [Some (values_of cu (fst s_u) 5); Some [(100, 1)]; Some [(101, 4)]]%N /\
  vals (exec1 cm (InsertRange true some_range) s_m 0) 100 cm = Some [(100, 1); (100, 3)]%N /\
  vals (exec1 cm (AssignList some_range) s_m 0) 5 cm = Some [(5, 2)]%N /\ vals (exec1 cu (AssignList some_range) s_u 0) 100 cu = Some [(100, 1)]%N /\
  vals (one_by_one cu true some_range s_u 0) 100 cu = Some [(100, 1)]%N /\ vals (one_by_one cm false some_range s_m 0) 100 cm = Some [(100, 1); (100, 3)]%N /\
  vals (exec1 cu (InsertHint true 3 (100, 7)%N) s_u 0) 100 cu = Some [(100, 7)]%N.
Proof.
  split; [apply arena_program, s_u_ok|]. split; [apply arena_program, s_m_ok|]. split; [vm_compute; reflexivity|]. split; [vm_compute; reflexivity|]. vm_compute. repeat split; reflexivity.
Qed.
