(** C19 for unordered_map, unordered_set, unordered_multimap and unordered_multiset (reading guide: Properties_Fca.v). Elements are
    (address, (key, value)); the handles of a program are those returned by extract; nodes are inserted with insert(std::move(nh)) or insert(hint,std::move(nh)). *)
From Coq Require Import NArith ZArith Bool List Arith Lia Permutation.
From Verif Require Import FoaModel FoaBase FcaLinks FcaModel FcaIter FcaTab FcaSpec FcaWorld FcaApi FcaRun FcaRun4 FcaProps FcaProps2 FcaExamples NodeFacts.
Import ListNotations.
Local Open Scope N_scope.

(** every history of containers and handles is one of FcaSpec (see the cases ExtractKey, ExtractNth, SetHandle, InsertHandle, DropHandle there) *)
Theorem C19_closed_addressing_history :
  forall (K V : Type) (c : FCfg K V) rs w, runs c rs w ->
  history (keqf (base c)) (multi c) (leftover c) (pocca (base c)) (pocma (base c)) (World [] []) rs (look_all w) /\
  NoDup (addresses (look_all w)) /\ live (hp w) = length (addresses (look_all w)).
Proof. intros K V c rs w R. split; [apply (runs_ok c _ rs w R)|apply (no_leak c rs w R)]. Qed.
Print Assumptions C19_closed_addressing_history.

(** extraction and insertion of handles neither create nor destroy nodes, and each node has one owner *)
Lemma flat_put {A B} (f : A -> list B) (l : list A) i x y : nth_error l i = Some x -> Permutation (flat_map f (set l i y) ++ f x) (flat_map f l ++ f y).
Proof. apply flat_set. Qed.
Lemma pass_on {A} (F F' G G' m m' : list A) : Permutation (F' ++ m) (F ++ m') -> Permutation (m ++ G) (m' ++ G') -> Permutation (F ++ G) (F' ++ G').
Proof.
  intros Y Z. apply (Permutation_app_inv_l m'). transitivity ((F ++ m') ++ G); [psolve|]. rewrite <- Y, <- app_assoc, Z. psolve.
Qed.
Theorem C19_closed_addressing_nodes_are_conserved :
  forall (K V : Type) (c : FCfg K V) rs w o n v w' n', runs c rs w -> pre c o w ->
  match o with ExtractKey _ _ | ExtractNth _ _ | SetHandle _ _ | InsertHandle _ _ _ => True | _ => False end ->
  exec c o w n = Ret v w' n' ->
  Permutation (addresses (look_all w)) (addresses (look_all w')) /\ NoDup (addresses (look_all w')) /\ live (hp w') = live (hp w).
Proof.
  intros K V c rs w o n v w' n' R P Ho E.
  assert (runs c (rs ++ [(o, Done v)]) w') as R' by (eapply runs_snoc; [exact R|exact P|exact I|rewrite E; split; reflexivity]).
  pose proof (exec_ok c w o n (proj1 (runs_ok c _ _ _ R)) P) as Q. rewrite E in Q. cbn [outcome] in Q. destruct Q as (_ & S & _).
  assert (Permutation (addresses (look_all w)) (addresses (look_all w'))) as X.
  2:{ split; [exact X|]. destruct (no_leak c _ _ R') as [D L']. split; [exact D|]. destruct (no_leak c _ _ R) as [_ L]. rewrite L', L. symmetry. apply Permutation_length. exact X. }
  clear E P R R'. destruct (look_all w) as [bs hs], (look_all w') as [bs' hs']. unfold is_at, put, addresses in *. unfold addresses. cbn [containers handles] in *.
  set (f := fun o : option (view K V) => match o with Some v0 => map fst (v_elems v0) | None => [] end).
  set (g := fun o : option (N * (nat * (K * V))) => match o with Some (_, x) => [fst x] | None => [] end).
  destruct o; try destruct Ho; cbn [spec] in S; unfold is_at, put in S; cbn [containers handles] in S.
  - destruct S as (q & Hq & S). destruct v; try (destruct S; fail). destruct S as [Eo S]. destruct o as [x|].
    + destruct S as (l1 & l2 & El & [= -> ->]). rewrite flat_map_app. cbn [flat_map]. rewrite ?app_nil_r.
      pose proof (flat_put f bs i (Some q) (Some (with_elems q (l1 ++ l2))) Hq) as Y. cbn [f with_elems v_elems] in Y. rewrite El, !map_app in Y. cbn [map] in Y.
      refine (pass_on _ _ _ _ _ _ Y _). cbn [g]. psolve.
    + injection S as -> ->. rewrite flat_map_app. cbn [flat_map g]. rewrite !app_nil_r. reflexivity.
  - destruct S as (q & x & l1 & l2 & Hq & _ & _ & El & [= -> ->]). rewrite flat_map_app. cbn [flat_map]. rewrite ?app_nil_r.
    pose proof (flat_put f bs i (Some q) (Some (with_elems q (l1 ++ l2))) Hq) as Y. cbn [f with_elems v_elems] in Y. rewrite El, !map_app in Y. cbn [map] in Y.
    refine (pass_on _ _ _ _ _ _ Y _). cbn [g]. psolve.
  - destruct S as (al & x & Hx & _ & [= -> ->]). apply Permutation_app_head. pose proof (flat_put g hs h (Some (al, x)) (Some (al, (fst x, e))) Hx) as Y. cbn [g fst] in Y.
    apply Permutation_app_inv_r in Y. symmetry. exact Y.
  - destruct S as (q & Hq & S). destruct (nth_error hs h) as [[[al x]|]|] eqn:Eh; [|destruct S as [_ [= -> ->]]; reflexivity|destruct S].
    destruct v; try (destruct S; fail). destruct (if multi c then None else _) as [z|]; [destruct S as (_ & _ & [= -> ->]); reflexivity|].
    destruct S as (_ & _ & l & Pm & _ & [= -> ->]).
    pose proof (flat_put f bs i (Some q) (Some (with_elems q l)) Hq) as Y. pose proof (flat_put g hs h (Some (al, x)) None Eh) as Z. cbn [f g with_elems v_elems] in Y, Z. rewrite app_nil_r in Z.
    refine (pass_on _ _ _ _ _ _ Y _). rewrite (Permutation_map fst Pm). cbn [map]. rewrite <- Z. psolve.
Qed.
Print Assumptions C19_closed_addressing_nodes_are_conserved.
(** insert(std::move(nh)) and insert(hint,std::move(nh)) *)
Theorem C19_closed_addressing_insert_node_handle :
  forall (K V : Type) (c : FCfg K V) rs w i h hint t o n, runs c rs w -> pre c (InsertHandle i h hint) w -> slot w i = Some t -> nth_error (hands w) h = Some o ->
  match exec c (InsertHandle i h hint) w n with
  | Ret v w' _ =>
      match o with
      | None => v = VFound None /\ look_all w' = look_all w
      | Some x =>
          match (if multi c then None else List.find (fun y => keqf (base c) (f_pid t) (fst (nd_kv x)) (key y)) (elems t)) with
          | Some y => v = VIns y false /\ look_all w' = look_all w                     (* the handle keeps its node *)
          | None => v = VIns (el x) true /\ exists t', slot w' i = Some t' /\ nth_error (hands w') h = Some None /\ Permutation (elems t') (el x :: elems t) /\
              (forall j, j <> i -> nth_error (containers (look_all w')) j = nth_error (containers (look_all w)) j) /\
              (forall j, j <> h -> nth_error (handles (look_all w')) j = nth_error (handles (look_all w)) j)
          end
      end
  | Exn k w' _ => handles (look_all w') = handles (look_all w) /\
      exists t', slot w' i = Some t' /\ exists lost, Permutation (elems t) (lost ++ elems t') /\ (lost = [] \/ k = KHash)
  | Undef => False
  end.
Proof.
  intros K V c rs w i h hint t o n R P Ht Hh. pose proof (exec_ok c w _ n (proj1 (runs_ok c _ _ _ R)) P) as Q.
  assert (forall w' : @mworld K V, forall q, is_at (look_all w') i q -> exists t', slot w' i = Some t' /\ q = look t') as Sl.
  { intros w' q A. unfold is_at, look_all in A. cbn [containers] in A. rewrite nth_error_map in A. unfold slot. destruct (nth_error (tabs w') i) as [[t'|]|]; cbn in A; try discriminate.
    exists t'. injection A as <-. auto. }
  assert (nth_error (handles (look_all w)) h = Some (option_map (fun x => (nd_al x, el x)) o)) as Hl by (unfold look_all; cbn [handles]; rewrite nth_error_map, Hh; reflexivity).
  assert (forall A (l : list A) a x j, nth_error l a <> None -> nth_error (set l a x) j = if Nat.eqb j a then Some x else nth_error l j) as Se.
  { intros A l a x j L. apply nth_error_Some in L. apply (FoaRun.set_err l a x j L). }
  assert (nth_error (containers (look_all w)) i <> None) as Li by (pose proof (look_at w i t Ht) as A; unfold is_at in A; rewrite A; discriminate).
  destruct (exec c (InsertHandle i h hint) w n) as [v w' n'|k w' n'|]; cbn [outcome] in Q; [| |exact Q].
  - destruct Q as (_ & S & _). cbn [spec] in S. destruct S as (q & Hq & S). destruct (Sl w q Hq) as (t0 & Ht0 & ->). rewrite Ht in Ht0. injection Ht0 as <-. rewrite Hl in S. destruct o as [x|]; cbn [option_map] in S.
    + destruct v; try (destruct S; fail). unfold lookup, has, key in S. change (fst (snd (el x))) with (fst (nd_kv x)) in S. change (v_elems (look t)) with (elems t) in S. change (v_pred (look t)) with (f_pid t) in S. unfold key.
      destruct (if multi c then None else _) as [z|]; [destruct S as (-> & -> & ->); auto|]. destruct S as (-> & -> & l & Pm & _ & Ew). split; [reflexivity|].
      destruct (Sl w' (with_elems (look t) l)) as (t' & Ht' & Et').
      { unfold is_at. rewrite Ew. cbn [containers]. rewrite Se, Nat.eqb_refl by exact Li. reflexivity. }
      exists t'. split; [exact Ht'|]. split.
      * assert (nth_error (handles (look_all w')) h = Some None) as A by (rewrite Ew; cbn [handles]; rewrite Se, Nat.eqb_refl by (rewrite Hl; discriminate); reflexivity).
        unfold look_all in A. cbn [handles] in A. rewrite nth_error_map in A. destruct (nth_error (hands w') h) as [[y|]|]; cbn in A; try discriminate. reflexivity.
      * unfold elems. rewrite <- Et'. cbn [with_elems v_elems]. split; [exact Pm|]. rewrite Ew. cbn [containers handles]. split; intros j Hj; apply Nat.eqb_neq in Hj; rewrite Se, Hj by (rewrite ?Hl; first [exact Li|discriminate]); reflexivity.
    + destruct S as ([= ->] & ->). auto.
  - destruct Q as (_ & _ & S & _). cbn [spec] in S. destruct S as (q & Hq & S). destruct (Sl w q Hq) as (t0 & Ht0 & ->). rewrite Ht in Ht0. injection Ht0 as <-. rewrite Hl in S. destruct o as [x|]; cbn [option_map] in S; [|destruct S; discriminate].
    destruct S as (l & lost & Pm & Lo & Ew). split; [rewrite Ew; reflexivity|].
    destruct (Sl w' (with_elems (look t) l)) as (t' & Ht' & Et').
    { unfold is_at. rewrite Ew. cbn [put containers]. rewrite Se, Nat.eqb_refl by exact Li. reflexivity. }
    exists t'. split; [exact Ht'|]. exists lost. unfold elems. rewrite <- Et'. auto.
Qed.
Print Assumptions C19_closed_addressing_insert_node_handle.
(** two containers, two extracted nodes: inserting the first fails (key 5 is present), inserting the second succeeds *)
Definition ops_h : list (op N N) := New 0 0 0 0 :: New 0 0 0 0 :: ins 0 (seq 0 16) ++ ins 1 [5; 6]%nat ++ [ExtractKey 0 5; ExtractKey 0 3; ExtractKey 0 77].
Definition w_h : @mworld N N := Eval vm_compute in w_of nothrow false false true ops_h.
Example C19_closed_addressing_example :
  (exists rs, runs (ecfg nothrow false false) rs w_h) /\ pre (ecfg nothrow false false) (InsertHandle 1 0 None) w_h /\ pre (ecfg nothrow false false) (InsertHandle 1 1 None) w_h /\
  (exists y w' n', exec (ecfg nothrow false false) (InsertHandle 1 0 None) w_h 0%nat = Ret (VIns y false) w' n' /\ snd y = (5, 105)) /\
  (exists y w' n', exec (ecfg nothrow false false) (InsertHandle 1 1 None) w_h 0%nat = Ret (VIns y true) w' n' /\ snd y = (3, 103)).
Proof.
  split.
  { assert (check nothrow false false true ops_h start 0%nat = Some w_h) as E by vm_cast_no_check (eq_refl (Some w_h)).
    destruct (check_runs nothrow false false true ops_h start 0%nat w_h [] E (runs_nil _ _)) as (rs & R). exists rs. eapply runs_weaken; [|exact R]. cbn. auto. }
  split; [apply preb_ok; vm_compute; reflexivity|]. split; [apply preb_ok; vm_compute; reflexivity|].
  split; eexists _, _, _; (split; [vm_compute; reflexivity|reflexivity]).
Qed.
