(** Calls of user-supplied functions by the closed-addressing containers: insertion of ranges, assignment of initializer lists. *)
From Coq Require Import NArith ZArith Bool List Arith Lia Permutation.
From Verif Require Import FloatModel HashArithModel FoaModel FoaBase FcaLinks FcaModel FcaIter FcaInv FcaTab FcaRehash FcaOps FcaIns FcaIns2 FcaHandle FcaErase FcaErase2 FcaCopy FcaMove FcaMerge FcaSpec FcaWorld CallSpec FoaCalls FoaCalls2 FcaCalls FcaCalls2 FcaCalls3 FcaCalls4.
Import ListNotations.
Local Open Scope nat_scope.
Local Open Scope m_scope.
Section C.
Context {K V : Type} (c : FCfg K V).
Notation node := (node K V).
Notation table := (FcaModel.table K V).
Notation cb := (base c).
Notation St := (table * heap)%type.
Lemma cp_grow_for_one h itb s n : Cp (grow_for_one c h itb s n) n (2 + nn (fst s)) (fun _ s' => nn (fst s') <= nn (fst s)).
Proof.
  unfold grow_for_one. apply cp_get_t. destruct (N.ltb _ _); [|eapply cp_le; [apply (cp_ret itb s n (fun _ s' => nn (fst s') <= nn (fst s))); lia|lia|auto]].
  eapply cp_le; [eapply (cp_bind _ _ _ _ _ 0); [apply cp_reserve|]|lia|exact (fun _ _ H => H)]. cbn beta. intros _ s1 n1 L. apply cp_get_t.
  destruct (at_hash _ _); [apply cp_ret; exact L|split; exact I].
Qed.
Lemma cp_grow_insert x h itb s n : Cp (grow_insert c x h itb s n) n (2 + nn (fst s)) (fun _ s' => nn (fst s') <= S (nn (fst s))).
Proof.
  unfold grow_insert. eapply cp_le; [eapply (cp_bind _ _ _ _ _ 0); [apply cp_grow_for_one|]|lia|exact (fun _ _ H => H)]. cbn beta. intros b s1 n1 L.
  eapply cp_bind0; [apply cp_link; intros b0 b'; apply insert_nb|]. cbn beta. intros _ s2 n2 E2. eapply cp_bind0; [apply cp_inc|]. cbn beta. intros _ s3 n3 E3. apply cp_ret. lia.
Qed.
Lemma cp_delete_node x s n : Cp (@delete_node K V x s n) n 0 (fun _ s' => fst s' = fst s).
Proof. unfold delete_node. rewrite bind_get. destruct (_ && _); [|split; exact I]. split; [unfold mod_h, modify; cbn; lia|reflexivity]. Qed.
Lemma cp_nokey kd e s n : Cp (emplace_unique_nokey c kd e s n) n (5 + 2 * nn (fst s)) (fun _ s' => nn (fst s') <= S (nn (fst s))).
Proof.
  unfold emplace_unique_nokey. eapply (cp_le _ _ (2 + (3 + 2 * nn (fst s)))); [|lia|exact (fun _ _ H => H)]. eapply cp_bind; [apply cp_new_node|]. cbn beta. intros x s1 n1 E1. rewrite <- E1.
  apply cp_on_exn; [|apply nc_delete_node]. apply cp_get_t.
  eapply (cp_le _ _ (1 + (nn (fst s1) + (2 + nn (fst s1))))); [|lia|exact (fun _ _ H => H)].
  eapply cp_bind; [apply cp_hash|]. cbn beta. intros h s2 n2 ->. apply cp_opt. intros itb _. eapply cp_bind; [apply cp_find_impl|]. cbn beta. intros r s3 n3 ->. destruct r as [i|].
  - eapply cp_le; [eapply cp_bind0; [apply cp_delete_node|]|apply Nat.le_0_l|exact (fun _ _ H => H)]. cbn beta. intros _ s4 n4 E4. apply cp_ret. rewrite E4. lia.
  - eapply cp_le; [eapply (cp_bind _ _ _ _ _ 0); [apply cp_grow_insert|]|lia|exact (fun _ _ H => H)]. cbn beta. intros it s4 n4 E4. apply cp_ret. exact E4.
Qed.
Lemma cp_emplace_equiv x s n : Cp (emplace_equiv c x s n) n (3 + 2 * nn (fst s)) (fun _ s' => nn (fst s') <= S (nn (fst s))).
Proof.
  unfold emplace_equiv. apply cp_on_exn; [|apply nc_delete_node]. apply cp_get_t.
  eapply (cp_le _ _ (1 + (nn (fst s) + (2 + nn (fst s) + 0)))); [|lia|exact (fun _ _ H => H)].
  eapply cp_bind; [apply cp_hash|]. cbn beta. intros h s2 n2 ->. apply cp_opt. intros itb _. eapply cp_bind; [apply cp_find_impl|]. cbn beta. intros r s3 n3 ->.
  eapply cp_bind; [apply cp_grow_for_one|]. cbn beta. intros b s4 n4 L.
  eapply cp_bind0; [apply cp_link; intros b0 b'; apply insert_hint_nb|]. cbn beta. intros _ s5 n5 E2. eapply cp_bind0; [apply cp_inc|]. cbn beta. intros _ s6 n6 E3. apply cp_ret. lia.
Qed.
Lemma cp_no_rehash x s n : Cp (emplace_no_rehash_equiv c x s n) n (1 + nn (fst s)) (fun _ s' => nn (fst s') <= S (nn (fst s))).
Proof.
  unfold emplace_no_rehash_equiv. apply cp_on_exn; [|apply nc_delete_node]. apply cp_get_t.
  eapply (cp_le _ _ (1 + (nn (fst s) + 0))); [|lia|exact (fun _ _ H => H)].
  eapply cp_bind; [apply cp_hash|]. cbn beta. intros h s2 n2 ->. apply cp_opt. intros itb _. eapply cp_bind; [apply cp_find_impl|]. cbn beta. intros r s3 n3 ->.
  eapply cp_bind0; [apply cp_link; intros b0 b'; apply insert_hint_nb|]. cbn beta. intros _ s5 n5 E2. eapply cp_le; [apply cp_inc|lia|]. cbn beta. intros _ s6 E3. lia.
Qed.
Lemma range_unique_calls l : forall s n m, nn (fst s) + length l <= m -> calls (insert_range_unique c l s n) n (length l * (5 + 2 * m)).
Proof.
  induction l as [|e l IH]; intros s n m L; cbn [insert_range_unique length Nat.mul]; [apply calls_ret|]. cbn [length] in L.
  apply (proj1 (B := match insert_range_unique c (e :: l) s n with Ret _ _ _ => True | _ => True end)). 
  eapply (cp_le _ _ (5 + 2 * nn (fst s) + length l * (5 + 2 * m))); [eapply cp_bind; [apply cp_nokey|]|nia|exact (fun _ _ H => H)].
  cbn beta. intros _ s1 n1 E1. apply cp_calls, IH. lia.
Qed.
Lemma each_equiv_calls l : forall s n m, nn (fst s) + length l <= m -> calls (insert_each_equiv c l s n) n (length l * (5 + 2 * m)).
Proof.
  induction l as [|e l IH]; intros s n m L; cbn [insert_each_equiv length Nat.mul]; [apply calls_ret|]. cbn [length] in L.
  apply (proj1 (B := match insert_each_equiv c (e :: l) s n with Ret _ _ _ => True | _ => True end)). 
  eapply (cp_le _ _ (2 + (3 + 2 * nn (fst s) + length l * (5 + 2 * m)))); [eapply cp_bind; [apply cp_new_node|]|nia|exact (fun _ _ H => H)].
  cbn beta. intros x s0 n0 E0. rewrite <- E0. eapply cp_bind; [apply cp_emplace_equiv|]. cbn beta. intros _ s1 n1 E1. apply cp_calls, IH. rewrite E0 in E1. lia.
Qed.
Lemma no_rehash_calls l : forall s n m, nn (fst s) + length l <= m -> calls (insert_no_rehash c l s n) n (length l * (3 + m)).
Proof.
  induction l as [|e l IH]; intros s n m L; cbn [insert_no_rehash length Nat.mul]; [apply calls_ret|]. cbn [length] in L.
  apply (proj1 (B := match insert_no_rehash c (e :: l) s n with Ret _ _ _ => True | _ => True end)). 
  eapply (cp_le _ _ (2 + (1 + nn (fst s) + length l * (3 + m)))); [eapply cp_bind; [apply cp_new_node|]|nia|exact (fun _ _ H => H)].
  cbn beta. intros x s0 n0 E0. rewrite <- E0. eapply cp_bind; [apply cp_no_rehash|]. cbn beta. intros _ s1 n1 E1. apply cp_calls, IH. rewrite E0 in E1. lia.
Qed.
Definition range_bound (fwd : bool) (z m : nat) : nat := if multi c && fwd then 2 + z + m * (3 + z + m) else m * (5 + 2 * (z + m)).
Lemma range_calls fwd l s n : calls ((if multi c then insert_range_equiv c fwd l else insert_range_unique c l) s n) n (range_bound fwd (nn (fst s)) (length l)).
Proof.
  unfold range_bound. destruct (multi c); cbn [andb]; [|apply range_unique_calls; lia]. unfold insert_range_equiv. destruct fwd; [|apply each_equiv_calls; lia].
  destruct l as [|e [|e2 l]]; [apply calls_ret| |].
  - eapply calls_le; [eapply (calls_bind _ _ _ _ 2 (3 + 2 * nn (fst s))); [apply cp_new_node|]|cbn [length]; lia]. intros x s1 n1 E. destruct (cp_new_node c KConstruct e s n) as [_ X]. rewrite E in X. rewrite <- X.
    apply calls_0then; [apply cp_emplace_equiv|intro; apply nc_ret].
  - set (l0 := e :: e2 :: l). match goal with |- calls ?r _ _ => assert (Cp r n (2 + nn (fst s) + length l0 * (3 + nn (fst s) + length l0)) (fun _ _ => True)) as X; [|exact (proj1 X)] end.
    apply cp_get_t. eapply cp_bind; [apply (cp_rfi c)|]. cbn beta. intros _ s1 n1 L. apply cp_calls. rewrite <- Nat.add_assoc. apply no_rehash_calls. lia.
Qed.
End C.
