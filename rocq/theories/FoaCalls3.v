(** Calls of user-supplied functions by the open-addressing containers: all operations but merge (FoaCalls4.v). *)
From Coq Require Import NArith Bool List Arith Lia ZifyBool ZifyNat ZifyN Permutation.
From Verif Require Import SizeModel SizeProofs GroupModel GroupSpec FoaModel FoaGroup FoaBase FoaFind FoaArr FoaInv FoaRehash FoaOps FoaIterModel FoaSpec FoaWorld FoaApi FoaRun CallSpec FoaCalls FoaCalls2.
Import ListNotations.
Local Open Scope nat_scope.
Section C.
Context {K V : Type} (c : Cfg K V).
Hypothesis HC : good_cfg c.
Notation arrays := (arrays K V).
Notation table := (table K V).

Lemma insert_calls (t : table) e n : Inv c t -> calls (m_insert c e t n) n (if (sz t <? ml t)%N then 2 + nel t else 3 + 3 * nel t).
Proof. intros H. apply emplace_impl_calls, H. Qed.
Lemma insert_calls_le (t : table) e n : Inv c t -> calls (m_insert c e t n) n (3 + 3 * nel t).
Proof. intros H. eapply calls_le; [apply insert_calls, H|]. destruct (_ <? _)%N; lia. Qed.
Lemma insert_size (t : table) e n r t' n' : Inv c t -> m_insert c e t n = Ret r t' n' -> Inv c t' /\ nel t' <= S (nel t).
Proof.
  intros H E. pose proof (insert_ok c HC t e n H) as X. rewrite E in X. cbn [outcome] in X. destruct X as (X & _ & x & _ & Y). split; [exact X|].
  destruct (lookup _ _ _ _); [destruct Y as (_ & _ & ->); lia|]. destruct Y as (_ & _ & P). apply Permutation_length in P. unfold nel. cbn in P. lia.
Qed.
Lemma insert_range_calls es : forall (t : table) n, Inv c t -> calls (m_insert_range c es t n) n (length es * (3 + 3 * (nel t + length es))).
Proof.
  induction es as [|e es IH]; intros t n H; cbn [m_insert_range length]; [apply calls_ret|].
  eapply calls_le; [apply (calls_bind _ _ t n (3 + 3 * nel t) (length es * (3 + 3 * (S (nel t) + length es)))); [apply insert_calls_le, H|]|lia].
  intros r t' n' E. destruct (insert_size _ _ _ _ _ _ H E) as [H' L]. eapply calls_le; [apply IH, H'|]. apply Nat.mul_le_mono_l. lia.
Qed.
Lemma insert_present (t : table) e n : Inv c t -> present c t (fst e) -> calls (m_insert c e t n) n (1 + nel t) /\ throws_only (m_insert c e t n) (fun k => k = KHash \/ k = KEq).
Proof. intros H P. apply (proj2 (emplace_impl_calls c t KConstruct e n H) P). Qed.
Lemma throws_bind {St A B} (m : M St A) (f : A -> M St B) s n P : throws_only (m s n) P -> (forall a, Nc (f a)) -> throws_only (bind m f s n) P.
Proof. intros H Hf. unfold bind. destruct (m s n) as [a s' n'|k s' n'|]; cbn in *; auto. specialize (Hf a s' n'). destruct (f a s' n'); cbn in *; auto; contradiction. Qed.
Definition insert1 (o : op1 K V) : option K := match o with Insert e => Some (fst e) | Index _ k => Some k | InsertOrAssign k _ => Some k | _ => None end.
Lemma insert1_present (t : table) o k n : insert1 o = Some k -> Inv c t -> present c t k ->
  calls (exec1 c o t n) n (1 + nel t + match o with InsertOrAssign _ _ => 1 | _ => 0 end) /\
  throws_only (exec1 c o t n) (fun k => k = KHash \/ k = KEq \/ match o with InsertOrAssign _ _ => k = KConstruct | _ => False end).
Proof.
  intros E H P. destruct o; try discriminate; injection E as <-; cbn [exec1].
  - destruct (insert_present t e n H P) as [X Y]. assert (forall r : nat * nat * bool, Nc (bind get (fun t => bind (read_at t (fst r)) (fun x => ret (@VIns K V x (snd r)))))) as Z.
    { intros r. apply nc_bind; [apply nc_get|intro]. apply nc_bind; [apply nc_read|intro; apply nc_ret]. }
    split; [rewrite Nat.add_0_r; apply calls_0then; [exact X|exact Z]|]. apply throws_bind; [|exact Z]. destruct (m_insert c e t n); cbn in *; tauto.
  - destruct (insert_present t (k0, v) n H P) as [X Y]. unfold m_insert_or_assign.
    split.
    + apply calls_0then; [|intro; apply nc_ret]. apply calls_bind; [exact X|]. intros [[g m] b] s' n' _. destruct b; [apply calls_ret|].
      apply cb_then0; [apply nc_get|intro]. apply cb_then0; [apply nc_read|intro]. apply cb_0then; [apply cb_tick|intro]. apply nc_bind; [apply nc_on_arr, nc_put_cell|intro; apply nc_ret].
    + apply throws_bind; [|intro; apply nc_ret]. unfold bind at 1. destruct (m_insert c (k0, v) t n) as [[[g m] b] s' n'|k' s' n'|]; cbn [throws_only] in *; try tauto.
      destruct b; [exact I|]. rewrite bind_get. unfold bind at 1. unfold read_element. destruct (get_cell _ _) as [[]|]; try exact I. cbn [ret]. unfold bind, tick. destruct (throws c KConstruct n'); [cbn; tauto|].
      unfold on_arr, lens, put_cell. destruct (a_elems (arr s')) as [l|]; [|exact I]. destruct (nth_error l _); exact I.
  - destruct (insert_present t (k0, dv) n H P) as [X Y]. assert (forall r : nat * nat * bool, Nc (bind get (fun t => bind (read_element (arr t) (slot_index (fst (fst r)) (snd (fst r)))) (fun e : K * V => ret (snd e))))) as Z.
    { intros r. apply nc_bind; [apply nc_get|intro]. apply nc_bind; [apply nc_read|intro; apply nc_ret]. }
    unfold m_index. split; [rewrite Nat.add_0_r; apply calls_0then; [apply calls_0then; [exact X|exact Z]|intro; apply nc_ret]|].
    apply throws_bind; [|intro; apply nc_ret]. apply throws_bind; [|exact Z]. destruct (m_insert c (k0, dv) t n); cbn in *; tauto.
Qed.
(** *** erase_if *)
Lemma gk_erase_at g m : GKeep (fun s : table * list (K * V) => arr (fst s)) g (on_fst (erase_at g m)).
Proof.
  intros s n a s' n' E g' Hg. unfold on_fst, lens in E. destruct (erase_at g m (fst s) n) as [u t n1|k t n1|] eqn:Ee; try discriminate. injection E as _ <- _. cbn [fst].
  unfold erase_at in Ee. unfold bind at 1 in Ee. unfold on_arr at 1, lens in Ee. destruct (destroy_element _ (arr (fst s)) n) as [u1 a1 n2|k a1 n2|] eqn:Ed; try discriminate. apply ak_destroy in Ed.
  unfold recover_slot in Ee. rewrite bind_get in Ee. unfold get_group in Ee. destruct (nth_error (a_groups (arr (set_arr (fst s) a1))) g) as [b|] eqn:Eg; [|discriminate].
  rewrite bind_modify in Ee. unfold bind at 1 in Ee. unfold on_arr, lens in Ee. cbn [arr set_ml set_arr] in Ee, Eg. unfold put_group in Ee. destruct (a_elems a1); [|discriminate]. rewrite Eg in Ee.
  unfold modify in Ee. injection Ee as _ <- _. cbn [arr set_sz set_arr a_groups]. rewrite <- Ed. clear - Hg. revert g g' Hg. generalize (a_groups a1) as l. induction l as [|x l IH]; intros g g' Hg.
  - unfold FoaModel.set_nth. rewrite skipn_nil, firstn_nil. reflexivity.
  - destruct g as [|g], g' as [|g']; try reflexivity; [congruence|]. cbn. apply (IH g g'). congruence.
Qed.
Lemma gk_bind {St A B} (sel : St -> arrays) g (m : M St A) (f : A -> M St B) : GKeep sel g m -> (forall a, GKeep sel g (f a)) -> GKeep sel g (bind m f).
Proof. intros H Hf s n b s' n' E g' Hg. unfold bind in E. destruct (m s n) as [a s1 n1|k s1 n1|] eqn:Em; try discriminate. rewrite (Hf _ _ _ _ _ _ E g' Hg). apply (H _ _ _ _ _ Em g' Hg). Qed.
Lemma tick_ak {St} (sel : St -> arrays) k : AKeep sel (tick c k).
Proof. apply ak_same. intros s n u s' n' E. unfold tick in E. destruct (throws c k n); [discriminate|]. injection E as _ <- _. reflexivity. Qed.
Lemma erase_if_calls pr (t : table) l n : Inv c t -> calls (erase_if c pr (t, l) n) n (nel t).
Proof.
  intros H. unfold erase_if. rewrite bind_get. apply calls_0then; [|intro; apply nc_bind; [apply nc_get|intro; apply nc_ret]].
  replace (nel t) with (1 * nel t) by lia. apply (for_all_calls c (fun s : table * list (K * V) => arr (fst s)) _ 1 (hid t) (t, l) n); [apply (i_arr _ _ H)| |].
  - intros g m. apply cb_then0; [apply nc_get|intro]. apply cb_then0; [apply nc_read|intro]. apply cb_then0; [apply nc_modify|intro]. apply cb_0then; [apply cb_tick|intro].
    destruct (pr _ _); [apply nc_lens, nc_erase_at|apply nc_ret].
  - intros g m. apply gk_bind; [apply ak_gk, ak_get|intro]. apply gk_bind; [apply ak_gk, ak_read|intro]. apply gk_bind; [apply ak_gk, ak_modify; reflexivity|intro].
    apply gk_bind; [apply ak_gk, tick_ak|intro]. destruct (pr _ _); [apply gk_erase_at|apply ak_gk, ak_ret].
Qed.
(** *** comparison and copying *)
Lemma equal_calls {St} eeq (x y : table) (s : St) n : Inv c x -> Inv c y -> calls (equal_tables c eeq x y s n) n (nel x * (1 + nel y)).
Proof.
  intros Hx Hy. unfold equal_tables. destruct (_ =? _)%N; [|apply calls_ret]. rewrite Nat.mul_comm.
  apply (while_calls c (fun _ : St => arr x) _ (1 + nel y) (hid x) s n); [apply (i_arr _ _ Hx)| |intros; apply gk_const].
  intros g m s1 n1. apply cb_then0; [apply nc_read|intros e]. intros s2 n2. apply calls_0then; [apply find_calls, Hy|]. intros [[g' m']|]; [|apply nc_ret]. apply nc_bind; [apply nc_read|intro; apply nc_ret].
Qed.
Lemma copy_elements_calls (x t : table) n : Inv c x -> calls (copy_elements_from c x t n) n (2 * nel x).
Proof.
  intros H. unfold copy_elements_from. rewrite bind_get. destruct (_ =? _)%N.
  - unfold fast_copy_elements_from. rewrite bind_get. destruct (a_elems (arr t)); [|apply calls_ret]. destruct (a_elems (arr x)); [|apply calls_ret].
    apply calls_0then; [|intro; apply nc_modify]. eapply calls_le; [|instantiate (1 := 1 * nel x); lia]. unfold with_counter.
    assert (calls (copy_elements_array_from c x (t, 0) n) n (1 * nel x)) as X; [|destruct (copy_elements_array_from c x (t, 0) n); exact X].
    unfold copy_elements_array_from. apply calls_on_exn.
    + apply (for_all_calls c (fun _ : table * nat => arr x) _ 1 (hid x) (t, 0) n); [apply (i_arr _ _ H)| |intros; apply gk_const].
      intros g m. apply cb_then0; [apply nc_read|intro]. apply cb_0then; [apply cb_lens, cb_lens, cb_construct|intro; apply nc_modify].
    + apply nc_bind; [apply nc_get|intros s]. destruct (Nat.eqb _ _); [apply nc_ret|]. apply nc_bind; [|intro; apply nc_ret]. apply nc_while. intros g m.
      apply nc_bind; [apply nc_lens, nc_lens, nc_destroy|intro]. apply nc_bind; [apply nc_modify|intro]. apply nc_bind; [apply nc_get|intro; apply nc_ret].
  - apply (for_all_calls c (fun _ : table => arr x) _ 2 (hid x) t n); [apply (i_arr _ _ H)| |intros; apply gk_const]. intros g m. apply cb_then0; [apply nc_read|intro; apply cb_unchecked_insert].
Qed.
Lemma cb_new_table {St} h p al m : Cb (St:=St) 1 (new_table c h p al m).
Proof. unfold new_table. apply cb_0then; [apply cb_new|intro; apply nc_ret]. Qed.
Lemma construct_then_calls {St} (mk : M St table) body s n d1 d2 : calls (mk s n) n d1 -> (forall t s' n', mk s n = Ret t s' n' -> calls (body (t, s') n') n' d2) -> calls (construct_then mk body s n) n (d1 + d2).
Proof.
  intros H Hb. unfold construct_then. destruct (mk s n) as [t s' n'|k s' n'|]; cbn [calls] in *; [|lia|exact I]. specialize (Hb t s' n' eq_refl).
  destruct (body (t, s') n') as [u ts n2|k ts n2|]; cbn [calls] in *; [lia| |exact I]. pose proof (nc_destroy_table (fst ts) n2) as X. destruct (destroy_table (fst ts) n2); cbn in *; [lia|exact I|exact I].
Qed.
Lemma copy_construct_calls {St} (x : table) al (s : St) n : Inv c x -> calls (copy_construct c x al s n) n (1 + 2 * nel x).
Proof.
  intros H. unfold copy_construct. destruct (negb _); [exact I|]. apply construct_then_calls; [apply cb_new_table|]. intros t s' n' _.
  unfold on_fst, lens. cbn [fst snd]. pose proof (copy_elements_calls x t n' H) as X. destruct (copy_elements_from c x t n'); exact X.
Qed.
Lemma cb_noshrink r : Cb 1 (noshrink_reserve (V:=V) c r).
Proof.
  unfold noshrink_reserve. destruct (r =? 0)%N; [apply nc_cb, nc_ret|]. destruct (negb _); [apply nc_cb, nc_undef|]. apply cb_then0; [apply nc_get|intro]. destruct (_ <? _)%N; [|apply nc_cb, nc_ret].
  apply cb_0then; [apply cb_new|intro]. apply nc_bind; [apply nc_delete|intro; apply nc_modify].
Qed.
Lemma cb_noshrink0 : Nc (noshrink_reserve (V:=V) c 0). Proof. apply nc_ret. Qed.
Lemma copy_assign_calls (x t : table) n : Inv c x -> calls (copy_assign c x t n) n (2 + 2 * nel x).
Proof.
  intros H. unfold copy_assign. apply (calls_bind _ _ t n 0 (2 + 2 * nel x)); [apply nc_cb, nc_clear|]. intros u1 t1 n1 _. apply (calls_bind _ _ t1 n1 0 (2 + 2 * nel x)); [apply nc_cb, nc_modify|]. intros u2 t2 n2 _.
  apply (calls_bind _ _ t2 n2 1 (1 + 2 * nel x)).
  - destruct (pocca c); [|apply calls_ret]. apply cb_then0; [apply nc_get|intros t3]. apply cb_0then; [|intro; apply nc_modify]. destruct (negb _); [|apply nc_cb, nc_ret]. destruct (negb _); [apply nc_cb, nc_undef|].
    apply cb_0then; [apply cb_new|intro]. apply nc_bind; [apply nc_delete|intro; apply nc_modify].
  - intros u3 t3 n3 _. apply calls_bind; [apply cb_noshrink|]. intros u4 t4 n4 _. apply copy_elements_calls, H.
Qed.
Lemma move_elements_calls (t x : table) n : Inv c x -> calls (move_elements c (t, x) n) n (2 * nel x).
Proof.
  intros H. unfold move_elements. apply calls_finally; [|apply nc_lens, nc_clear].
  apply (for_all_calls c (fun s : table * table => arr (snd s)) _ 2 (hid x) (t, x) n); [apply (i_arr _ _ H)| |].
  - intros g m. apply cb_then0; [apply nc_get|intro]. apply cb_then0; [apply nc_read|intro]. apply cb_0then; [apply cb_lens, cb_unchecked_insert|intro]. apply nc_lens, nc_lens, nc_put_cell.
  - intros g m. apply ak_gk. apply ak_bind; [apply ak_get|intro]. apply ak_bind; [apply ak_read|intro]. apply ak_bind; [apply ak_frame; reflexivity|intro].
    unfold on_snd. apply (ak_lens _ arr); [|reflexivity|reflexivity]. unfold on_arr. apply (ak_lens _ (fun a => a)); [apply ak_put_cell|reflexivity|reflexivity].
Qed.
Lemma on_fst_snd {St A} (m : M table A) (s : table * St) n a s' n' : on_fst m s n = Ret a s' n' -> snd s' = snd s.
Proof. unfold on_fst, lens. destruct (m (fst s) n); try discriminate. intros [= _ <- _]. reflexivity. Qed.
Lemma nel_hp (t : table) h p : nel (set_hp t h p) = nel t. Proof. reflexivity. Qed.
Lemma move_elements_calls' (t x : table) n : ArrOK c (hid x) (arr x) \/ (exists h, ArrOK c h (arr x)) -> calls (move_elements c (t, x) n) n (2 * nel x).
Proof.
  intros H0. assert (exists h, ArrOK c h (arr x)) as [h H] by (destruct H0; eauto). clear H0. unfold move_elements. apply calls_finally; [|apply nc_lens, nc_clear].
  apply (for_all_calls c (fun s : table * table => arr (snd s)) _ 2 h (t, x) n); [exact H| |].
  - intros g m. apply cb_then0; [apply nc_get|intro]. apply cb_then0; [apply nc_read|intro]. apply cb_0then; [apply cb_lens, cb_unchecked_insert|intro]. apply nc_lens, nc_lens, nc_put_cell.
  - intros g m. apply ak_gk. apply ak_bind; [apply ak_get|intro]. apply ak_bind; [apply ak_read|intro]. apply ak_bind; [apply ak_frame; reflexivity|intro].
    unfold on_snd. apply (ak_lens _ arr); [|reflexivity|reflexivity]. unfold on_arr. apply (ak_lens _ (fun a => a)); [apply ak_put_cell|reflexivity|reflexivity].
Qed.
Lemma move_assign_calls (t x : table) n : Inv c x -> calls (move_assign c (t, x) n) n (1 + 2 * nel x).
Proof.
  intros H. unfold move_assign. apply (calls_bind _ _ (t, x) n 0 (1 + 2 * nel x)); [apply nc_cb, nc_lens, nc_clear|]. intros u [t1 x1] n1 E. apply on_fst_snd in E. cbn [snd] in E. subst x1.
  rewrite bind_get. destruct (_ || _).
  - apply nc_cb. repeat (apply nc_bind; [first [apply nc_modify|apply nc_get|apply nc_new0|apply nc_delete]|intro]). apply nc_modify. 
  - unfold swap_hp at 1. rewrite bind_modify, bind_get. cbn [fst snd]. apply calls_bind; [apply cb_lens, cb_noshrink|]. intros u2 [t2 x2] n2 E. apply on_fst_snd in E. cbn [snd] in E. subst x2.
    change (nel x) with (nel (set_hp x (hid t1) (pid t1))). apply move_elements_calls'. right. exists (hid x). apply (i_arr _ _ H).
Qed.
Lemma move_construct_al_calls (x : table) al n : Inv c x -> calls (move_construct_al c al x n) n (1 + 2 * nel x).
Proof.
  intros H. unfold move_construct_al. rewrite bind_get. apply (construct_then_calls _ _ x n 0 (1 + 2 * nel x)); [apply nc_cb; unfold new_table; apply nc_bind; [apply nc_new0|intro; apply nc_ret]|].
  intros t x' n' E. unfold new_table in E. unfold bind in E. cbn in E. injection E as <- <- <-. rewrite bind_get. cbn [fst snd]. destruct (_ =? _)%N.
  - apply nc_cb, nc_put.
  - apply calls_bind.
    + unfold on_fst, lens. cbn [fst snd]. match goal with |- calls match reserve c ?r ?t0 ?n0 with _ => _ end _ _ => pose proof (reserve_calls c t0 r n0) as X end. cbn [hid arr] in X. specialize (X (or_introl eq_refl)). unfold nel in X. cbn [arr] in X. change (length (elems (dummy_arrays (K:=K) (V:=V) al))) with 0 in X.
      match goal with |- calls match ?m with _ => _ end _ _ => destruct m; exact X end.
    + intros u [t2 x2] n2 E. apply on_fst_snd in E. cbn [snd] in E. subst x2. apply move_elements_calls, H.
Qed.
End C.
