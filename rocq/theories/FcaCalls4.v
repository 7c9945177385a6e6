(** Calls of user-supplied functions by the closed-addressing containers: moves between allocators, merging, comparison. *)
From Coq Require Import NArith ZArith Bool List Arith Lia Permutation.
From Verif Require Import FloatModel HashArithModel FoaModel FoaBase FcaLinks FcaModel FcaIter FcaInv FcaTab FcaRehash FcaOps FcaIns FcaIns2 FcaHandle FcaErase FcaErase2 FcaCopy FcaMove FcaMerge FcaSpec FcaWorld CallSpec FoaCalls FoaCalls2 FcaCalls FcaCalls2 FcaCalls3.
Import ListNotations.
Local Open Scope nat_scope.
Local Open Scope m_scope.
Section C.
Context {K V : Type} (c : FCfg K V).
Notation node := (node K V).
Notation table := (FcaModel.table K V).
Notation cb := (base c).
Notation St := (table * heap)%type.
Notation St2 := ((table * table) * heap)%type.
Notation looks := (looks c).
Definition n1 (s : St2) : nat := nn (fst (fst s)).
Definition fx (s : St2) : N := f_size (snd (fst s)).
Lemma cp_tick {X} k (s : X) n : Cp (tick cb k s n) n 1 (fun _ _ => True).
Proof. apply cp_calls. exact (cb_tick cb k s n). Qed.
Lemma nc_leave itb y : Nc (leave c itb y). Proof. apply nc_on_b. Qed.
(** what happens to the second container does not matter *)
Lemma cp_on2 {A} (m : M St A) (s : St2) n d : Cb d m -> Cp (on2 m s n) n d (fun _ s' => fst (fst s') = fst (fst s)).
Proof. intros H. unfold on2. apply cp_lens. eapply cp_le; [apply cp_calls, H|reflexivity|]. reflexivity. Qed.
Lemma cp_on1 {A} (m : M St A) (s : St2) n d (Q : nat -> Prop) : Cp (m (fst (fst s), snd s) n) n d (fun _ s' => Q (nn (fst s'))) -> Cp (on1 m s n) n d (fun _ s' => Q (n1 s') /\ snd (fst s') = snd (fst s)).
Proof. intros H. unfold on1. apply cp_lens. eapply cp_le; [exact H|reflexivity|]. cbn beta. intros a s' X. split; [exact X|reflexivity]. Qed.
Ltac to_cp := match goal with |- calls ?r ?n ?d => cut (Cp r n d (fun _ _ => True)); [intros [to_cp_H _]; exact to_cp_H|] end.
(** *** moves *)
Lemma move_nodes_calls fuel : forall pos s n, calls (move_nodes_from c fuel pos s n) n (fuel * 3).
Proof.
  induction fuel as [|fuel IH]; intros pos s n; cbn [move_nodes_from]; [exact I|]. destruct (e_eqb _ _); [apply calls_ret|]. to_cp. apply cp_get2. apply cp_opt. intros y _.
  change (S fuel * 3) with (2 + (1 + fuel * 3)). eapply cp_bind; [apply cp_calls; unfold on1; apply cb_lens, new_node_cb|]. intros x s1 m1 _. eapply cp_bind0; [apply (cp_nc (on2 _)), nc_lens, nc_leave|]. intros _ s2 m2 _. apply cp_get2.
  eapply cp_bind; [apply cp_calls; unfold on1; apply cb_lens, cb_on_exn; [|apply nc_delete_node]|].
  - apply cb_0then; [apply cb_hash|intro]. apply nc_bind; [apply nc_opt|intro]. apply nc_bind; [apply nc_on_b|intro; apply nc_mod_t].
  - intros _ s3 m3 _. apply cp_opt. intros nx _. apply cp_calls, IH.
Qed.
Lemma move_construct_al_calls al s n : calls (move_construct_al c al s n) n (4 + 3 * S (nsz (fst s))).
Proof.
  unfold move_construct_al. unfold bind at 1. destruct (new_barray_nb c al (bucket_count (f_b (fst s))) s n) as [X Y]. destruct (new_barray c al _ s n) as [b s1 m1|k s1 m1|]; cbn [ret]; [|unfold calls in *; lia|exact I]. destruct Y as [-> Zb].
  set (t := recalc _). assert (Z : nn t = 0) by exact Zb.
  match goal with |- calls match ?r with _ => _ end _ _ => assert (calls r m1 (2 + 3 * S (nsz (fst s)))) as W end.
  - destruct (_ =? _)%N; [eapply nc_cb; apply nc_bind; [apply nc_opt|intro; apply nc_modify]|]. destruct (_ =? _)%N; [apply calls_ret|].
    to_cp. eapply cp_bind; [apply cp_on1 with (Q := fun _ => True); eapply cp_le; [apply (cp_reserve c)|cbn [fst]; rewrite Z; reflexivity|exact (fun _ _ _ => I)]|]. intros _ s2 m2 _. apply cp_opt. intros it _. apply cp_calls. unfold fuel_of. fold (nsz (fst s)). rewrite Nat.mul_comm. apply move_nodes_calls.
  - unfold calls in X. match goal with |- calls match ?r with _ => _ end _ _ => destruct r as [u s2 m2|k s2 m2|] end; unfold calls in *; [lia| |exact I].
    pose proof (nc_delete_buckets (K:=K) (V:=V) (fst (fst s2), snd s2) m2) as D. unfold destroy_table. destruct (delete_buckets _ m2) as [u s3 m3|k3 s3 m3|]; [|exact I|exact I]. cbn [no_calls] in D. lia.
Qed.

Lemma move_assign_nodes_calls fuel : forall pos s n m, n1 s + fuel <= m -> calls (move_assign_nodes c fuel pos s n) n (fuel * (4 + looks m)).
Proof.
  induction fuel as [|fuel IH]; intros pos s n m L; cbn [move_assign_nodes]; [exact I|]. destruct (e_eqb _ _); [apply calls_ret|]. to_cp. apply cp_get2. apply cp_opt. intros y _.
  assert (Lm : looks (n1 s) <= looks m) by (apply looks_le; lia). cbn [Nat.mul].
  eapply (cp_le _ _ (1 + ((1 + (looks (n1 s) + 2)) + fuel * (4 + looks m)))); [|lia|exact (fun _ _ H => H)].
  eapply cp_bind; [apply cp_on2; apply cb_0then; [apply cb_tick|intro; apply nc_leave]|]. cbn beta. intros _ s1 m1 E1.
  eapply cp_bind; [apply cp_on1 with (Q := fun q => q = S (n1 s))|].
  - cbn [fst snd]. eapply cp_bind; [apply cp_hash|]. cbn beta. intros h s2 m2 ->. apply cp_opt. intros itb _. eapply cp_bind; [apply cp_maybe_find|]. cbn beta. intros ho s2 m2' ->.
    eapply cp_le; [eapply cp_bind; [apply cp_new_node|]|rewrite Nat.add_0_r; reflexivity|exact (fun _ _ H => H)]. cbn beta. intros x s3 m3 E3. eapply cp_bind0; [apply cp_link; intros b b'; apply insert_hint_nb|]. cbn beta. intros _ s4 m4 E4.
    eapply cp_le; [apply cp_inc|reflexivity|]. cbn beta. intros _ s5 E5. rewrite E5, E4, E3. cbn [fst]. unfold n1. rewrite E1. reflexivity.
  - cbn beta. intros _ s2 m2 [E2 _]. apply cp_get2. apply cp_opt. intros nx _. apply cp_calls, IH. rewrite E2. lia.
Qed.
Lemma move_assign_calls r t x h l lx n : SI c r (t, h) l -> TInv c x lx -> calls (move_assign c ((t, x), h) n) n (2 + length l + S (length lx) * (4 + looks (S (length lx)))).
Proof.
  intros S0 Tx. unfold move_assign. unfold get2. rewrite bind_bind, bind_get, bind_ret. cbn [fst]. destruct (_ || _).
  - eapply nc_cb. apply nc_bind; [apply nc_lens; apply nc_bind; [apply nc_mod_t|intro; apply nc_delete_buckets]|intro]. apply nc_bind; [apply nc_lens, nc_mod_t|intro; apply nc_lens, nc_mod_t].
  - assert (F : fuel_of x = S (length lx)) by (unfold fuel_of; fold (nsz x); rewrite (nsz_size c x lx Tx); reflexivity).
    to_cp. eapply cp_bind; [apply cp_on1 with (Q := fun q => q = 0)|].
    + cbn [fst snd]. pose proof (si_t _ _ _ _ S0) as T. rewrite mod_t_eq. set (t1 := recalc _).
      assert (SI c r (t1, h) l) as S1. { destruct S0 as [_ I2 I3]. constructor; [apply TInv_recalc_mlf; [exact T|apply (ci_mlf _ _ _ (ti_c _ _ _ Tx))]|exact I2|exact I3]. }
      pose proof (si_t _ _ _ _ S1) as T1. cbn [fst] in T1. pose proof (nn_size c _ _ T1) as N1. clearbody t1.
      eapply cp_le; [|apply (Nat.le_trans _ (2 + nn t1 + 0)); [reflexivity|rewrite N1; lia]|exact (fun _ _ H => H)].
      eapply (cp_bind _ _ _ _ _ _ (fun _ s' => exists l', SI c r s' l')).
      * destruct (_ <? _)%N.
        -- split; [apply rfi_calls|]. pose proof (rfi_si c r t1 h l (f_size x) n S1 (max_elems_size c _ _ Tx)) as O. destruct (reserve_for_insert c (f_size x) (t1, h) n); auto. 
        -- split; [apply calls_ret|]. exists l. exact S1.
      * cbn beta. intros _ s1 m1 (l1 & S1'). eapply (cp_bind0 _ _ _ _ _ (fun _ s' => nn (fst s') = 0)).
        -- split; [exact (nc_cb _ 0 (nc_clear (K:=K) (V:=V)) s1 m1)|]. pose proof (clear_ok c r s1 l1 m1 (fun _ _ => False) S1') as Cl. destruct (clear s1 m1) as [u s2 m2| |]; auto. apply (nn_empty c r). apply Cl.
        -- cbn beta. intros _ s2 m2 E2. eapply cp_le; [apply cp_modt; reflexivity|reflexivity|]. cbn beta. intros _ s3 ->. exact E2.
    + cbn beta. intros _ s1 m1 [E1 _]. apply cp_opt. intros it _. apply cp_calls. rewrite F. apply move_assign_nodes_calls. rewrite E1. lia.
Qed.
(** *** merging *)
Lemma merge_from_calls fuel : forall pos s n m, n1 s + fuel <= m -> calls (merge_from c fuel pos s n) n (fuel * (1 + m)).
Proof.
  induction fuel as [|fuel IH]; intros pos s n m L; cbn [merge_from]; [exact I|]. destruct (e_eqb _ _); [apply calls_ret|]. to_cp. apply cp_get2. apply cp_opt. intros y _. cbn [Nat.mul].
  eapply (cp_le _ _ (1 + (n1 s + fuel * (1 + m)))); [|lia|exact (fun _ _ H => H)]. eapply cp_bind; [apply cp_hash|]. cbn beta. intros h s1 m1 ->. apply cp_opt. intros itb _. eapply cp_bind; [apply cp_find_impl|]. cbn beta. intros q s1 m2 ->.
  apply cp_opt. intros nx _. destruct q as [i|]; [apply cp_calls, IH; lia|].
  eapply cp_bind0; [apply cp_on2; apply nc_cb, nc_extract_at|]. cbn beta. intros y' s2 m3 E2. eapply cp_bind0; [apply cp_on1 with (Q := fun q => q = S (n1 s))|].
  - cbn [fst snd]. eapply cp_bind0; [apply cp_link; intros b b'; apply insert_nb|]. cbn beta. intros _ s3 m4 E3. eapply cp_le; [apply cp_inc|reflexivity|]. cbn beta. intros _ s4 ->. rewrite E3. cbn [fst]. unfold n1. rewrite E2. reflexivity.
  - cbn beta. intros _ s3 m4 [E3 _]. apply cp_calls, IH. lia.
Qed.
Lemma merge_unique_calls t x h l lx n : TInv c t l -> TInv c x lx -> calls (merge_unique c ((t, x), h) n) n (2 + length l + S (length lx) * (2 + length l + length lx)).
Proof.
  intros T Tx. unfold merge_unique, get2. rewrite bind_bind, bind_get, bind_ret. cbn [fst]. destruct (negb _); [exact I|]. destruct (_ =? _)%N; [apply calls_ret|].
  assert (F : fuel_of x = S (length lx)) by (unfold fuel_of; fold (nsz x); rewrite (nsz_size c x lx Tx); reflexivity). pose proof (nn_size c _ _ T) as N1.
  to_cp. eapply cp_bind; [apply cp_on1 with (Q := fun q => q <= length l)|].
  - cbn [fst snd]. rewrite <- N1. apply (cp_rfi c).
  - cbn beta. intros _ s1 m1 [E1 _]. apply cp_opt. intros it _. apply cp_calls. rewrite F. change (2 + length l + length lx) with (1 + (1 + length l + length lx)). apply merge_from_calls. lia.
Qed.
Lemma cp_insert_equiv x s n : Cp (insert_handle_equiv c x s n) n (3 + 2 * nn (fst s)) (fun _ s' => nn (fst s') <= S (nn (fst s))).
Proof.
  unfold insert_handle_equiv. apply cp_get_t. eapply (cp_le _ _ ((2 + nn (fst s)) + (1 + nn (fst s)))); [|lia|exact (fun _ _ H => H)].
  eapply cp_bind; [apply (cp_rfi c)|]. cbn beta. intros _ s1 m1 L1. apply cp_get_t. eapply cp_bind; [apply cp_hash|]. cbn beta. intros h s2 m2 ->. apply cp_opt. intros itb _.
  eapply (cp_le _ _ (nn (fst s1) + 0)); [|lia|exact (fun _ _ H => H)]. eapply cp_bind; [apply cp_find_impl|]. cbn beta. intros ho s2 m3 ->. eapply cp_bind0; [apply cp_link; intros b b'; apply insert_hint_nb|]. cbn beta. intros _ s3 m4 E3.
  eapply cp_bind0; [apply cp_inc|]. cbn beta. intros _ s4 m5 E4. apply cp_ret. lia.
Qed.
Lemma merge_multi_calls fuel : forall s n m, n1 s + fuel <= m -> calls (merge_multi_from c fuel s n) n (fuel * (3 + 2 * m)).
Proof.
  induction fuel as [|fuel IH]; intros s n m L; cbn [merge_multi_from]; [exact I|]. to_cp. apply cp_get2. destruct (_ =? _)%N; [apply cp_calls, calls_ret|]. apply cp_opt. intros it _. cbn [Nat.mul].
  eapply cp_bind0; [apply cp_on2; apply nc_cb, nc_extract_at|]. cbn beta. intros y s1 m1 E1.
  eapply (cp_le _ _ ((3 + 2 * n1 s) + fuel * (3 + 2 * m))); [|lia|exact (fun _ _ H => H)]. eapply cp_bind; [apply cp_on1 with (Q := fun q => q <= S (n1 s))|].
  - cbn [fst snd]. apply cp_on_exn; [|apply nc_delete_node]. unfold n1. rewrite <- E1. apply (cp_insert_equiv y (fst (fst s1), snd s1)).
  - cbn beta. intros _ s2 m2 [E2 _]. apply cp_calls, IH. lia.
Qed.
Lemma merge_calls t x h l lx n : TInv c t l -> TInv c x lx ->
  calls (merge c ((t, x), h) n) n (if multi c then S (length lx) * (5 + 2 * (length l + length lx)) else 2 + length l + S (length lx) * (2 + length l + length lx)).
Proof.
  intros T Tx. unfold merge. destruct (multi c); [|apply merge_unique_calls; assumption]. unfold get2. rewrite bind_bind, bind_get, bind_ret. cbn [fst snd]. destruct (negb _); [exact I|].
  assert (F : fuel_of x = S (length lx)) by (unfold fuel_of; fold (nsz x); rewrite (nsz_size c x lx Tx); reflexivity). rewrite F. replace (5 + 2 * (length l + length lx)) with (3 + 2 * (1 + length l + length lx)) by lia.
  apply merge_multi_calls. unfold n1. cbn [fst]. rewrite (nn_size c _ _ T). lia.
Qed.
Lemma tk_extract (P : kind -> Prop) pos : Tk P (@extract_at K V pos). Proof. apply tk_nc, nc_extract_at. Qed.
Lemma tk_merge : Tk not_elements (merge c).
Proof.
  assert (H1 : not_elements KHash) by (left; reflexivity). assert (H2 : not_elements KEq) by (right; left; reflexivity). assert (H3 : not_elements KAlloc) by (right; right; reflexivity).
  assert (G2 : Tk (St:=St2) not_elements (@get2 K V)) by (apply tk_nc; unfold get2; apply nc_bind; [apply nc_get|intro; apply nc_ret]).
  assert (A : forall fuel pos, Tk not_elements (merge_from c fuel pos)).
  { induction fuel as [|fuel IH]; intros pos; cbn [merge_from]; [apply tk_nc, nc_undef|]. destruct (e_eqb _ _); [apply tk_nc, nc_ret|]. apply tk_bind; [exact G2|intro ts]. apply tk_bind; [apply tk_nc, nc_opt|intro]. apply tk_bind; [apply tk_hash, H1|intro]. apply tk_bind; [apply tk_nc, nc_opt|intro]. apply tk_bind; [apply tk_find_impl, H2|intro q].
    apply tk_bind; [apply tk_nc, nc_opt|intro]. destruct q; [apply IH|]. apply tk_bind; [apply tk_lens, tk_extract|intro]. apply tk_bind; [|intro; apply IH]. apply tk_nc, nc_lens. apply nc_bind; [apply nc_on_b|intro; apply nc_mod_t]. }
  assert (B : forall fuel, multi c = true -> Tk not_elements (merge_multi_from c fuel)).
  { intros fuel M. induction fuel as [|fuel IH]; cbn [merge_multi_from]; [apply tk_nc, nc_undef|]. apply tk_bind; [exact G2|intro ts]. destruct (_ =? _)%N; [apply tk_nc, nc_ret|]. apply tk_bind; [apply tk_nc, nc_opt|intro]. apply tk_bind; [apply tk_lens, tk_extract|intro y]. apply tk_bind; [|intro; exact IH].
    apply tk_lens, tk_on_exn; [|apply nc_delete_node]. pose proof (tk_insert_handle c None y) as X. unfold insert_handle in X. rewrite M in X. exact X. }
  unfold merge. destruct (multi c) eqn:M.
  - apply tk_bind; [exact G2|intro ts]. destruct (negb _); [apply tk_nc, nc_undef|apply B; reflexivity].
  - unfold merge_unique. apply tk_bind; [exact G2|intros [t x]]. destruct (negb _); [apply tk_nc, nc_undef|]. destruct (_ =? _)%N; [apply tk_nc, nc_ret|]. apply tk_bind; [apply tk_lens, tk_rfi; assumption|intro]. apply tk_bind; [apply tk_nc, nc_opt|intro; apply A].
Qed.
(** *** comparison *)
Lemma equals_loop_cb {X} eeq (y : table) l : Cb (St:=X) (length l * (1 + nn y)) (equals_loop c eeq y l).
Proof.
  induction l as [|a r IH]; cbn [equals_loop length]; [apply nc_cb, nc_ret|]. cbn [Nat.mul]. apply cb_bind; [apply find_node_cb|intros q]. destruct (fst q); [|apply nc_cb, nc_ret]. apply cb_then0; [apply nc_opt|intro]. destruct (eeq _ _); [exact IH|apply nc_cb, nc_ret].
Qed.
Lemma next_group_len {X} p k l : forall (s : X) n, Cp (next_group c p k l s n) n (length l) (fun g _ => length (snd g) <= length l).
Proof.
  induction l as [|x l IH]; intros s n; cbn [next_group length]; [apply cp_ret; cbn; lia|]. change (S (length l)) with (1 + length l) at 1. eapply cp_bind; [apply cp_tick|]. intros _ s1 m1 _. destruct (keqf _ _ _ _).
  - eapply (cp_le _ _ (length l + 0)); [eapply cp_bind; [apply IH|]|lia|exact (fun _ _ H => H)]. cbn beta. intros g s2 m2 Hg. apply cp_ret. cbn [snd]. lia.
  - eapply (cp_le _ _ 0); [apply cp_ret with (Q := fun g _ => length (snd g) <= S (length l)); cbn; lia|lia|exact (fun _ _ H => H)].
Qed.
Lemma equals_groups_calls {X} eeq (x y : table) fuel : forall l (s : X) n m, length l <= m -> calls (equals_groups c fuel eeq x y l s n) n (fuel * (1 + nn y + m + nsz y)).
Proof.
  induction fuel as [|fuel IH]; intros l s n m L; cbn [equals_groups]; [exact I|]. destruct l as [|a r]; [apply calls_ret|]. to_cp. cbn [Nat.mul].
  replace (1 + nn y + m + nsz y + fuel * (1 + nn y + m + nsz y)) with ((1 + nn y) + (m + (nsz y + fuel * (1 + nn y + m + nsz y)))) by lia. generalize (fuel * (1 + nn y + m + nsz y)) (fun l s n => IH l s n m). intros D IH'. clear IH.
  eapply cp_bind; [apply cp_calls, find_cb|]. intros it s1 m1 _. destruct (e_eqb _ _); [apply cp_calls, calls_ret|].
  eapply cp_bind; [eapply cp_le; [apply next_group_len|exact L|exact (fun _ _ H => H)]|]. cbn beta. intros g1 s2 m2 L2. apply cp_opt. intros l2 E2. unfold rest in E2. apply walk_len in E2.
  eapply cp_bind; [eapply cp_le; [apply next_group_len|unfold fuel_of in E2; unfold nsz; lia|exact (fun _ _ _ => I)]|]. intros g2 s3 m3 _. apply cp_calls. destruct (group_equals_equiv _ _ _); [|apply calls_ret]. apply IH'. lia.
Qed.
Lemma equal_calls {X} eeq (x y : table) l ly (s : X) n : TInv c x l -> TInv c y ly -> elements x = Some l ->
  calls (equal_tables c eeq x y s n) n (if multi c then S (length l) * (1 + length l + 2 * length ly) else length l * (1 + length ly)).
Proof.
  intros T Ty E. pose proof (nn_size c _ _ Ty) as Ny. pose proof (nsz_size c _ _ Ty) as Zy. unfold equal_tables. destruct (multi c).
  - unfold equals_equiv. destruct (_ =? _)%N; [|apply calls_ret]. rewrite E. cbn [of_option]. rewrite bind_ret. eapply calls_le; [apply equals_groups_calls; reflexivity|]. rewrite Ny, Zy. apply Nat.mul_le_mono_l. lia.
  - unfold equals_unique. destruct (_ =? _)%N; [|apply calls_ret]. rewrite E. cbn [of_option]. rewrite bind_ret. rewrite <- Ny. apply equals_loop_cb.
Qed.
Lemma tk_find {X} (P : kind -> Prop) (t : table) k : P KHash -> P KEq -> Tk (St:=X) P (find c t k).
Proof. intros H1 H2. unfold find. destruct (_ <? _)%N; [|apply tk_nc, nc_ret]. apply tk_bind; [apply tk_hash, H1|intro]. apply tk_bind; [apply tk_nc, nc_opt|intro]. apply tk_bind; [apply tk_nc, nc_opt|intro]. apply tk_bind; [apply tk_find_in_chain, H2|]. intros [i|]; apply tk_nc, nc_ret. Qed.
Lemma tk_equal {X} (P : kind -> Prop) eeq (x y : table) : P KHash -> P KEq -> Tk (St:=X) P (equal_tables c eeq x y).
Proof.
  intros H1 H2. unfold equal_tables. destruct (multi c).
  - assert (NG : forall p k l, Tk (St:=X) P (next_group c p k l)).
    { intros p k l. induction l as [|a l IH]; cbn [next_group]; [apply tk_nc, nc_ret|]. apply tk_bind; [apply tk_tick, H2|intro]. destruct (keqf _ _ _ _); [|apply tk_nc, nc_ret]. apply tk_bind; [exact IH|intro; apply tk_nc, nc_ret]. }
    assert (G : forall fuel l, Tk (St:=X) P (equals_groups c fuel eeq x y l)).
    { induction fuel as [|fuel IH]; intros l; cbn [equals_groups]; [apply tk_nc, nc_undef|]. destruct l as [|a l]; [apply tk_nc, nc_ret|]. apply tk_bind; [apply tk_find; assumption|intro]. destruct (e_eqb _ _); [apply tk_nc, nc_ret|]. apply tk_bind; [apply NG|intro]. apply tk_bind; [apply tk_nc, nc_opt|intro]. apply tk_bind; [apply NG|intro]. destruct (group_equals_equiv _ _ _); [apply IH|apply tk_nc, nc_ret]. }
    unfold equals_equiv. destruct (_ =? _)%N; [|apply tk_nc, nc_ret]. apply tk_bind; [apply tk_nc, nc_opt|intro; apply G].
  - unfold equals_unique. destruct (_ =? _)%N; [|apply tk_nc, nc_ret]. apply tk_bind; [apply tk_nc, nc_opt|intro l]. induction l as [|a l IH]; cbn [equals_loop]; [apply tk_nc, nc_ret|].
    apply tk_bind; [unfold find_node; apply tk_bind; [apply tk_hash, H1|intro]; apply tk_bind; [apply tk_nc, nc_opt|intro]; apply tk_bind; [apply tk_find_impl, H2|intro; apply tk_nc, nc_ret]|intro q]. destruct (fst q); [|apply tk_nc, nc_ret]. apply tk_bind; [apply tk_nc, nc_opt|intro]. destruct (eeq _ _); [exact IH|apply tk_nc, nc_ret].
Qed.
End C.
