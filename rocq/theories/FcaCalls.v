(** Calls of user-supplied functions by the closed-addressing containers. *)
From Coq Require Import NArith ZArith Bool List Arith Lia Permutation.
From Verif Require Import FloatModel HashArithModel FoaModel FoaBase FcaLinks FcaModel FcaIter FcaInv FcaTab FcaSpec FcaWorld CallSpec FoaCalls FoaCalls2.
Import ListNotations.
Local Open Scope nat_scope.
Section C.
Context {K V : Type} (c : FCfg K V).
Notation node := (node K V).
Notation barray := (barray K V).
Notation table := (FcaModel.table K V).
Notation cb := (base c).
Notation St := (table * heap)%type.
Notation St2 := ((table * table) * heap)%type.
Notation RSt := (St * barray)%type.

(** *** parts that call nothing *)
Lemma nc_get_t : Nc (@get_t K V). Proof. unfold get_t. apply nc_bind; [apply nc_get|intro; apply nc_ret]. Qed.
Lemma nc_mod_t f : Nc (@mod_t K V f). Proof. apply nc_modify. Qed.
Lemma nc_mod_h f : Nc (@mod_h K V f). Proof. apply nc_modify. Qed.
Lemma nc_on_b f : Nc (@on_b K V f).
Proof. unfold on_b. apply nc_bind; [apply nc_get_t|intro]. apply nc_bind; [apply nc_opt|intro; apply nc_mod_t]. Qed.
Lemma nc_delete_node x : Nc (@delete_node K V x).
Proof. unfold delete_node. apply nc_bind; [apply nc_get|intro s]. destruct (_ && _); [apply nc_mod_h|apply nc_undef]. Qed.
Lemma nc_it_at m : Nc (@it_at K V m). Proof. unfold it_at. apply nc_bind; [apply nc_get_t|intro; apply nc_opt]. Qed.
Lemma nc_deref it : Nc (@deref K V it).
Proof. unfold deref. apply nc_bind; [apply nc_get_t|intro]. apply nc_bind; [apply nc_opt|intro; apply nc_ret]. Qed.
Lemma nc_deref_opt it : Nc (@deref_opt K V it).
Proof. unfold deref_opt. destruct (e_eqb _ _); [apply nc_ret|]. apply nc_bind; [apply nc_deref|intro; apply nc_ret]. Qed.
Lemma nc_erase_node it : Nc (@erase_node K V it).
Proof.
  unfold erase_node. apply nc_bind; [apply nc_get_t|intro]. apply nc_bind; [apply nc_opt|intro]. apply nc_bind; [apply nc_opt|intro]. apply nc_bind; [apply nc_on_b|intro].
  apply nc_bind; [apply nc_delete_node|intro]. apply nc_bind; [apply nc_mod_t|intro; apply nc_ret].
Qed.
Lemma nc_erase_from fuel : forall itb pre last, Nc (@erase_from K V fuel itb pre last).
Proof.
  induction fuel as [|fuel IH]; intros itb pre last; cbn [erase_from]; [apply nc_undef|]. apply nc_bind; [apply nc_get_t|intro]. apply nc_bind; [apply nc_opt|intro l].
  cbv zeta. match goal with |- Nc (if ?b then _ else _) => destruct b end; [apply nc_ret|]. destruct (skipn _ _) as [|x r]; [apply nc_undef|].
  apply nc_bind; [apply nc_on_b|intro]. apply nc_bind; [apply nc_delete_node|intro]. apply nc_bind; [apply nc_mod_t|intro]. destruct (is_nil r); [|apply IH].
  apply nc_bind; [apply nc_get_t|intro]. apply nc_bind; [apply nc_opt|intro]. apply nc_bind; [destruct (is_nil pre); [apply nc_on_b|apply nc_ret]|intro; apply IH].
Qed.
Lemma nc_erase_range first last : Nc (@erase_nodes_range K V first last).
Proof.
  unfold erase_nodes_range. destruct (e_eqb _ _); [apply nc_ret|]. apply nc_bind; [apply nc_get_t|intro]. apply nc_bind; [apply nc_opt|intro]. apply nc_bind; [apply nc_opt|intro; apply nc_erase_from].
Qed.
Lemma nc_extract_at it : Nc (@extract_at K V it).
Proof.
  unfold extract_at. apply nc_bind; [apply nc_get_t|intro]. apply nc_bind; [apply nc_opt|intro]. apply nc_bind; [apply nc_on_b|intro]. apply nc_bind; [apply nc_mod_t|intro; apply nc_ret].
Qed.
Lemma nc_clear_chain l itb : Nc (@clear_chain K V l itb).
Proof.
  induction l as [|x r IH]; cbn [clear_chain]; [apply nc_ret|]. apply nc_bind; [apply nc_on_b|intro]. apply nc_bind; [apply nc_delete_node|intro]. apply nc_bind; [apply nc_mod_t|intro; exact IH].
Qed.
Lemma nc_clear_from fuel : forall itb, Nc (@clear_from K V fuel itb).
Proof.
  induction fuel as [|fuel IH]; intros itb; cbn [clear_from]; [apply nc_undef|]. apply nc_bind; [apply nc_get_t|intro]. destruct (bi_eqb _ _); [apply nc_ret|].
  apply nc_bind; [apply nc_opt|intro]. apply nc_bind; [apply nc_opt|intro]. apply nc_bind; [apply nc_clear_chain|intro; apply IH].
Qed.
Lemma nc_clear : Nc (@clear K V).
Proof. unfold clear. apply nc_bind; [apply nc_get_t|intro]. apply nc_bind; [apply nc_opt|intro; apply nc_clear_from]. Qed.
Lemma nc_delete_from fuel : forall pos, Nc (@delete_from K V fuel pos).
Proof.
  induction fuel as [|fuel IH]; intros pos; cbn [delete_from]; [apply nc_undef|]. destruct (e_eqb _ _); [apply nc_ret|]. apply nc_bind; [apply nc_get_t|intro].
  apply nc_bind; [apply nc_opt|intro]. apply nc_bind; [apply nc_opt|intro]. apply nc_bind; [apply nc_on_b|intro]. apply nc_bind; [apply nc_delete_node|intro]. apply nc_bind; [apply nc_mod_t|intro; apply IH].
Qed.
Lemma nc_delete_buckets : Nc (@delete_buckets K V).
Proof.
  unfold delete_buckets. apply nc_bind; [apply nc_get_t|intro]. apply nc_bind; [apply nc_opt|intro]. apply nc_bind; [apply nc_delete_from|intro]. apply nc_bind; [apply nc_get_t|intro].
  apply nc_bind; [apply nc_opt|intro; apply nc_mod_t].
Qed.
Definition silent1 (o : op1 K V) : bool := match o with EraseNth _ | EraseRange _ _ | Clear | MaxLoadFactor _ | Iterate | Size => true | _ => false end.
Lemma nc_exec1 o : silent1 o = true -> Nc (exec1 c o).
Proof.
  destruct o; intros H; try discriminate; cbn [exec1].
  - apply nc_bind; [apply nc_it_at|intro]. apply nc_bind; [apply nc_deref|intro]. apply nc_bind; [apply nc_erase_node|intro]. apply nc_bind; [apply nc_deref_opt|intro; apply nc_ret].
  - apply nc_bind; [apply nc_it_at|intro]. apply nc_bind; [apply nc_it_at|intro]. apply nc_bind; [apply nc_erase_range|intro; apply nc_ret].
  - apply nc_bind; [apply nc_clear|intro; apply nc_ret].
  - apply nc_bind; [apply nc_mod_t|intro; apply nc_ret].
  - apply nc_bind; [apply nc_get_t|intro]. apply nc_bind; [apply nc_opt|intro; apply nc_ret].
  - apply nc_bind; [apply nc_get_t|intro; apply nc_ret].
Qed.
Definition silent (w : mworld (K:=K) (V:=V)) (o : op K V) : Prop :=
  match o with
  | On _ o => silent1 o = true
  | MoveConstruct _ | Destroy _ | Swap _ _ | ExtractNth _ _ | SetHandle _ _ | DropHandle _ => True
  | MoveAssign i j => exists t x, slot w i = Some t /\ slot w j = Some x /\ (pocma cb = true \/ f_al t = f_al x)
  | New _ _ _ n => n = 0%N
  | _ => False
  end.
Lemma nc_run1 {A} i (m : M St A) : Nc m -> Nc (run1 i m).
Proof. intros H w n. unfold run1. destruct (slot w i) as [t|]; [|exact I]. specialize (H (t, hp w) n). destruct (m (t, hp w) n); cbn in *; auto. Qed.
Lemma nc_run2 {A} i j (m : M St2 A) : Nc m -> Nc (run2 i j m).
Proof. intros H w n. unfold run2. destruct (slot w i) as [t|]; [|exact I]. destruct (slot w j) as [x|]; [|exact I]. destruct (i =? j); [exact I|]. specialize (H ((t, x), hp w) n). destruct (m (t, x, hp w) n); cbn in *; auto. Qed.
Lemma nc_run0 {A} (m : M heap A) : Nc m -> Nc (@run0 K V A m).
Proof. intros H w n. unfold run0. specialize (H (hp w) n). destruct (m (hp w) n); cbn in *; auto. Qed.
Lemma nc_swap : Nc (swap_tables c).
Proof. unfold swap_tables, get2. apply nc_bind; [apply nc_bind; [apply nc_get|intro; apply nc_ret]|intros [t x]]. destruct (pocs cb); [apply nc_modify|]. destruct (_ =? _)%N; [apply nc_modify|apply nc_undef]. Qed.
Lemma nc_move_assign (t x : table) h n : pocma cb = true \/ f_al t = f_al x -> no_calls (move_assign c ((t, x), h) n) n.
Proof.
  intros H. unfold move_assign, get2. unfold bind at 1. unfold bind at 1. unfold get, ret. cbn [fst].
  assert (pocma cb || (f_al t =? f_al x)%N = true) as ->. { destruct H as [->|H]; [reflexivity|]. rewrite H, N.eqb_refl. apply orb_true_r. }
  apply nc_bind; [apply nc_lens; apply nc_bind; [apply nc_mod_t|intro; apply nc_delete_buckets]|intro]. apply nc_bind; [apply nc_lens, nc_mod_t|intro; apply nc_lens, nc_mod_t].
Qed.
Lemma silent_exec w o n : silent w o -> no_calls (exec c o w n) n.
Proof.
  intros H. destruct o as [i o|h p al m|j al|j|j al|i|i j|i j|i j|i j|i j eeq|i k|i m|h e|i h hint|h]; cbn [silent exec] in *; try contradiction.
  - apply nc_run1, nc_exec1, H.
  - subst m. apply nc_bind; [apply nc_run0; unfold new_table; apply nc_bind; [apply nc_ret|intro; apply nc_ret]|intro]. apply nc_bind; [apply nc_modify|intro; apply nc_ret].
  - apply nc_bind; [apply nc_run1; intros s m; reflexivity|intro]. apply nc_bind; [apply nc_modify|intro; apply nc_ret].
  - apply nc_bind; [apply nc_run1, nc_delete_buckets|intro]. apply nc_bind; [apply nc_modify|intro; apply nc_ret].
  - destruct H as (t & x & Ei & Ej & H). apply no_calls_bind; [|intros; apply nc_ret]. unfold run2. rewrite Ei, Ej. destruct (i =? j); [exact I|].
    pose proof (nc_move_assign t x (hp w) n H) as X. destruct (move_assign c (t, x, hp w) n); cbn in *; auto.
  - apply nc_bind; [apply nc_run2, nc_swap|intro; apply nc_ret].
  - apply nc_bind; [apply nc_run1; apply nc_bind; [apply nc_it_at|intro; apply nc_extract_at]|intro]. apply nc_bind; [apply nc_modify|intro; apply nc_ret].
  - rewrite bind_get. destruct (nth_error (hands w) h) as [[x|]|]; try exact I. apply nc_bind; [apply nc_modify|intro; apply nc_ret].
  - rewrite bind_get. destruct (nth_error (hands w) h) as [[x|]|]; [|apply nc_ret|exact I]. destruct (_ <? _); [|exact I]. apply nc_bind; [apply nc_modify|intro; apply nc_ret].
Qed.

(** *** lookup *)
Definition nn (t : table) : nat := length (concat (b_chains (f_b t))).
Lemma chain_le (b : barray) it l : chain b it = Some l -> length l <= length (concat (b_chains b)).
Proof.
  unfold chain. generalize (b_chains b) as cs. generalize (bi_p it) as i. intros i cs. revert i. induction cs as [|x cs IH]; intros i E; destruct i as [|i]; try discriminate; cbn in *; rewrite app_length.
  - injection E as ->. lia.
  - apply IH in E. lia.
Qed.
Lemma find_in_chain_cb {X} p k l : Cb (St:=X) (length l) (find_in_chain c p k l).
Proof.
  induction l as [|x r IH]; cbn [find_in_chain length]; [apply nc_cb, nc_ret|]. apply (cb_bind _ _ 1 (length r)); [apply cb_tick|intro]. destruct (keqf _ _ _ _); [apply nc_cb, nc_ret|exact IH].
Qed.
Lemma chain_then {X A} (b : barray) it (f : list node -> M X A) d : (forall l, length l <= length (concat (b_chains b)) -> Cb d (f l)) -> Cb d (bind (of_option (chain b it)) f).
Proof. intros H s n. destruct (chain b it) as [l|] eqn:E; [|exact I]. apply H. eapply chain_le, E. Qed.
Lemma find_impl_cb {X} (t : table) k itb : Cb (St:=X) (nn t) (find_node_impl c t k itb).
Proof. unfold find_node_impl. destruct (bi_eqb _ _); [apply nc_cb, nc_ret|]. apply chain_then. intros l L. eapply cb_le; [apply find_in_chain_cb|exact L]. Qed.
Lemma find_cb {X} (t : table) k : Cb (St:=X) (1 + nn t) (find c t k).
Proof.
  unfold find. destruct (_ <? _)%N; [|apply nc_cb, nc_ret]. apply cb_bind; [apply cb_hash|intro h]. apply cb_then0; [apply nc_opt|intro itb]. apply chain_then. intros l L.
  apply cb_0then; [eapply cb_le; [apply find_in_chain_cb|exact L]|]. intros [i|]; apply nc_ret.
Qed.
Lemma find_node_cb {X} (t : table) k : Cb (St:=X) (1 + nn t) (find_node c t k).
Proof.
  unfold find_node. apply cb_bind; [apply cb_hash|intro h]. apply cb_then0; [apply nc_opt|intro itb]. apply cb_0then; [apply find_impl_cb|intro; apply nc_ret].
Qed.
Lemma count_chain_cb {X} p k l : forall found, Cb (St:=X) (length l) (count_chain c p k found l).
Proof.
  induction l as [|x r IH]; intros found; cbn [count_chain length]; [apply nc_cb, nc_ret|]. apply (cb_bind _ _ 1 (length r)); [apply cb_tick|intro]. destruct (keqf _ _ _ _).
  - apply cb_0then; [apply IH|intro; apply nc_ret].
  - destruct found; [apply nc_cb, nc_ret|apply IH].
Qed.
Lemma group_count_cb {X} (t : table) k : Cb (St:=X) (1 + nn t) (group_count c t k).
Proof.
  unfold group_count. destruct (_ =? _)%N; [apply nc_cb, nc_ret|]. apply cb_bind; [apply cb_hash|intro h]. apply cb_then0; [apply nc_opt|intro itb]. apply chain_then. intros l L. eapply cb_le; [apply count_chain_cb|exact L].
Qed.
Lemma next_group_cb {X} p k l : Cb (St:=X) (length l) (next_group c p k l).
Proof.
  induction l as [|x r IH]; cbn [next_group length]; [apply nc_cb, nc_ret|]. apply (cb_bind _ _ 1 (length r)); [apply cb_tick|intro]. destruct (keqf _ _ _ _); [|apply nc_cb, nc_ret].
  apply cb_0then; [apply IH|intro; apply nc_ret].
Qed.
Lemma walk_len fuel : forall (b : barray) it last l, walk fuel b it last = Some l -> length l < fuel.
Proof.
  induction fuel as [|fuel IH]; intros b it last l E; cbn [walk] in E; [discriminate|]. destruct (e_eqb it last); [injection E as <-; cbn; lia|].
  unfold bindo in E. destruct (e_node b it); [|discriminate]. destruct (e_next b it); [|discriminate]. destruct (walk fuel b e last) as [r|] eqn:Er; [|discriminate]. injection E as <-. cbn. apply IH in Er. lia.
Qed.
Definition nsz (t : table) : nat := N.to_nat (f_size t).
Lemma equal_range_cb {X} (t : table) k : Cb (St:=X) (1 + nn t + (if multi c then nsz t else 0)) (equal_range c t k).
Proof.
  unfold equal_range. apply cb_bind; [apply find_cb|intro it]. destruct (e_eqb _ _); [apply nc_cb, nc_ret|]. destruct (multi c).
  - intros s n. destruct (rest t it) as [l|] eqn:E; [|exact I]. unfold rest in E. apply walk_len in E. cbn [of_option]. rewrite bind_ret. apply cb_0then; [|intro; apply nc_ret].
    eapply cb_le; [apply next_group_cb|]. unfold fuel_of in E. unfold nsz. lia.
  - apply nc_cb. apply nc_bind; [apply nc_opt|intro; apply nc_opt].
Qed.
(** *** erasure of keys *)
Lemma find_prev_cb (t : table) k itb : Cb (nn t) (find_prev c t k itb).
Proof. unfold find_prev. destruct (_ <? _)%N; [|apply nc_cb, nc_ret]. apply chain_then. intros l L. eapply cb_le; [apply find_in_chain_cb|exact L]. Qed.
Lemma get_t_calls {A} (f : table -> M St A) s n d : calls (f (fst s) s n) n d -> calls (bind (@get_t K V) f s n) n d.
Proof. auto. Qed.
Lemma erase_unique_calls k s n : calls (erase_key_unique c k s n) n (1 + nn (fst s)).
Proof.
  unfold erase_key_unique. apply get_t_calls. apply cb_bind; [apply cb_hash|intro]. apply cb_then0; [apply nc_opt|intro]. apply cb_0then; [apply find_prev_cb|]. intros [i|]; [|apply nc_ret].
  unfold lookup_at. apply nc_bind; [apply nc_bind; [apply nc_get_t|intro; apply nc_opt]|intro]. apply nc_bind; [apply nc_on_b|intro]. apply nc_bind; [apply nc_delete_node|intro]. apply nc_bind; [apply nc_mod_t|intro; apply nc_ret].
Qed.
Lemma erase_run_cb p k itb pre l : Cb (length l) (erase_run c p k itb pre l).
Proof.
  induction l as [|x r IH]; cbn [erase_run length]; [apply nc_cb, nc_ret|]. apply (cb_bind _ _ 1 (length r)); [apply cb_tick|intro]. destruct (keqf _ _ _ _); [|apply nc_cb, nc_ret].
  apply cb_then0; [apply nc_on_b|intro]. apply cb_then0; [apply nc_delete_node|intro]. apply cb_then0; [apply nc_mod_t|intro]. apply cb_0then; [exact IH|intro; apply nc_ret].
Qed.
Lemma split_len i (l : list node) a b : split_id i l = Some (a, b) -> length b <= length l.
Proof.
  revert a b. induction l as [|x r IH]; intros a b E; cbn in E; [discriminate|]. destruct (_ =? _); [injection E as <- <-; cbn; lia|]. destruct (split_id i r) as [[a' b']|]; [|discriminate]. injection E as <- <-. cbn [fst snd].
  specialize (IH _ _ eq_refl). cbn. lia.
Qed.
Lemma erase_equiv_calls k s n : calls (erase_key_equiv c k s n) n (1 + nn (fst s) + nn (fst s)).
Proof.
  unfold erase_key_equiv. apply get_t_calls. rewrite <- Nat.add_assoc. apply cb_bind; [apply cb_hash|intro]. apply cb_then0; [apply nc_opt|intro itb]. apply cb_bind; [apply find_prev_cb|]. intros [i|]; [|apply nc_cb, nc_ret].
  intros s1 n1. destruct (chain (f_b (fst s)) itb) as [l|] eqn:E; [|exact I]. cbn [of_option]. cbn [bindo]. destruct (split_id i l) as [[pa pb]|] eqn:Es; [|exact I]. cbn [of_option]. rewrite bind_ret. cbn [fst snd].
  apply cb_0then; [eapply cb_le; [apply erase_run_cb|apply split_len in Es; apply chain_le in E; unfold nn; lia]|]. intro. apply nc_bind; [apply nc_get_t|intro]. apply nc_bind; [apply nc_opt|intro].
  apply nc_bind; [destruct (is_nil _); [apply nc_on_b|apply nc_ret]|intro; apply nc_ret].
Qed.
Lemma erase_if_from_cb pr fuel : forall pos, Cb fuel (erase_if_from c fuel pr pos).
Proof.
  induction fuel as [|fuel IH]; intros pos; cbn [erase_if_from]; [apply nc_cb, nc_undef|]. destruct (e_eqb _ _); [apply nc_cb, nc_ret|]. apply cb_then0; [apply nc_get_t|intro]. apply cb_then0; [apply nc_opt|intro].
  apply (cb_bind _ _ 1 fuel); [apply cb_tick|intro]. apply cb_then0; [destruct (pr _); [apply nc_erase_node|apply nc_opt]|intro; apply IH].
Qed.
Lemma erase_if_calls pr s n : calls (erase_if c pr s n) n (1 + nsz (fst s)).
Proof.
  unfold erase_if. apply get_t_calls. apply cb_then0; [apply nc_opt|intro]. apply cb_0then; [apply erase_if_from_cb|intro]. apply nc_bind; [apply nc_get_t|intro; apply nc_ret].
Qed.
Lemma extract_key_calls k s n : calls (extract_key c k s n) n (1 + nn (fst s)).
Proof. unfold extract_key. apply get_t_calls. apply cb_0then; [apply find_cb|intro it]. destruct (e_eqb _ _); [apply nc_ret|]. apply nc_bind; [apply nc_extract_at|intro; apply nc_ret]. Qed.

(** *** rehashing *)
Lemma cb_new_barray {X} al m : Cb (St:=X) 2 (new_barray c al m).
Proof.
  unfold new_barray. destruct (_ =? _)%N; [apply nc_cb, nc_ret|]. apply cb_then0; [apply nc_opt|intro]. apply (cb_bind _ _ 1 1); [apply cb_tick|intro]. apply cb_0then; [apply cb_tick|intro].
  apply nc_bind; [apply nc_opt|intro; apply nc_ret].
Qed.
Definition oldch (s : RSt) : list (list node) := b_chains (f_b (fst (fst s))).
Definition tcp (p : nat) (s : RSt) (n d : nat) (r : R RSt unit) : Prop :=
  calls r n d /\ match r with Ret _ s' _ => forall q, q <> p -> nth_error (oldch s') q = nth_error (oldch s) q | _ => True end.
Lemma set_nth_other {A} (x : A) (l : list A) p q : q <> p -> nth_error (FoaModel.set_nth l p x) q = nth_error l q.
Proof.
  revert p q. induction l as [|y cs IHc]; intros p q Hq.
  - unfold FoaModel.set_nth. rewrite skipn_nil, firstn_nil. reflexivity.
  - destruct p as [|p], q as [|q]; try reflexivity; [congruence|]. cbn. apply (IHc p q). congruence.
Qed.
Lemma transfer_chain_calls p l : forall s n, tcp p s n (length l) (transfer_chain c p l s n).
Proof.
  induction l as [|x r IH]; intros s n; cbn [transfer_chain length]; [split; [apply calls_ret|cbn; reflexivity]|].
  rewrite bind_get. unfold bind at 1. destruct (hash_for cb _ (nkey x) s n) as [h s1 n1|k s1 n1|] eqn:Eh.
  - apply hash_for_ret in Eh as (-> & -> & ->). destruct (at_hash _ _) as [it|]; [|split; exact I]. cbn [of_option]. rewrite bind_ret.
    destruct (insert_node _ _ _) as [nb|]; [|split; exact I]. cbn [of_option]. rewrite bind_ret.
    rewrite bind_modify. unfold bind at 1. unfold on_st, lens. cbn [fst snd]. unfold on_b, get_t. unfold bind at 1. unfold bind at 1. unfold get. unfold ret at 1. cbn [fst snd]. unfold set_chain at 1. cbn [bi_p].
    destruct (nth_error (b_chains (f_b (fst (fst s)))) p) as [l0|] eqn:E0; [|split; exact I]. cbn [of_option]. rewrite bind_ret. unfold mod_t, modify. cbn [fst snd].
    match goal with |- tcp _ _ _ _ (transfer_chain c p r ?a ?b) => destruct (IH a b) as [X Y]; destruct (transfer_chain c p r a b) as [u s2 n2|k s2 n2|] end; (split; [cbn in *; lia || exact I|try exact I]).
    intros q Hq. rewrite (Y q Hq). unfold oldch. cbn [fst snd f_b set_b b_chains]. apply set_nth_other, Hq.
  - pose proof (cb_hash cb (f_hid (fst (fst s))) (nkey x) s n) as X. rewrite Eh in X. cbn in X. split; [cbn; lia|exact I].
  - split; exact I.
Qed.
Definition sum_ch (cs : list (list node)) (ps : list nat) : nat := list_sum (map (fun p => length (nth p cs [])) ps).
Lemma transfer_all_calls cs ps : forall s n, NoDup ps -> (forall p, In p ps -> nth_error (oldch s) p = nth_error cs p) -> calls (transfer_all c ps s n) n (sum_ch cs ps).
Proof.
  induction ps as [|p ps IH]; intros s n ND H; cbn [transfer_all]; [apply calls_ret|]. rewrite bind_get. inversion ND; subst.
  change (sum_ch cs (p :: ps)) with (length (nth p cs []) + sum_ch cs ps). pose proof (H p (or_introl eq_refl)) as Ep. unfold oldch in Ep. rewrite Ep.
  destruct (nth_error cs p) as [l|] eqn:El; [|exact I]. cbn [of_option]. rewrite bind_ret. rewrite (nth_error_nth _ _ _ El).
  destruct (transfer_chain_calls p l s n) as [X Y]. apply calls_bind; [exact X|]. intros u s' n' E. rewrite E in Y. apply IH; [assumption|]. intros q Hq. rewrite Y; [apply H; right; exact Hq|]. intros ->. contradiction.
Qed.
Lemma nth_skip {A} k j (l : list A) d : nth (k + j) l d = nth j (skipn k l) d.
Proof. revert k. induction l as [|x l IH]; intros k; [rewrite skipn_nil; destruct (k + j), j; reflexivity|]. destruct k; [reflexivity|]. cbn. apply IH. Qed.
Lemma sum_ch_le cs m : sum_ch cs (seq 0 m) <= length (concat cs).
Proof.
  assert (forall m k cs, sum_ch cs (seq k m) = sum_ch (skipn k cs) (seq 0 m)) as Sh.
  { clear. intros m k cs. unfold sum_ch. f_equal. rewrite <- (Nat.add_0_r k) at 1. generalize 0 as j. induction m as [|m IH]; intros j; [reflexivity|]. cbn [seq map]. f_equal.
    - rewrite nth_skip. reflexivity.
    - rewrite <- Nat.add_succ_r. apply IH. }
  revert cs. induction m as [|m IH]; intros cs; [cbn; lia|]. cbn [seq]. change (sum_ch cs (0 :: seq 1 m)) with (length (nth 0 cs []) + sum_ch cs (seq 1 m)). rewrite Sh.
  destruct cs as [|x cs]; [specialize (IH []); cbn in *; exact IH|]. cbn [nth skipn concat]. rewrite app_length. specialize (IH cs). lia.
Qed.
Lemma nc_delete_list l : Nc (@delete_list K V l).
Proof. induction l as [|x r IH]; cbn [delete_list]; [apply nc_ret|]. apply nc_bind; [apply nc_delete_node|intro]. apply nc_bind; [apply nc_mod_t|intro; exact IH]. Qed.
Lemma nc_delete_transferred fuel : forall it, Nc (@delete_transferred K V fuel it).
Proof.
  induction fuel as [|fuel IH]; intros it; cbn [delete_transferred]; [apply nc_undef|]. apply nc_bind; [apply nc_get|intro s]. destruct (bi_eqb _ _); [apply nc_ret|].
  apply nc_bind; [apply nc_opt|intro]. apply nc_bind; [apply nc_lens, nc_delete_list|intro]. apply nc_bind; [apply nc_opt|intro]. apply nc_bind; [apply nc_modify|intro]. apply nc_bind; [apply nc_opt|intro; apply IH].
Qed.
Lemma new_barray_same {X} al m (s : X) n b s' n' : new_barray c al m s n = Ret b s' n' -> s' = s.
Proof.
  unfold new_barray. destruct (_ =? _)%N; [intros [= _ <- _]; reflexivity|]. unfold bind. destruct (fca_size _); cbn [of_option ret undef]; [|discriminate]. unfold tick. destruct (throws cb KAlloc n); [discriminate|].
  destruct (throws cb KAlloc (S n)); [discriminate|]. destruct (new_groups _); cbn [of_option ret undef]; [|discriminate]. intros [= _ <- _]. reflexivity.
Qed.
Lemma rehash_impl_calls m s n : calls (rehash_impl c m s n) n (2 + nn (fst s)).
Proof.
  unfold rehash_impl. apply get_t_calls. apply calls_bind; [apply cb_new_barray|]. intros nb s1 n1 E. apply new_barray_same in E as ->.
  match goal with |- calls match ?r with _ => _ end _ _ => assert (calls r n1 (nn (fst s))) as X end.
  - apply calls_0then.
    + apply calls_on_exn.
      * eapply calls_le; [apply (transfer_all_calls (oldch (s, nb))); [apply seq_NoDup|reflexivity]|]. apply sum_ch_le.
      * apply nc_bind; [apply nc_get|intro]. apply nc_bind; [apply nc_opt|intro]. apply nc_bind; [apply nc_delete_transferred|intro]. apply nc_bind; [apply nc_lens, nc_on_b|intro]. apply nc_bind; [apply nc_get|intro]. apply nc_bind; [apply nc_opt|intro; apply nc_ret].
    + intro. apply nc_bind; [apply nc_get|intro]. apply nc_bind; [apply nc_opt|intro; apply nc_modify].
  - match goal with |- calls match ?r with _ => _ end _ _ => destruct r; exact X end.
Qed.
Lemma rehash_calls m s n : calls (rehash c m s n) n (2 + nn (fst s)).
Proof.
  unfold rehash. apply get_t_calls. destruct (bucket_count_for _) as [b|]; [|exact I]. cbn [of_option]. rewrite bind_ret. destruct (negb _); [apply rehash_impl_calls|apply calls_ret].
Qed.
Lemma reserve_calls m s n : calls (reserve c m s n) n (2 + nn (fst s)).
Proof. unfold reserve. apply get_t_calls. apply rehash_calls. Qed.
Lemma rfi_calls m s n : calls (reserve_for_insert c m s n) n (2 + nn (fst s)).
Proof.
  unfold reserve_for_insert. apply get_t_calls. destruct (_ <? _)%N; [|apply calls_ret]. destruct (ceil_div _ _) as [q|]; [|exact I]. cbn [of_option]. rewrite bind_ret. cbv zeta. destruct (_ <=? _)%Z; [exact I|apply rehash_impl_calls].
Qed.
(** *** insertion *)
Definition full (t : table) : bool := N.ltb (f_ml t) (uadd (f_size t) 1).
Definition gcost (t : table) : nat := if full t then 2 + nn t else 0.
Lemma grow_for_one_calls h itb s n : calls (grow_for_one c h itb s n) n (gcost (fst s)).
Proof.
  unfold grow_for_one, gcost, full. apply get_t_calls. destruct (_ <? _)%N; [|apply calls_ret]. apply calls_0then; [apply reserve_calls|intro]. apply nc_bind; [apply nc_get_t|intro; apply nc_opt].
Qed.
Lemma grow_insert_calls x h itb s n : calls (grow_insert c x h itb s n) n (gcost (fst s)).
Proof. unfold grow_insert. apply calls_0then; [apply grow_for_one_calls|intro]. apply nc_bind; [apply nc_on_b|intro]. apply nc_bind; [apply nc_mod_t|intro; apply nc_ret]. Qed.
Lemma new_node_cb kd e : Cb 2 (new_node c kd e).
Proof.
  unfold new_node. apply cb_then0; [apply nc_get_t|intro]. apply (cb_bind _ _ 1 1); [apply cb_tick|intro]. apply cb_then0; [apply nc_get|intro]. apply cb_then0; [apply nc_mod_h|intro].
  apply cb_0then; [apply cb_on_exn; [apply cb_tick|apply nc_mod_h]|intro; apply nc_ret].
Qed.
Lemma new_node_same kd e s n x s' n' : new_node c kd e s n = Ret x s' n' -> fst s' = fst s.
Proof. intros E. destruct s as [t h]. pose proof (new_node_ok c kd e t h n) as X. rewrite E in X. cbn [outcome] in X. destruct X as [-> _]. reflexivity. Qed.
(** reads leave the state alone *)
Definition Ro {X A} (m : M X A) : Prop := forall s n a s' n', m s n = Ret a s' n' -> s' = s.
Lemma ro_hash {X} h k : Ro (X:=X) (hash_for cb h k).
Proof. intros s n a s' n' E. apply hash_for_ret in E. tauto. Qed.
Lemma ro_find_in_chain {X} p k l : Ro (X:=X) (find_in_chain c p k l).
Proof.
  induction l as [|x r IH]; intros s n a s' n' E; cbn [find_in_chain] in E; [injection E as _ <- _; reflexivity|]. unfold bind, tick in E. destruct (throws cb KEq n); [discriminate|].
  destruct (keqf _ _ _ _); [injection E as _ <- _; reflexivity|]. eapply IH, E.
Qed.
Lemma ro_find_impl {X} (t : table) k itb : Ro (X:=X) (find_node_impl c t k itb).
Proof.
  intros s n a s' n' E. unfold find_node_impl in E. destruct (bi_eqb _ _); [injection E as _ <- _; reflexivity|]. destruct (chain _ _); [|discriminate]. cbn [of_option] in E. rewrite bind_ret in E. eapply ro_find_in_chain, E.
Qed.
Lemma calls_ro {X A B} (m : M X A) (f : A -> M X B) s n d1 d2 : calls (m s n) n d1 -> Ro m -> (forall a n', calls (f a s n') n' d2) -> calls (bind m f s n) n (d1 + d2).
Proof. intros H R Hf. apply calls_bind; [exact H|]. intros a s' n' E. apply R in E as ->. apply Hf. Qed.
Lemma opt_then {X A B} (o : option A) (f : A -> M X B) s n d : (forall a, o = Some a -> calls (f a s n) n d) -> calls (bind (of_option o) f s n) n d.
Proof. intros H. destruct o as [a|]; [|exact I]. apply H. reflexivity. Qed.
Lemma new_node_then {A} kd e (f : node -> M St A) s n d : (forall x s' n', fst s' = fst s -> calls (f x s' n') n' d) -> calls (bind (new_node c kd e) f s n) n (2 + d).
Proof. intros H. apply calls_bind; [apply new_node_cb|]. intros x s' n' E. apply H. eapply new_node_same, E. Qed.
Definition icost (t : table) : nat := 3 + nn t + gcost t.
Lemma emplace_key_calls kd e s n : calls (emplace_unique_key c kd e s n) n (icost (fst s)).
Proof.
  unfold emplace_unique_key. apply get_t_calls. replace (icost (fst s)) with (1 + (nn (fst s) + (2 + gcost (fst s)))) by (unfold icost; lia). apply calls_ro; [apply cb_hash|apply ro_hash|]. intros h n1.
  apply opt_then. intros itb _. apply calls_ro; [apply find_impl_cb|apply ro_find_impl|]. intros [i|] n2; [apply calls_ret|]. apply new_node_then. intros x s' n3 E. apply calls_0then; [|intro; apply nc_ret].
  apply calls_on_exn; [|apply nc_delete_node]. rewrite <- E. apply grow_insert_calls.
Qed.
Lemma emplace_nokey_calls kd e s n : calls (emplace_unique_nokey c kd e s n) n (icost (fst s)).
Proof.
  unfold emplace_unique_nokey. replace (icost (fst s)) with (2 + (1 + (nn (fst s) + gcost (fst s)))) by (unfold icost; lia). apply new_node_then. intros x s' n3 E. apply calls_on_exn; [|apply nc_delete_node].
  apply get_t_calls. rewrite <- E. apply calls_ro; [apply cb_hash|apply ro_hash|]. intros h n1. apply opt_then. intros itb _. apply calls_ro; [apply find_impl_cb|apply ro_find_impl|]. intros [i|] n2.
  - apply nc_cb. apply nc_bind; [apply nc_delete_node|intro; apply nc_ret].
  - apply calls_0then; [apply grow_insert_calls|intro; apply nc_ret].
Qed.
Lemma emplace_equiv_calls x s n : calls (emplace_equiv c x s n) n (1 + (nn (fst s) + gcost (fst s))).
Proof.
  unfold emplace_equiv. apply calls_on_exn; [|apply nc_delete_node]. apply get_t_calls. apply calls_ro; [apply cb_hash|apply ro_hash|]. intros h n1. apply opt_then. intros itb _.
  apply calls_ro; [apply find_impl_cb|apply ro_find_impl|]. intros hint n2. apply calls_0then; [apply grow_for_one_calls|intro]. apply nc_bind; [apply nc_on_b|intro]. apply nc_bind; [apply nc_mod_t|intro; apply nc_ret].
Qed.
Lemma hint_matches_cb hint k : Cb 1 (hint_matches c hint k).
Proof.
  unfold hint_matches. destruct (e_p hint); [|apply nc_cb, nc_ret]. apply cb_then0; [apply nc_get_t|intro]. apply cb_then0; [apply nc_opt|intro]. apply cb_0then; [apply cb_tick|intro; apply nc_ret].
Qed.
Lemma ro_hint hint k : Ro (hint_matches c hint k).
Proof.
  intros s n a s' n' E. unfold hint_matches in E. destruct (e_p hint); [|injection E as _ <- _; reflexivity]. unfold bind, get_t, bind, get, ret in E. destruct (e_node _ _); cbn [of_option ret undef] in E; [|discriminate].
  unfold tick in E. destruct (throws cb KEq n); [discriminate|]. injection E as _ <- _. reflexivity.
Qed.
Lemma hint_unique_calls kf hint e s n : calls (emplace_hint_unique c kf hint e s n) n (1 + icost (fst s)).
Proof.
  unfold emplace_hint_unique. destruct kf.
  - apply calls_ro; [apply hint_matches_cb|apply ro_hint|]. intros b n1. destruct b; [apply calls_ret|]. apply calls_0then; [apply emplace_key_calls|intro; apply nc_ret].
  - replace (1 + icost (fst s)) with (2 + (1 + (1 + (nn (fst s) + gcost (fst s))))) by (unfold icost; lia). apply new_node_then. intros x s' n3 E. apply calls_on_exn; [|apply nc_delete_node]. rewrite <- E.
    apply calls_ro; [apply hint_matches_cb|apply ro_hint|]. intros b n4. destruct b; [apply nc_cb; apply nc_bind; [apply nc_delete_node|intro; apply nc_ret]|].
    apply get_t_calls. apply calls_ro; [apply cb_hash|apply ro_hash|]. intros h n1. apply opt_then. intros itb _. apply calls_ro; [apply find_impl_cb|apply ro_find_impl|]. intros [i|] n2.
    + apply nc_cb. apply nc_bind; [apply nc_delete_node|intro; apply nc_ret].
    + apply grow_insert_calls.
Qed.
Lemma hint_equiv_calls hint x s n : calls (emplace_hint_equiv c hint x s n) n (1 + (1 + nn (fst s) + gcost (fst s))).
Proof.
  unfold emplace_hint_equiv. apply calls_on_exn; [|apply nc_delete_node]. apply get_t_calls. cbv zeta. apply calls_ro; [apply hint_matches_cb|apply ro_hint|]. intros usable n1.
  apply calls_ro.
  - destruct (negb usable).
    + apply cb_bind; [apply cb_hash|intro]. apply cb_then0; [apply nc_opt|intro]. apply cb_0then; [apply find_impl_cb|intro; apply nc_ret].
    + destruct (_ <? _)%N; [|apply calls_ret]. eapply calls_le; [apply (cb_0then _ _ 1); [apply cb_hash|intro; apply nc_ret]|lia].
  - intros s1 m1 a s2 m2 E. destruct (negb usable).
    + unfold bind at 1 in E. destruct (hash_for cb _ _ s1 m1) as [h s3 m3|k s3 m3|] eqn:Eh; try discriminate. apply ro_hash in Eh as ->. destruct (at_hash _ _); [|discriminate]. cbn [of_option] in E. rewrite bind_ret in E.
      unfold bind in E. destruct (find_node_impl _ _ _ _ s1 m3) as [h2 s4 m4|k s4 m4|] eqn:Ef; try discriminate. apply ro_find_impl in Ef as ->. injection E as _ <- _. reflexivity.
    + destruct (_ <? _)%N; [|injection E as _ <- _; reflexivity]. unfold bind in E. destruct (hash_for cb _ _ s1 m1) as [h s3 m3|k s3 m3|] eqn:Eh; try discriminate. apply ro_hash in Eh as ->. injection E as _ <- _. reflexivity.
  - intros [[h itb] p] n2. unfold gcost, full. apply calls_0then; [|intro; apply nc_bind; [apply nc_on_b|intro]; apply nc_bind; [apply nc_mod_t|intro; apply nc_ret]].
    destruct (_ <? _)%N; [|apply calls_ret]. apply calls_0then; [apply reserve_calls|intro]. apply nc_bind; [apply nc_get_t|intro; apply nc_opt].
Qed.
Lemma assign_value_cb it v : Cb 1 (assign_value c it v).
Proof. unfold assign_value. apply cb_then0; [apply nc_get_t|intro]. apply cb_then0; [apply nc_opt|intro]. apply cb_0then; [apply cb_tick|intro; apply nc_on_b]. Qed.
Lemma assign_calls k v s n : calls (insert_or_assign_unique c k v s n) n (icost (fst s)).
Proof.
  unfold insert_or_assign_unique. apply get_t_calls. replace (icost (fst s)) with (1 + (nn (fst s) + (2 + gcost (fst s)))) by (unfold icost; lia). apply calls_ro; [apply cb_hash|apply ro_hash|]. intros h n1.
  apply opt_then. intros itb _. apply calls_ro; [apply find_impl_cb|apply ro_find_impl|]. intros [i|] n2.
  - eapply calls_le; [apply (cb_0then _ _ 1); [apply assign_value_cb|intro; apply nc_ret]|lia].
  - apply new_node_then. intros x s' n3 E. apply calls_0then; [|intro; apply nc_ret]. apply calls_on_exn; [|apply nc_delete_node]. rewrite <- E. apply grow_insert_calls.
Qed.
End C.
