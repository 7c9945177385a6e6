(** Calls of user-supplied functions by the closed-addressing containers: copies, moves, merging, comparison. *)
From Coq Require Import NArith ZArith Bool List Arith Lia Permutation.
From Verif Require Import FloatModel HashArithModel FoaModel FoaBase FcaLinks FcaModel FcaIter FcaInv FcaTab FcaRehash FcaOps FcaIns FcaIns2 FcaHandle FcaErase FcaErase2 FcaCopy FcaMove FcaMerge FcaSpec FcaWorld CallSpec FoaCalls FoaCalls2 FcaCalls FcaCalls2.
Import ListNotations.
Local Open Scope nat_scope.
Local Open Scope m_scope.
(** at most d calls, and Q if it returns *)
Definition Cp {St A} (r : R St A) (n d : nat) (Q : A -> St -> Prop) : Prop := calls r n d /\ match r with Ret a s' _ => Q a s' | _ => True end.
Lemma cp_bind {St A B} (m : M St A) (f : A -> M St B) s n d1 d2 P Q : Cp (m s n) n d1 P -> (forall a s' n', P a s' -> Cp (f a s' n') n' d2 Q) -> Cp (bind m f s n) n (d1 + d2) Q.
Proof.
  intros [H1 H2] Hf. unfold bind. destruct (m s n) as [a s' n'|k s' n'|]; cbn in *; [|split; [cbn; lia|exact I]|split; exact I].
  destruct (Hf a s' n' H2) as [X Y]. destruct (f a s' n') as [b s2 n2|k s2 n2|]; (split; [cbn in *; lia || exact I|exact Y || exact I]).
Qed.
Lemma cp_bind0 {St A B} (m : M St A) (f : A -> M St B) s n d P Q : Cp (m s n) n 0 P -> (forall a s' n', P a s' -> Cp (f a s' n') n' d Q) -> Cp (bind m f s n) n d Q.
Proof. apply cp_bind. Qed.
Lemma cp_le {St A} (r : R St A) n d d' (P Q : A -> St -> Prop) : Cp r n d P -> d <= d' -> (forall a s, P a s -> Q a s) -> Cp r n d' Q.
Proof. intros [H1 H2] L W. split; [eapply calls_le; eauto|]. destruct r; auto. Qed.
Lemma cp_calls {St A} (r : R St A) n d : calls r n d -> Cp r n d (fun _ _ => True).
Proof. intros H. split; [exact H|]. destruct r; exact I. Qed.
Lemma cp_opt {St A B} (o : option A) (f : A -> M St B) s n d Q : (forall a, o = Some a -> Cp (f a s n) n d Q) -> Cp (bind (of_option o) f s n) n d Q.
Proof. intros H. destruct o as [a|]; [apply (H a eq_refl)|split; exact I]. Qed.
Lemma cp_nc {St A} (m : M St A) s n : Nc m -> Cp (m s n) n 0 (fun _ _ => True).
Proof. intros H. apply cp_calls. exact (nc_cb m 0 H s n). Qed.
Lemma cp_ret {St A} (a : A) (s : St) n (Q : A -> St -> Prop) : Q a s -> Cp (ret a s n) n 0 Q.
Proof. intros H. split; [apply calls_ret|exact H]. Qed.
Lemma cp_lens {St T A} g (p : St -> T -> St) (m : M T A) s n d Q : Cp (m (g s) n) n d (fun a x => Q a (p s x)) -> Cp (lens g p m s n) n d Q.
Proof. intros [H1 H2]. unfold lens. destruct (m (g s) n); (split; [exact H1|exact H2 || exact I]). Qed.
Lemma cp_on_exn {St A} (m : M St A) h s n d Q : Cp (m s n) n d Q -> Nc h -> Cp (on_exn m h s n) n d Q.
Proof. intros [H1 H2] Hh. split; [apply calls_on_exn; assumption|]. unfold on_exn. destruct (m s n) as [a s' n'|k s' n'|]; auto. destruct (h s' n'); exact I. Qed.
Section C.
Context {K V : Type} (c : FCfg K V).
Notation node := (node K V).
Notation barray := (barray K V).
Notation table := (FcaModel.table K V).
Notation cb := (base c).
Notation St := (table * heap)%type.
Notation St2 := ((table * table) * heap)%type.
Notation RSt := (St * barray)%type.
Definition nb (b : barray) : nat := length (concat (b_chains b)).
Lemma cp_ro {X A} (m : M X A) s n d : calls (m s n) n d -> Ro m -> Cp (m s n) n d (fun _ s' => s' = s).
Proof. intros H R. split; [exact H|]. destruct (m s n) as [a s' n'|k s' n'|] eqn:E; auto. eapply R, E. Qed.
Lemma cp_hash {X} h k (s : X) n : Cp (hash_for cb h k s n) n 1 (fun _ s' => s' = s).
Proof. apply cp_ro; [apply cb_hash|apply ro_hash]. Qed.
Lemma cp_find_impl {X} (t : table) k itb (s : X) n : Cp (find_node_impl c t k itb s n) n (nn t) (fun _ s' => s' = s).
Proof. apply cp_ro; [apply find_impl_cb|apply ro_find_impl]. Qed.
Lemma cp_get_t {A} (f : table -> M St A) s n d Q : Cp (f (fst s) s n) n d Q -> Cp (bind (@get_t K V) f s n) n d Q.
Proof. intros H. exact H. Qed.
Lemma cp_get2 {A} (f : table * table -> M St2 A) s n d Q : Cp (f (fst s) s n) n d Q -> Cp (bind (@get2 K V) f s n) n d Q.
Proof. intros H. exact H. Qed.
(** *** numbers of nodes *)
Lemma set_nth_len (l l' : list node) : forall cs i, nth_error cs i = Some l -> length (concat (FoaModel.set_nth cs i l')) + length l = length (concat cs) + length l'.
Proof.
  induction cs as [|x cs IH]; intros i E; destruct i as [|i]; try discriminate.
  - injection E as ->. unfold FoaModel.set_nth. cbn. rewrite !app_length. lia.
  - cbn [nth_error] in E. specialize (IH i E). unfold FoaModel.set_nth in *. cbn in *. rewrite !app_length in *. lia.
Qed.
Lemma set_chain_nb (b b' : barray) it l l' : chain b it = Some l -> set_chain b it l' = Some b' -> nb b' + length l = nb b + length l'.
Proof. unfold chain, set_chain, nb. intros E. rewrite E. intros [= <-]. cbn [b_chains]. apply set_nth_len, E. Qed.
Lemma append_nb (b b' : barray) it : append_bucket_group b it = Some b' -> b_chains b' = b_chains b.
Proof.
  unfold append_bucket_group. destruct (chain b it) as [l|]; cbn; [|discriminate]. destruct (is_nil l).
  - destruct (append_bits (b_size b) (b_groups b) it) as [gs|]; cbn; intros E; inversion E; reflexivity.
  - intros E. inversion E. reflexivity.
Qed.
Lemma insert_after_len i (y : node) l : forall l', insert_after i y l = Some l' -> length l' = S (length l).
Proof.
  induction l as [|x l IH]; intros l'; [discriminate|]. cbn [insert_after]. destruct (_ =? _); [intros [= <-]; reflexivity|]. destruct (insert_after i y l) as [r|]; cbn; [|discriminate]. intros [= <-]. cbn. rewrite (IH r eq_refl). reflexivity.
Qed.
Lemma insert_hint_nb (b b' : barray) it x ho : insert_node_hint b it x ho = Some b' -> nb b' = S (nb b).
Proof.
  unfold insert_node_hint. destruct (append_bucket_group b it) as [b1|] eqn:E1; cbn; [|discriminate]. apply append_nb in E1. destruct (chain b1 it) as [l|] eqn:E2; cbn; [|discriminate].
  destruct ho as [i|].
  - destruct (insert_after i x l) as [l'|] eqn:E3; cbn; [|discriminate]. apply insert_after_len in E3. intros E4. pose proof (set_chain_nb _ _ _ _ _ E2 E4) as H. unfold nb in *. rewrite E1 in H. lia.
  - intros E4. pose proof (set_chain_nb _ _ _ _ _ E2 E4) as H. unfold nb in *. rewrite E1 in H. cbn [length] in H. lia.
Qed.
Lemma insert_nb (b b' : barray) it x : insert_node b it x = Some b' -> nb b' = S (nb b).
Proof. intros H. apply (insert_hint_nb b b' it x None). exact H. Qed.
Lemma cp_link (f : barray -> option barray) (s : St) n : (forall b b', f b = Some b' -> nb b' = S (nb b)) -> Cp (on_b f s n) n 0 (fun _ s' => nn (fst s') = S (nn (fst s))).
Proof.
  intros H. unfold on_b. apply cp_get_t. destruct (f (f_b (fst s))) as [b'|] eqn:E; cbn [of_option]; [|split; exact I]. rewrite bind_ret. split; [cbn; lia|]. cbn [mod_t modify fst set_b f_b]. unfold nn. cbn [f_b set_b]. apply (H _ _ E).
Qed.
Lemma cp_modt (f : table -> table) (s : St) n : (forall t, f_b (f t) = f_b t) -> Cp (mod_t f s n) n 0 (fun _ s' => nn (fst s') = nn (fst s)).
Proof. intros H. split; [cbn; lia|]. cbn [mod_t modify fst]. unfold nn. rewrite H. reflexivity. Qed.
Lemma cp_inc (s : St) n : Cp (mod_t inc_size s n) n 0 (fun _ s' => nn (fst s') = nn (fst s)).
Proof. apply cp_modt. reflexivity. Qed.
Lemma cp_new_node kd e s n : Cp (new_node c kd e s n) n 2 (fun _ s' => fst s' = fst s).
Proof. split; [apply new_node_cb|]. destruct (new_node c kd e s n) as [x s' n'|k s' n'|] eqn:E; auto. eapply new_node_same, E. Qed.
Lemma new_barray_nb {X} al m (s : X) n : Cp (new_barray c al m s n) n 2 (fun b s' => s' = s /\ nb b = 0).
Proof.
  split; [apply cb_new_barray|]. destruct (new_barray c al m s n) as [b s' n'|k s' n'|] eqn:E; auto. split; [eapply new_barray_same, E|]. unfold new_barray in E. destruct (_ =? _)%N; [injection E as <- _ _; reflexivity|].
  unfold bind in E. destruct (fca_size _); cbn [of_option ret undef] in E; [|discriminate]. unfold tick in E. destruct (throws cb KAlloc n); [discriminate|]. destruct (throws cb KAlloc (S n)); [discriminate|]. destruct (new_groups _); cbn [of_option ret undef] in E; [|discriminate].
  injection E as <- _ _. unfold nb. cbn [b_chains]. generalize (N.to_nat n0 + 1). intros k. induction k as [|k IH]; [reflexivity|]. exact IH.
Qed.
(** rehashing does not make nodes *)
Lemma transfer_chain_nb p l : forall s n, match transfer_chain c p l s n with Ret _ s' _ => nb (snd s') = nb (snd s) + length l | _ => True end.
Proof.
  induction l as [|x r IH]; intros s n; cbn [transfer_chain length]; [cbn; lia|]. rewrite bind_get. unfold bind at 1. destruct (hash_for cb _ (nkey x) s n) as [h s1 n1|k s1 n1|] eqn:Eh; [|exact I|exact I].
  apply hash_for_ret in Eh as (-> & -> & ->). destruct (at_hash _ _) as [it|]; [|exact I]. cbn [of_option]. rewrite bind_ret.
  destruct (insert_node _ _ _) as [b'|] eqn:Ei; [|exact I]. cbn [of_option]. rewrite bind_ret. apply insert_nb in Ei.
  rewrite bind_modify. unfold bind at 1. unfold on_st, lens. cbn [fst snd]. destruct (on_b _ (fst s) (S n)) as [u s2 n2|k s2 n2|]; [|exact I|exact I]. specialize (IH (s2, b') n2). destruct (transfer_chain c p r (s2, b') n2); auto. cbn [snd] in IH. lia.
Qed.
Lemma transfer_all_nb cs ps : forall s n, NoDup ps -> (forall p, In p ps -> nth_error (oldch s) p = nth_error cs p) ->
  match transfer_all c ps s n with Ret _ s' _ => nb (snd s') = nb (snd s) + sum_ch cs ps | _ => True end.
Proof.
  induction ps as [|p ps IH]; intros s n ND H; cbn [transfer_all]; [cbn; lia|]. rewrite bind_get. inversion ND; subst.
  change (sum_ch cs (p :: ps)) with (length (nth p cs []) + sum_ch cs ps). pose proof (H p (or_introl eq_refl)) as Ep. unfold oldch in Ep. rewrite Ep.
  destruct (nth_error cs p) as [l|] eqn:El; [|exact I]. cbn [of_option]. rewrite bind_ret. rewrite (nth_error_nth _ _ _ El).
  destruct (transfer_chain_calls c p l s n) as [_ Y]. pose proof (transfer_chain_nb p l s n) as Z. unfold bind. destruct (transfer_chain c p l s n) as [u s' n'|k s' n'|]; auto.
  assert (X : forall q, In q ps -> nth_error (oldch s') q = nth_error cs q). { intros q Hq. rewrite Y; [apply H; right; exact Hq|]. intros ->. contradiction. }
  assert (ND' : NoDup ps) by assumption. specialize (IH s' n' ND' X). destruct (transfer_all c ps s' n'); auto. lia.
Qed.
Definition grows_not (s : St) (r : R St unit) : Prop := match r with Ret _ s' _ => nn (fst s') <= nn (fst s) | _ => True end.
Lemma rehash_impl_nn m s n : grows_not s (rehash_impl c m s n).
Proof.
  unfold rehash_impl, get_t. rewrite bind_bind, bind_get, bind_ret. unfold bind at 1. destruct (new_barray_nb (f_al (fst s)) m s n) as [_ N0]. destruct (new_barray c _ m s n) as [b s1 n1|k s1 n1|]; [|exact I|exact I]. destruct N0 as [-> N0].
  unfold bind at 1. unfold on_exn at 1. pose proof (transfer_all_nb (oldch (s, b)) (seq 0 (b_size (f_b (fst s)))) (s, b) n1 (seq_NoDup _ _) (fun p _ => eq_refl)) as X.
  destruct (transfer_all c _ (s, b) n1) as [u s' n'|k s' n'|]; [| |exact I].
  - rewrite bind_get. destruct (b_dealloc _ _) as [u'|]; cbn [of_option]; [|exact I]. rewrite bind_ret. cbn [modify grows_not fst snd recalc set_ml set_b f_b]. unfold nn. cbn [f_b recalc set_ml set_b]. fold (nb (snd s')). rewrite X. cbn [snd]. rewrite N0. apply sum_ch_le.
  - match goal with |- grows_not _ (match match match ?r with _ => _ end with _ => _ end with _ => _ end) => destruct r; exact I end.
Qed.
Lemma rehash_nn m s n : grows_not s (rehash c m s n).
Proof.
  unfold rehash, get_t. rewrite bind_bind, bind_get, bind_ret. destruct (bucket_count_for _) as [b|]; [|exact I]. cbn [of_option]. rewrite bind_ret. destruct (negb _); [apply rehash_impl_nn|cbn; lia].
Qed.
Lemma cp_reserve m s n : Cp (reserve c m s n) n (2 + nn (fst s)) (fun _ s' => nn (fst s') <= nn (fst s)).
Proof. split; [apply reserve_calls|]. unfold reserve, get_t. rewrite bind_bind, bind_get, bind_ret. apply rehash_nn. Qed.
Lemma cp_rfi m s n : Cp (reserve_for_insert c m s n) n (2 + nn (fst s)) (fun _ s' => nn (fst s') <= nn (fst s)).
Proof.
  split; [apply rfi_calls|]. unfold reserve_for_insert, get_t. rewrite bind_bind, bind_get, bind_ret. destruct (_ <? _)%N; [|cbn; lia]. destruct (ceil_div _ _) as [q|]; [|exact I]. cbn [of_option]. rewrite bind_ret. cbv zeta. destruct (_ <=? _)%Z; [exact I|apply rehash_impl_nn].
Qed.
(** *** copies *)
Definition looks (m : nat) : nat := if multi c then m else 0.
Lemma cp_maybe_find {X} (t : table) k itb (s : X) n : Cp ((if multi c then find_node_impl c t k itb else ret None) s n) n (looks (nn t)) (fun _ s' => s' = s).
Proof. unfold looks. destruct (multi c); [apply cp_find_impl|apply cp_ret; reflexivity]. Qed.
Lemma looks_le a b : a <= b -> looks a <= looks b.
Proof. unfold looks. destruct (multi c); lia. Qed.
Lemma copy_nodes_calls l : forall s n m, nn (fst s) + length l <= m -> calls (copy_nodes c l s n) n (length l * (3 + looks m)).
Proof.
  induction l as [|y r IH]; intros s n m L; cbn [copy_nodes length Nat.mul]; [apply calls_ret|]. cbn [length] in L.
  eapply (proj1 (B := match copy_nodes c (y :: r) s n with Ret _ _ _ => True | _ => True end)). 
  apply (cp_get_t _ s n (3 + looks m + length r * (3 + looks m)) (fun _ _ => True)).
  assert (Lm : looks (nn (fst s)) <= looks m) by (apply looks_le; lia).
  eapply (cp_le _ _ (1 + (2 + (looks (nn (fst s)) + length r * (3 + looks m))))); [|lia|exact (fun _ _ H => H)].
  eapply cp_bind; [apply cp_hash|]. cbn beta. intros h s1 n1 ->. apply cp_opt. intros itb _. eapply cp_bind; [apply cp_new_node|]. cbn beta. intros x s2 n2 E2.
  eapply cp_bind; [apply (cp_on_exn _ _ _ _ _ (fun _ s' => nn (fst s') = S (nn (fst s)))); [|apply nc_delete_node]|].
  - eapply cp_le; [eapply cp_bind; [apply cp_maybe_find|]|rewrite Nat.add_0_r; reflexivity|exact (fun _ _ H => H)]. cbn beta. intros ho s3 n3 ->. eapply cp_le; [apply cp_link; intros b b'; apply insert_hint_nb|reflexivity|]. cbn beta. intros _ s' ->. rewrite E2. reflexivity.
  - cbn beta. intros _ s3 n3 E3. eapply cp_bind0; [apply cp_inc|]. cbn beta. intros _ s4 n4 E4. apply cp_calls. apply IH. lia.
Qed.
Lemma copy_buckets_calls src ls s n : elements src = Some ls -> nn (fst s) = 0 -> calls (copy_buckets c src s n) n (2 + length ls * (3 + looks (length ls))).
Proof.
  intros E Z. unfold copy_buckets. apply (calls_bind _ _ _ _ 2).
  - pose proof (rfi_calls c (f_size src) s n) as X. rewrite Z in X. exact X.
  - intros u s' n' R. rewrite E. cbn [of_option]. rewrite bind_ret. apply copy_nodes_calls. destruct (cp_rfi (f_size src) s n) as [_ X]. rewrite R in X. lia.
Qed.
Lemma copy_construct_calls (x : table) lx al h n : elements x = Some lx -> calls (copy_construct c x al h n) n (4 + length lx * (3 + looks (length lx))).
Proof.
  intros E. unfold copy_construct, construct_then. unfold bind at 1. destruct (new_barray_nb al (f_size x) h n) as [X Y]. destruct (new_barray c al (f_size x) h n) as [b h1 n1|k h1 n1|]; cbn [ret]; [|cbn in *; lia|exact I].
  set (t := recalc _). assert (nn t = 0) as Z by apply (proj2 Y).
  assert (calls ((if (0 <? f_size x)%N then copy_buckets c x else ret tt) (t, h1) n1) n1 (2 + length lx * (3 + looks (length lx)))) as W.
  { destruct (_ <? _)%N; [apply copy_buckets_calls; assumption|apply calls_ret]. }
  revert W. generalize (length lx * (3 + looks (length lx))) as D0. intros D0 W. unfold calls in X.
  match goal with |- calls match ?r with _ => _ end _ _ => destruct r as [u s2 n2|k s2 n2|] end; unfold calls in *; [lia| |exact I].
  pose proof (nc_delete_buckets (K:=K) (V:=V) s2 n2) as D. unfold destroy_table. destruct (delete_buckets s2 n2) as [u s3 n3|k3 s3 n3|]; [|exact I|exact I]. cbn [no_calls] in D. lia.
Qed.
Lemma nn_empty r s : SI c r s [] -> nn (fst s) = 0.
Proof. intros H. rewrite (nn_size c _ [] (si_t _ _ _ _ H)). reflexivity. Qed.
Lemma max_elems_size t l : TInv c t l -> (f_size t <= max_elems)%N.
Proof. intros T. rewrite (ti_size _ _ _ T). pose proof (ti_room _ _ _ T). lia. Qed.
Lemma rfi_si r t h l m n : SI c r (t, h) l -> (m <= max_elems)%N -> outcome (reserve_for_insert c m (t, h) n) (fun _ s' => exists l', SI c r s' l') (fun _ _ => True).
Proof.
  intros S1 Lm. pose proof (si_t _ _ _ _ S1) as T. pose proof (si_live _ _ _ _ S1) as SL. cbn [fst snd] in *. destruct (N.eq_dec m 0) as [->|E0].
  - unfold reserve_for_insert. rewrite get_t_eq. destruct (N.ltb_spec (f_ml t) 0) as [X|_]; [lia|]. cbn [outcome ret]. exists l. exact S1.
  - eapply outcome_weaken; [apply (reserve_for_insert_ok c t h l m n T)| |]; [lia|lia|exact Lm| |auto]. cbn beta. intros _ s' (Rh & _). destruct (Rehashed_SI c r t h l s' S1 Rh) as (l1 & A & _). eauto.
Qed.
Lemma assign_noprop_calls r s l (x : table) lx n : SI c r s l -> TInv c x lx -> elements x = Some lx -> calls (assign_noprop c x s n) n (4 + length l + length lx * (3 + looks (length lx))).
Proof.
  intros S0 Tx E. destruct s as [t h]. pose proof (si_t _ _ _ _ S0) as T. unfold assign_noprop. rewrite mod_t_eq. set (t1 := recalc _).
  assert (SI c r (t1, h) l) as S1. { destruct S0 as [_ I2 I3]. constructor; [apply TInv_recalc_mlf; [exact T|apply (ci_mlf _ _ _ (ti_c _ _ _ Tx))]|exact I2|exact I3]. }
  pose proof (si_t _ _ _ _ S1) as T1. cbn [fst] in T1. pose proof (nn_size c _ _ T1) as N1. clearbody t1.
  replace (4 + length l + length lx * (3 + looks (length lx))) with ((2 + nn t1) + (2 + length lx * (3 + looks (length lx)))) by lia.
  apply (outcome_calls _ _ _ _ _ _ _ _ (rfi_si r t1 h l (f_size x) n S1 (max_elems_size _ _ Tx))); [apply rfi_calls|]. intros _ s' n' (l' & S').
  unfold bind at 1. pose proof (clear_ok c r s' l' n' (fun _ _ => False) S') as Cl. pose proof (nc_clear (K:=K) (V:=V) s' n') as Nx. destruct (clear s' n') as [u s2 n2| |]; cbn [outcome no_calls] in *; [|contradiction|exact I]. subst n2. destruct s2 as [t2 h2]. rewrite mod_t_eq.
  apply copy_buckets_calls; [exact E|]. apply (nn_empty r (t2, h2)). apply Cl.
Qed.
Lemma copy_assign_calls r s l (x : table) lx n : SI c r s l -> TInv c x lx -> elements x = Some lx -> calls (copy_assign c x s n) n (6 + length l + length lx * (3 + looks (length lx))).
Proof.
  intros S0 Tx E. assert (A : calls (assign_noprop c x s n) n (6 + length l + length lx * (3 + looks (length lx)))) by (eapply calls_le; [apply (assign_noprop_calls r s l x lx n S0 Tx E)|lia]).
  unfold copy_assign. apply get_t_calls. destruct (pocca cb); [|exact A]. destruct (_ =? _)%N; [exact A|]. clear A.
  eapply (proj1 (B := True)). split; [|exact I]. eapply calls_le; [|apply (Nat.le_trans _ (2 + (2 + (2 + length lx * (3 + looks (length lx)))))); [reflexivity|lia]].
  pose proof (new_barray_nb (f_al x) (f_size x) s n) as NB.
  match goal with |- calls ?r ?n ?d => cut (Cp r n d (fun _ _ => True)); [intros [Z _]; exact Z|] end.
  eapply cp_bind; [exact NB|]. cbn beta. intros b s1 n1 [-> Zb]. eapply cp_bind0; [apply (cp_nc (mod_t _)), nc_mod_t|]. intros _ s2 n2 _. eapply cp_bind0; [apply (cp_nc delete_buckets), nc_delete_buckets|]. intros _ s3 n3 _.
  destruct s3 as [t3 h3]. rewrite mod_t_eq, mod_t_eq. match goal with |- Cp (bind _ _ ?s _) _ _ _ => set (s4 := s) end. assert (nn (fst s4) = 0) as Z by exact Zb.
  eapply cp_bind; [eapply cp_le; [apply cp_reserve|rewrite Z; reflexivity|exact (fun _ _ H => H)]|]. cbn beta. intros _ s5 n5 L5. apply cp_calls. destruct (_ <? _)%N; [apply copy_buckets_calls; [exact E|lia]|apply calls_ret].
Qed.
End C.
