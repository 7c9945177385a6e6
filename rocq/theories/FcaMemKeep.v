(** Closed addressing: the functions that do not allocate or release arrays leave them where they are. *)
From Coq Require Import NArith ZArith Bool List Arith Lia.
From Verif Require Import FloatModel HashArithModel FoaModel FcaLinks FcaModel FcaIter FcaSpec FcaWorld MemSpec.
From Verif Require FoaMem FoaMemKeep.
Import ListNotations.
Local Open Scope m_scope.

Notation keeps := FoaMemKeep.keeps.

Ltac kp := auto 40 with kp.

Section Keep.
Context {K V : Type} (c : FCfg K V).
Notation node := (node K V).
Notation barray := (barray K V).
Notation table := (FcaModel.table K V).
Notation cb := (base c).
Notation St := (table * heap)%type.
Notation RSt := (St * barray)%type.
Notation St2 := ((table * table) * heap)%type.

(** what of a bucket array matters to the allocators *)
Definition bsh (b : barray) : N * nat := (b_own b, b_size b).
Definition tsh (t : table) : N * nat := bsh (f_b t).
Definition sh (s : St) : N * nat := tsh (fst s).
Definition rsh (s : RSt) : (N * nat) * (N * nat) := (sh (fst s), bsh (snd s)).
Definition psh (s : St2) : (N * nat) * (N * nat) := (tsh (fst (fst s)), tsh (snd (fst s))).

Lemma keeps_tick {S X} (h : S -> X) k : keeps h (tick cb k).
Proof. intros s n. unfold tick. destruct (throws cb k n); reflexivity. Qed.
Hint Resolve keeps_tick : kp.
Lemma keeps_hash {S X} (h : S -> X) i k : keeps h (hash_for cb i k). Proof. unfold hash_for. kp. Qed.
Hint Resolve keeps_hash : kp.
Lemma keeps_fic {S X} (h : S -> X) p k l : keeps h (find_in_chain c p k l).
Proof. induction l as [|x l IH]; cbn [find_in_chain]; kp. Qed.
Hint Resolve keeps_fic : kp.
Lemma keeps_fni {S X} (h : S -> X) t k b : keeps h (find_node_impl c t k b). Proof. unfold find_node_impl. kp. Qed.
Hint Resolve keeps_fni : kp.
Lemma keeps_fn {S X} (h : S -> X) t k : keeps h (find_node c t k). Proof. unfold find_node. kp. Qed.
Lemma keeps_find {S X} (h : S -> X) t k : keeps h (find c t k). Proof. unfold find. kp. Qed.
Hint Resolve keeps_fn keeps_find : kp.
Lemma keeps_cc {S X} (h : S -> X) p k f l : keeps h (count_chain c p k f l).
Proof. revert f. induction l as [|x l IH]; intros f; cbn [count_chain]; kp. Qed.
Hint Resolve keeps_cc : kp.
Lemma keeps_gc {S X} (h : S -> X) t k : keeps h (group_count c t k). Proof. unfold group_count. kp. Qed.
Lemma keeps_ng {S X} (h : S -> X) p k l : keeps h (next_group c p k l).
Proof. induction l as [|x l IH]; cbn [next_group]; kp. Qed.
Hint Resolve keeps_gc keeps_ng : kp.
Lemma keeps_er {S X} (h : S -> X) t k : keeps h (equal_range c t k). Proof. unfold equal_range. kp. Qed.
Hint Resolve keeps_er : kp.

Lemma keeps_get_t {X} (h : St -> X) : keeps h (@get_t K V). Proof. unfold get_t. kp. Qed.
Lemma keeps_mod_t f : (forall t, tsh (f t) = tsh t) -> keeps sh (mod_t (K:=K) (V:=V) f).
Proof. intros H. unfold mod_t. apply FoaMemKeep.keeps_modify. intros s. unfold sh. cbn. apply H. Qed.
Lemma keeps_mod_h f : keeps sh (mod_h (K:=K) (V:=V) f). Proof. unfold mod_h. apply FoaMemKeep.keeps_modify. reflexivity. Qed.
Hint Resolve keeps_get_t keeps_mod_h : kp.
Hint Extern 2 (FoaMemKeep.keeps sh (mod_t _)) => apply keeps_mod_t; reflexivity : kp.
Lemma keeps_on_b f : (forall b b', f b = Some b' -> bsh b' = bsh b) -> keeps sh (on_b (K:=K) (V:=V) f).
Proof.
  intros H s n. unfold on_b, get_t, bind, get, ret, of_option, undef. destruct (f (f_b (fst s))) as [b|] eqn:E; [|exact I].
  unfold mod_t, modify, sh, tsh. cbn. apply H. exact E.
Qed.
Lemma sc_keep (b : barray) it l b' : set_chain b it l = Some b' -> bsh b' = bsh b.
Proof. unfold set_chain. destruct (nth_error _ _); [|discriminate]. intros [= <-]. reflexivity. Qed.
Lemma abg_keep (b : barray) it b' : append_bucket_group b it = Some b' -> bsh b' = bsh b.
Proof.
  unfold append_bucket_group, bindo. destruct (chain b it); [|discriminate]. destruct (is_nil l); [|intros [= <-]; reflexivity].
  destruct (append_bits _ _ _); [|discriminate]. intros [= <-]. reflexivity.
Qed.
Lemma in_keep (b : barray) it x b' : insert_node b it x = Some b' -> bsh b' = bsh b.
Proof.
  unfold insert_node, bindo. destruct (append_bucket_group b it) as [b1|] eqn:E; [|discriminate]. apply abg_keep in E.
  destruct (chain b1 it); [|discriminate]. intros H. apply sc_keep in H. congruence.
Qed.
Lemma inh_keep (b : barray) it x h b' : insert_node_hint b it x h = Some b' -> bsh b' = bsh b.
Proof.
  unfold insert_node_hint, bindo. destruct (append_bucket_group b it) as [b1|] eqn:E; [|discriminate]. apply abg_keep in E.
  destruct (chain b1 it); [|discriminate]. destruct h as [i|].
  - destruct (insert_after i x l); [|discriminate]. intros H. apply sc_keep in H. congruence.
  - intros H. apply sc_keep in H. congruence.
Qed.
Lemma bu_keep (b : barray) it b' : b_unlink b it = Some b' -> bsh b' = bsh b.
Proof. unfold b_unlink, bindo. destruct (unlink_bucket _ _); [|discriminate]. intros [= <-]. reflexivity. Qed.
Lemma bue_keep (b b' : barray) : b_unlink_empty b = Some b' -> bsh b' = bsh b.
Proof. unfold b_unlink_empty, bindo. destruct (unlink_empty_buckets _ _ _); [|discriminate]. intros [= <-]. reflexivity. Qed.
Lemma ex_keep (b : barray) it i b' : extract_node b it i = Some b' -> bsh b' = bsh b.
Proof.
  unfold extract_node, bindo. destruct (chain b it); [|discriminate]. destruct (remove_id i l) as [l'|]; [|discriminate].
  destruct (set_chain b it l') as [b1|] eqn:E; [|discriminate]. apply sc_keep in E. destruct (is_nil l'); [|intros [= <-]; exact E].
  intros H. apply bu_keep in H. congruence.
Qed.
Lemma rep_keep (b : barray) it f b' : bindo (chain b it) (fun l => bindo (f l) (fun l' => set_chain b it l')) = Some b' -> bsh b' = bsh b.
Proof. unfold bindo. destruct (chain b it); [|discriminate]. destruct (f l); [|discriminate]. apply sc_keep. Qed.
Hint Extern 2 (FoaMemKeep.keeps sh (on_b _)) => apply keeps_on_b; intros ? ? ?; eauto using sc_keep, in_keep, inh_keep, bu_keep, bue_keep, ex_keep, rep_keep : kp.

Lemma keeps_nn kd e : keeps sh (new_node c kd e). Proof. unfold new_node. kp. Qed.
Lemma keeps_dn (x : node) : keeps sh (delete_node x). Proof. unfold delete_node. kp. Qed.
Hint Resolve keeps_nn keeps_dn : kp.
Lemma keeps_on_st {A} (m : M St A) : keeps sh m -> keeps rsh (on_st m).
Proof. intros H. unfold on_st. apply FoaMemKeep.keeps_lens with (hT := sh); [exact H|]. intros s t E. unfold rsh. cbn [fst snd]. rewrite E. reflexivity. Qed.
Hint Resolve keeps_on_st : kp.
Lemma keeps_new_of (nb : barray) (s : RSt) : bsh nb = bsh (snd s) -> rsh (fst s, nb) = rsh s.
Proof. intros H. unfold rsh. cbn. rewrite H. reflexivity. Qed.
Lemma keeps_tc p l : keeps rsh (transfer_chain c p l).
Proof.
  induction l as [|x l IH]; cbn [transfer_chain]; [kp|]. apply FoaMemKeep.keeps_bind_get. intros s n.
  unfold bind. destruct (hash_for cb _ _ s n) as [h s1 n1|k s1 n1|] eqn:Eh; [| |exact I].
  2: { pose proof (keeps_hash (fun s => s) (f_hid (fst (fst s))) (nkey x) s n) as X. rewrite Eh in X. rewrite X. reflexivity. }
  pose proof (keeps_hash (fun s => s) (f_hid (fst (fst s))) (nkey x) s n) as X. rewrite Eh in X. subst s1.
  destruct (at_hash (snd s) h) as [it|]; cbn [of_option ret]; [|exact I].
  destruct (insert_node (snd s) it x) as [nb|] eqn:Ei; cbn [of_option ret modify]; [|exact I].
  assert (keeps rsh (bind (on_st (on_b (fun b => set_chain b (BI p None) l))) (fun _ => transfer_chain c p l))) as Y by kp.
  specialize (Y (fst s, nb) n1). unfold bind in Y. pose proof (keeps_new_of nb s (in_keep _ _ _ _ Ei)) as Z.
  destruct (on_st _ (fst s, nb) n1) as [a s2 n2|k s2 n2|]; [|congruence|exact I].
  destruct (transfer_chain c p l s2 n2); congruence.
Qed.
Hint Resolve keeps_tc : kp.
Lemma keeps_ta ps : keeps rsh (transfer_all c ps). Proof. induction ps as [|p ps IH]; cbn [transfer_all]; kp. Qed.
Lemma keeps_dl (l : list node) : keeps sh (delete_list l). Proof. induction l as [|x l IH]; cbn [delete_list]; kp. Qed.
Hint Resolve keeps_ta keeps_dl : kp.
Lemma keeps_dt fuel it : keeps rsh (delete_transferred (K:=K) (V:=V) fuel it).
Proof.
  revert it. induction fuel as [|f IH]; intros it; cbn [delete_transferred]; [kp|]. apply FoaMemKeep.keeps_bind_get. intros s n.
  destruct (bi_eqb it (b_end (snd s))); [reflexivity|]. unfold bind. destruct (chain (snd s) it) as [l|]; cbn [of_option ret]; [|exact I].
  pose proof (keeps_on_st _ (keeps_dl l) s n) as X. 
  assert (match on_st (delete_list l) s n with Ret _ s1 _ => snd s1 = snd s | _ => True end) as X2.
  { unfold on_st, lens. destruct (delete_list l (fst s) n); cbn; auto. }
  destruct (on_st (delete_list l) s n) as [a s1 n1|k s1 n1|]; [|exact X|exact I].
  destruct (set_chain (snd s) it []) as [nb|] eqn:E; cbn [of_option ret modify]; [|exact I].
  destruct (increment (b_groups nb) it) as [it'|]; cbn [of_option ret]; [|exact I].
  pose proof (IH it' (fst s1, nb) n1) as Y. rewrite (keeps_new_of nb s1) in Y.
  - destruct (delete_transferred f it' (fst s1, nb) n1); congruence.
  - rewrite X2. apply sc_keep in E. exact E.
Qed.
Hint Resolve keeps_dt : kp.

Lemma keeps_hm hint k : keeps sh (hint_matches c hint k). Proof. unfold hint_matches. kp. Qed.
Lemma keeps_av it v : keeps sh (assign_value c it v).
Proof. unfold assign_value. kp. Qed.
Hint Resolve keeps_hm keeps_av : kp.
Lemma keeps_enr (x : node) : keeps sh (emplace_no_rehash_equiv c x). Proof. unfold emplace_no_rehash_equiv. kp. Qed.
Hint Resolve keeps_enr : kp.
Lemma keeps_inr l : keeps sh (insert_no_rehash c l). Proof. induction l as [|x l IH]; cbn [insert_no_rehash]; kp. Qed.
Lemma keeps_fp t k b : keeps sh (find_prev c t k b). Proof. unfold find_prev. kp. Qed.
Lemma keeps_la b i : keeps sh (lookup_at (K:=K) (V:=V) b i). Proof. unfold lookup_at. kp. Qed.
Hint Resolve keeps_inr keeps_fp keeps_la : kp.
Lemma keeps_eku k : keeps sh (erase_key_unique c k). Proof. unfold erase_key_unique. kp. Qed.
Lemma keeps_erun p k b pre l : keeps sh (erase_run c p k b pre l).
Proof. revert pre. induction l as [|x l IH]; intros pre; cbn [erase_run]; kp. Qed.
Hint Resolve keeps_eku keeps_erun : kp.
Lemma keeps_eke k : keeps sh (erase_key_equiv c k). Proof. unfold erase_key_equiv. kp. Qed.
Lemma keeps_en it : keeps sh (erase_node (K:=K) (V:=V) it). Proof. unfold erase_node. kp. Qed.
Hint Resolve keeps_eke keeps_en : kp.
Lemma keeps_ef fuel b pre last : keeps sh (erase_from (K:=K) (V:=V) fuel b pre last).
Proof. revert b pre. induction fuel as [|f IH]; intros b pre; cbn [erase_from]; cbv zeta; kp. Qed.
Hint Resolve keeps_ef : kp.
Lemma keeps_enrg a b : keeps sh (erase_nodes_range (K:=K) (V:=V) a b). Proof. unfold erase_nodes_range. kp. Qed.
Lemma keeps_ea it : keeps sh (extract_at (K:=K) (V:=V) it). Proof. unfold extract_at. kp. Qed.
Hint Resolve keeps_enrg keeps_ea : kp.
Lemma keeps_ek k : keeps sh (extract_key c k). Proof. unfold extract_key. kp. Qed.
Lemma keeps_clc (l : list node) b : keeps sh (clear_chain l b). Proof. induction l as [|x l IH]; cbn [clear_chain]; kp. Qed.
Hint Resolve keeps_ek keeps_clc : kp.
Lemma keeps_cf fuel b : keeps sh (clear_from (K:=K) (V:=V) fuel b).
Proof. revert b. induction fuel as [|f IH]; intros b; cbn [clear_from]; kp. Qed.
Hint Resolve keeps_cf : kp.
Lemma keeps_clear : keeps sh (clear (K:=K) (V:=V)). Proof. unfold clear. kp. Qed.
Lemma keeps_df fuel p : keeps sh (delete_from (K:=K) (V:=V) fuel p).
Proof. revert p. induction fuel as [|f IH]; intros p; cbn [delete_from]; kp. Qed.
Lemma keeps_eif fuel pr p : keeps sh (erase_if_from c fuel pr p).
Proof. revert p. induction fuel as [|f IH]; intros p; cbn [erase_if_from]; kp. Qed.
Hint Resolve keeps_clear keeps_df keeps_eif : kp.
Lemma keeps_ei pr : keeps sh (erase_if c pr). Proof. unfold erase_if. kp. Qed.
Hint Resolve keeps_ei : kp.
Lemma keeps_cn l : keeps sh (copy_nodes c l).
Proof. induction l as [|x l IH]; cbn [copy_nodes]; kp. Qed.
Lemma keeps_leave b (y : node) : keeps sh (leave c b y). Proof. unfold leave. kp. Qed.
Hint Resolve keeps_cn keeps_leave : kp.
Lemma keeps_on1 {A} (m : M St A) : keeps sh m -> keeps psh (on1 m).
Proof. intros H. unfold on1. apply FoaMemKeep.keeps_lens with (hT := sh); [exact H|]. intros s t E. unfold psh, sh in *. cbn in *. rewrite E. reflexivity. Qed.
Lemma keeps_on2 {A} (m : M St A) : keeps sh m -> keeps psh (on2 m).
Proof. intros H. unfold on2. apply FoaMemKeep.keeps_lens with (hT := sh); [exact H|]. intros s t E. unfold psh, sh in *. cbn in *. rewrite E. reflexivity. Qed.
Lemma keeps_get2 {X} (h : St2 -> X) : keeps h (@get2 K V). Proof. unfold get2. kp. Qed.
Hint Resolve keeps_on1 keeps_on2 keeps_get2 : kp.
Lemma keeps_mnf fuel p : keeps psh (move_nodes_from c fuel p).
Proof. revert p. induction fuel as [|f IH]; intros p; cbn [move_nodes_from]; kp. Qed.
Lemma keeps_man fuel p : keeps psh (move_assign_nodes c fuel p).
Proof. revert p. induction fuel as [|f IH]; intros p; cbn [move_assign_nodes]; kp. Qed.
Lemma keeps_mf fuel p : keeps psh (merge_from c fuel p).
Proof. revert p. induction fuel as [|f IH]; intros p; cbn [merge_from]; kp. Qed.
Hint Resolve keeps_mnf keeps_man keeps_mf : kp.
Lemma keeps_el {S X} (h : S -> X) eeq y l : keeps h (equals_loop c eeq y l).
Proof. induction l as [|x l IH]; cbn [equals_loop]; kp. Qed.
Lemma keeps_eg {S X} (h : S -> X) fuel eeq x y l : keeps h (equals_groups c fuel eeq x y l).
Proof. revert l. induction fuel as [|f IH]; intros l; cbn [equals_groups]; kp. Qed.
Hint Resolve keeps_el keeps_eg : kp.
Lemma keeps_eq {S X} (h : S -> X) eeq x y : keeps h (equal_tables c eeq x y).
Proof. unfold equal_tables, equals_unique, equals_equiv. kp. Qed.
Lemma keeps_deref it : keeps sh (deref (K:=K) (V:=V) it). Proof. unfold deref. kp. Qed.
Hint Resolve keeps_eq keeps_deref : kp.
Lemma keeps_dro it : keeps sh (deref_opt (K:=K) (V:=V) it). Proof. unfold deref_opt. kp. Qed.
Lemma keeps_ia m : keeps sh (it_at (K:=K) (V:=V) m). Proof. unfold it_at. kp. Qed.
Hint Resolve keeps_dro keeps_ia : kp.
Lemma keeps_mlf z : keeps sh (max_load_factor (K:=K) (V:=V) z). Proof. unfold max_load_factor. kp. Qed.
Hint Resolve keeps_mlf : kp.
Lemma keeps_exec1 o :
  match o with Insert _ _ | InsertHint _ _ _ | InsertRange _ _ | AssignList _ | InsertOrAssign _ _ | Index _ _ | Rehash _ | Reserve _ => True
  | _ => keeps sh (exec1 c o) end.
Proof. destruct o; try exact I; cbn [exec1]; kp. Qed.
End Keep.
