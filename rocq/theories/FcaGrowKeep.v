(** Closed addressing: what the member functions do to bucket_count(), max_load() and max_load_factor(). First the functions that change none of them (as FcaMemKeep.v). *)
From Coq Require Import NArith ZArith Bool List Arith Lia.
From Verif Require Import FloatModel HashArithModel FoaModel FcaLinks FcaModel FcaIter FcaSpec FcaWorld MemSpec.
From Verif Require FoaMem FoaMemKeep.
Import ListNotations.
Local Open Scope m_scope.

Notation keeps := FoaMemKeep.keeps.

Ltac kp := auto 40 with kp.

Section Keep.
Context {K V : Type} (c : FCfg K V).
Notation node := (node K V).
Notation barray := (barray K V).
Notation table := (FcaModel.table K V).
Notation cb := (base c).
Notation St := (table * heap)%type.
Notation RSt := (St * barray)%type.
Notation St2 := ((table * table) * heap)%type.

(** bucket array, maximum load factor, maximum load *)
Definition bsh (b : barray) : N * nat := (b_own b, b_size b).
Notation SH := ((N * nat) * (option Z * N))%type.
Definition tsh (t : table) : SH := (bsh (f_b t), (f_mlf t, f_ml t)).
Definition sh (s : St) : SH := tsh (fst s).
Definition rsh (s : RSt) : SH * (N * nat) := (sh (fst s), bsh (snd s)).

Lemma keeps_tick {S X} (h : S -> X) k : keeps h (tick cb k).
Proof. intros s n. unfold tick. destruct (throws cb k n); reflexivity. Qed.
Hint Resolve keeps_tick : kp.
Lemma keeps_hash {S X} (h : S -> X) i k : keeps h (hash_for cb i k). Proof. unfold hash_for. kp. Qed.
Hint Resolve keeps_hash : kp.
Lemma keeps_fic {S X} (h : S -> X) p k l : keeps h (find_in_chain c p k l).
Proof. induction l as [|x l IH]; cbn [find_in_chain]; kp. Qed.
Hint Resolve keeps_fic : kp.
Lemma keeps_fni {S X} (h : S -> X) t k b : keeps h (find_node_impl c t k b). Proof. unfold find_node_impl. kp. Qed.
Hint Resolve keeps_fni : kp.
Lemma keeps_fn {S X} (h : S -> X) t k : keeps h (find_node c t k). Proof. unfold find_node. kp. Qed.
Lemma keeps_find {S X} (h : S -> X) t k : keeps h (find c t k). Proof. unfold find. kp. Qed.
Hint Resolve keeps_fn keeps_find : kp.
Lemma keeps_cc {S X} (h : S -> X) p k f l : keeps h (count_chain c p k f l).
Proof. revert f. induction l as [|x l IH]; intros f; cbn [count_chain]; kp. Qed.
Hint Resolve keeps_cc : kp.
Lemma keeps_gc {S X} (h : S -> X) t k : keeps h (group_count c t k). Proof. unfold group_count. kp. Qed.
Lemma keeps_ng {S X} (h : S -> X) p k l : keeps h (next_group c p k l).
Proof. induction l as [|x l IH]; cbn [next_group]; kp. Qed.
Hint Resolve keeps_gc keeps_ng : kp.
Lemma keeps_er {S X} (h : S -> X) t k : keeps h (equal_range c t k). Proof. unfold equal_range. kp. Qed.
Hint Resolve keeps_er : kp.

Lemma keeps_get_t {X} (h : St -> X) : keeps h (@get_t K V). Proof. unfold get_t. kp. Qed.
Lemma keeps_mod_t f : (forall t, tsh (f t) = tsh t) -> keeps sh (mod_t (K:=K) (V:=V) f).
Proof. intros H. unfold mod_t. apply FoaMemKeep.keeps_modify. intros s. unfold sh. cbn. apply H. Qed.
Lemma keeps_mod_h f : keeps sh (mod_h (K:=K) (V:=V) f). Proof. unfold mod_h. apply FoaMemKeep.keeps_modify. reflexivity. Qed.
Hint Resolve keeps_get_t keeps_mod_h : kp.
Hint Extern 2 (FoaMemKeep.keeps sh (mod_t _)) => apply keeps_mod_t; reflexivity : kp.
Lemma keeps_on_b f : (forall b b', f b = Some b' -> bsh b' = bsh b) -> keeps sh (on_b (K:=K) (V:=V) f).
Proof.
  intros H s n. unfold on_b, get_t, bind, get, ret, of_option, undef. destruct (f (f_b (fst s))) as [b|] eqn:E; [|exact I].
  unfold mod_t, modify, sh, tsh. cbn. rewrite (H _ _ E). reflexivity.
Qed.
Lemma sc_keep (b : barray) it l b' : set_chain b it l = Some b' -> bsh b' = bsh b.
Proof. unfold set_chain. destruct (nth_error _ _); [|discriminate]. intros [= <-]. reflexivity. Qed.
Lemma abg_keep (b : barray) it b' : append_bucket_group b it = Some b' -> bsh b' = bsh b.
Proof.
  unfold append_bucket_group, bindo. destruct (chain b it); [|discriminate]. destruct (is_nil l); [|intros [= <-]; reflexivity].
  destruct (append_bits _ _ _); [|discriminate]. intros [= <-]. reflexivity.
Qed.
Lemma in_keep (b : barray) it x b' : insert_node b it x = Some b' -> bsh b' = bsh b.
Proof.
  unfold insert_node, bindo. destruct (append_bucket_group b it) as [b1|] eqn:E; [|discriminate]. apply abg_keep in E.
  destruct (chain b1 it); [|discriminate]. intros H. apply sc_keep in H. congruence.
Qed.
Lemma inh_keep (b : barray) it x h b' : insert_node_hint b it x h = Some b' -> bsh b' = bsh b.
Proof.
  unfold insert_node_hint, bindo. destruct (append_bucket_group b it) as [b1|] eqn:E; [|discriminate]. apply abg_keep in E.
  destruct (chain b1 it); [|discriminate]. destruct h as [i|].
  - destruct (insert_after i x l); [|discriminate]. intros H. apply sc_keep in H. congruence.
  - intros H. apply sc_keep in H. congruence.
Qed.
Lemma bu_keep (b : barray) it b' : b_unlink b it = Some b' -> bsh b' = bsh b.
Proof. unfold b_unlink, bindo. destruct (unlink_bucket _ _); [|discriminate]. intros [= <-]. reflexivity. Qed.
Lemma bue_keep (b b' : barray) : b_unlink_empty b = Some b' -> bsh b' = bsh b.
Proof. unfold b_unlink_empty, bindo. destruct (unlink_empty_buckets _ _ _); [|discriminate]. intros [= <-]. reflexivity. Qed.
Lemma ex_keep (b : barray) it i b' : extract_node b it i = Some b' -> bsh b' = bsh b.
Proof.
  unfold extract_node, bindo. destruct (chain b it); [|discriminate]. destruct (remove_id i l) as [l'|]; [|discriminate].
  destruct (set_chain b it l') as [b1|] eqn:E; [|discriminate]. apply sc_keep in E. destruct (is_nil l'); [|intros [= <-]; exact E].
  intros H. apply bu_keep in H. congruence.
Qed.
Lemma rep_keep (b : barray) it f b' : bindo (chain b it) (fun l => bindo (f l) (fun l' => set_chain b it l')) = Some b' -> bsh b' = bsh b.
Proof. unfold bindo. destruct (chain b it); [|discriminate]. destruct (f l); [|discriminate]. apply sc_keep. Qed.
Hint Extern 2 (FoaMemKeep.keeps sh (on_b _)) => apply keeps_on_b; intros ? ? ?; eauto using sc_keep, in_keep, inh_keep, bu_keep, bue_keep, ex_keep, rep_keep : kp.

Lemma keeps_nn kd e : keeps sh (new_node c kd e). Proof. unfold new_node. kp. Qed.
Lemma keeps_dn (x : node) : keeps sh (delete_node x). Proof. unfold delete_node. kp. Qed.
Hint Resolve keeps_nn keeps_dn : kp.
Lemma keeps_on_st {A} (m : M St A) : keeps sh m -> keeps rsh (on_st m).
Proof. intros H. unfold on_st. apply FoaMemKeep.keeps_lens with (hT := sh); [exact H|]. intros s t E. unfold rsh. cbn [fst snd]. rewrite E. reflexivity. Qed.
Hint Resolve keeps_on_st : kp.
Lemma keeps_new_of (nb : barray) (s : RSt) : bsh nb = bsh (snd s) -> rsh (fst s, nb) = rsh s.
Proof. intros H. unfold rsh. cbn. rewrite H. reflexivity. Qed.
Lemma keeps_tc p l : keeps rsh (transfer_chain c p l).
Proof.
  induction l as [|x l IH]; cbn [transfer_chain]; [kp|]. apply FoaMemKeep.keeps_bind_get. intros s n.
  unfold bind. destruct (hash_for cb _ _ s n) as [h s1 n1|k s1 n1|] eqn:Eh; [| |exact I].
  2: { pose proof (keeps_hash (fun s => s) (f_hid (fst (fst s))) (nkey x) s n) as X. rewrite Eh in X. rewrite X. reflexivity. }
  pose proof (keeps_hash (fun s => s) (f_hid (fst (fst s))) (nkey x) s n) as X. rewrite Eh in X. subst s1.
  destruct (at_hash (snd s) h) as [it|]; cbn [of_option ret]; [|exact I].
  destruct (insert_node (snd s) it x) as [nb|] eqn:Ei; cbn [of_option ret modify]; [|exact I].
  assert (keeps rsh (bind (on_st (on_b (fun b => set_chain b (BI p None) l))) (fun _ => transfer_chain c p l))) as Y by kp.
  specialize (Y (fst s, nb) n1). unfold bind in Y. pose proof (keeps_new_of nb s (in_keep _ _ _ _ Ei)) as Z.
  destruct (on_st _ (fst s, nb) n1) as [a s2 n2|k s2 n2|]; [|congruence|exact I].
  destruct (transfer_chain c p l s2 n2); congruence.
Qed.
Hint Resolve keeps_tc : kp.
Lemma keeps_ta ps : keeps rsh (transfer_all c ps). Proof. induction ps as [|p ps IH]; cbn [transfer_all]; kp. Qed.
Lemma keeps_dl (l : list node) : keeps sh (delete_list l). Proof. induction l as [|x l IH]; cbn [delete_list]; kp. Qed.
Hint Resolve keeps_ta keeps_dl : kp.
Lemma keeps_dt fuel it : keeps rsh (delete_transferred (K:=K) (V:=V) fuel it).
Proof.
  revert it. induction fuel as [|f IH]; intros it; cbn [delete_transferred]; [kp|]. apply FoaMemKeep.keeps_bind_get. intros s n.
  destruct (bi_eqb it (b_end (snd s))); [reflexivity|]. unfold bind. destruct (chain (snd s) it) as [l|]; cbn [of_option ret]; [|exact I].
  pose proof (keeps_on_st _ (keeps_dl l) s n) as X. 
  assert (match on_st (delete_list l) s n with Ret _ s1 _ => snd s1 = snd s | _ => True end) as X2.
  { unfold on_st, lens. destruct (delete_list l (fst s) n); cbn; auto. }
  destruct (on_st (delete_list l) s n) as [a s1 n1|k s1 n1|]; [|exact X|exact I].
  destruct (set_chain (snd s) it []) as [nb|] eqn:E; cbn [of_option ret modify]; [|exact I].
  destruct (increment (b_groups nb) it) as [it'|]; cbn [of_option ret]; [|exact I].
  pose proof (IH it' (fst s1, nb) n1) as Y. rewrite (keeps_new_of nb s1) in Y.
  - destruct (delete_transferred f it' (fst s1, nb) n1); congruence.
  - rewrite X2. apply sc_keep in E. exact E.
Qed.
Hint Resolve keeps_dt : kp.

Lemma keeps_hm hint k : keeps sh (hint_matches c hint k). Proof. unfold hint_matches. kp. Qed.
Lemma keeps_av it v : keeps sh (assign_value c it v).
Proof. unfold assign_value. kp. Qed.
Hint Resolve keeps_hm keeps_av : kp.
Lemma keeps_enr (x : node) : keeps sh (emplace_no_rehash_equiv c x). Proof. unfold emplace_no_rehash_equiv. kp. Qed.
Hint Resolve keeps_enr : kp.
Lemma keeps_inr l : keeps sh (insert_no_rehash c l). Proof. induction l as [|x l IH]; cbn [insert_no_rehash]; kp. Qed.
Lemma keeps_fp t k b : keeps sh (find_prev c t k b). Proof. unfold find_prev. kp. Qed.
Lemma keeps_la b i : keeps sh (lookup_at (K:=K) (V:=V) b i). Proof. unfold lookup_at. kp. Qed.
Hint Resolve keeps_inr keeps_fp keeps_la : kp.
Lemma keeps_eku k : keeps sh (erase_key_unique c k). Proof. unfold erase_key_unique. kp. Qed.
Lemma keeps_erun p k b pre l : keeps sh (erase_run c p k b pre l).
Proof. revert pre. induction l as [|x l IH]; intros pre; cbn [erase_run]; kp. Qed.
Hint Resolve keeps_eku keeps_erun : kp.
Lemma keeps_eke k : keeps sh (erase_key_equiv c k). Proof. unfold erase_key_equiv. kp. Qed.
Lemma keeps_en it : keeps sh (erase_node (K:=K) (V:=V) it). Proof. unfold erase_node. kp. Qed.
Hint Resolve keeps_eke keeps_en : kp.
Lemma keeps_ef fuel b pre last : keeps sh (erase_from (K:=K) (V:=V) fuel b pre last).
Proof. revert b pre. induction fuel as [|f IH]; intros b pre; cbn [erase_from]; cbv zeta; kp. Qed.
Hint Resolve keeps_ef : kp.
Lemma keeps_enrg a b : keeps sh (erase_nodes_range (K:=K) (V:=V) a b). Proof. unfold erase_nodes_range. kp. Qed.
Lemma keeps_ea it : keeps sh (extract_at (K:=K) (V:=V) it). Proof. unfold extract_at. kp. Qed.
Hint Resolve keeps_enrg keeps_ea : kp.
Lemma keeps_ek k : keeps sh (extract_key c k). Proof. unfold extract_key. kp. Qed.
Lemma keeps_clc (l : list node) b : keeps sh (clear_chain l b). Proof. induction l as [|x l IH]; cbn [clear_chain]; kp. Qed.
Hint Resolve keeps_ek keeps_clc : kp.
Lemma keeps_cf fuel b : keeps sh (clear_from (K:=K) (V:=V) fuel b).
Proof. revert b. induction fuel as [|f IH]; intros b; cbn [clear_from]; kp. Qed.
Hint Resolve keeps_cf : kp.
Lemma keeps_clear : keeps sh (clear (K:=K) (V:=V)). Proof. unfold clear. kp. Qed.
Lemma keeps_df fuel p : keeps sh (delete_from (K:=K) (V:=V) fuel p).
Proof. revert p. induction fuel as [|f IH]; intros p; cbn [delete_from]; kp. Qed.
Lemma keeps_eif fuel pr p : keeps sh (erase_if_from c fuel pr p).
Proof. revert p. induction fuel as [|f IH]; intros p; cbn [erase_if_from]; kp. Qed.
Hint Resolve keeps_clear keeps_df keeps_eif : kp.
Lemma keeps_ei pr : keeps sh (erase_if c pr). Proof. unfold erase_if. kp. Qed.
Hint Resolve keeps_ei : kp.
Lemma keeps_deref it : keeps sh (deref (K:=K) (V:=V) it). Proof. unfold deref. kp. Qed.
Hint Resolve keeps_deref : kp.
Lemma keeps_do it : keeps sh (deref_opt (K:=K) (V:=V) it). Proof. unfold deref_opt. destruct (e_eqb it e_end); kp. Qed.
Lemma keeps_ia m : keeps sh (it_at (K:=K) (V:=V) m). Proof. unfold it_at. kp. Qed.
Hint Resolve keeps_deref keeps_do keeps_ia : kp.

(** *** insertions: if they throw, everything is as before *)
Definition nx {A} (m : M St A) : Prop := forall s n, match m s n with Exn _ _ _ => False | _ => True end.
Definition xk {A} (m : M St A) : Prop := forall s n, match m s n with Exn _ s' _ => sh s' = sh s | _ => True end.
Lemma xk_keeps {A} (m : M St A) : keeps sh m -> xk m.
Proof. intros H s n. specialize (H s n). destruct (m s n); auto. Qed.
Lemma xk_bind {A B} (m : M St A) (f : A -> M St B) : keeps sh m -> (forall a, xk (f a)) -> xk (bind m f).
Proof.
  intros H F s n. specialize (H s n). unfold bind. destruct (m s n) as [a s1 n1|k s1 n1|]; auto. specialize (F a s1 n1). destruct (f a s1 n1); auto. congruence.
Qed.
Lemma xk_then {A B} (m : M St A) (f : A -> M St B) : xk m -> (forall a, nx (f a)) -> xk (bind m f).
Proof.
  intros H F s n. specialize (H s n). unfold bind. destruct (m s n) as [a s1 n1|k s1 n1|]; auto. specialize (F a s1 n1). destruct (f a s1 n1); auto. contradiction.
Qed.
Lemma xk_on_exn {A} (m : M St A) (f : M St unit) : xk m -> keeps sh f -> xk (on_exn m f).
Proof.
  intros H F s n. specialize (H s n). unfold on_exn. destruct (m s n) as [a s1 n1|k s1 n1|]; auto. specialize (F s1 n1). destruct (f s1 n1) as [u s2 n2|k2 s2 n2|]; auto; congruence.
Qed.
Lemma nx_bind {A B} (m : M St A) (f : A -> M St B) : nx m -> (forall a, nx (f a)) -> nx (bind m f).
Proof. intros H F s n. specialize (H s n). unfold bind. destruct (m s n) as [a s1 n1|k s1 n1|]; auto. apply F. Qed.
Lemma nx_ret {A} (a : A) : nx (ret a). Proof. intros s n. exact I. Qed.
Lemma nx_opt {A} (o : option A) : nx (of_option o). Proof. intros s n. destruct o; exact I. Qed.
Lemma nx_get : nx get. Proof. intros s n. exact I. Qed.
Lemma nx_mod f : nx (modify f). Proof. intros s n. exact I. Qed.
Lemma nx_get_t : nx (@get_t K V). Proof. apply nx_bind; [apply nx_get|intro; apply nx_ret]. Qed.
Ltac nxt := repeat first [apply nx_ret|apply nx_opt|apply nx_get|apply nx_mod|apply nx_get_t|(apply nx_bind; [|intro])].
Lemma nx_on_b f : nx (on_b (K:=K) (V:=V) f). Proof. unfold on_b, mod_t. nxt. Qed.
Lemma nx_mod_t f : nx (mod_t (K:=K) (V:=V) f). Proof. unfold mod_t. nxt. Qed.
Lemma nx_deref it : nx (deref (K:=K) (V:=V) it). Proof. unfold deref. nxt. Qed.
Ltac nxx := repeat first [apply nx_ret|apply nx_opt|apply nx_get|apply nx_mod|apply nx_get_t|apply nx_on_b|apply nx_mod_t|apply nx_deref|(apply nx_bind; [|intro])].
Lemma new_same {X} al m (s : X) n : match new_barray c al m s n with Ret _ s' _ | Exn _ s' _ => s' = s | Undef => True end.
Proof.
  unfold new_barray. destruct (N.eqb m 0); [reflexivity|]. cbv zeta. destruct (fca_size _) as [szN|]; [|exact I].
  unfold of_option, bind, tick, ret. destruct (throws cb KAlloc n); [reflexivity|]. destruct (throws cb KAlloc (S n)); [reflexivity|].
  destruct (new_groups _); [reflexivity|exact I].
Qed.
Lemma xk_rehash_impl m : xk (rehash_impl c m).
Proof.
  intros s n. unfold rehash_impl, get_t. unfold bind at 1. unfold bind at 1. cbn [get ret]. unfold bind at 1.
  pose proof (new_same (f_al (fst s)) m s n) as X. destruct (new_barray c (f_al (fst s)) m s n) as [nb s1 n1|k s1 n1|]; [subst s1|subst s1; reflexivity|exact I].
  set (b := on_exn _ _).
  assert (keeps rsh b) as Kb. { unfold b. apply FoaMemKeep.keeps_on_exn; [apply keeps_ta|]. kp. }
  unfold bind at 1. specialize (Kb (s, nb) n1). destruct (b (s, nb) n1) as [a s2 n2|k s2 n2|]; [| |exact I].
  - unfold bind, get, of_option, modify, ret, undef. destruct (b_dealloc _ _); exact I.
  - exact (f_equal fst Kb).
Qed.
Lemma xk_rehash m : xk (rehash c m).
Proof.
  unfold rehash. apply xk_bind; [kp|intro t]. apply xk_bind; [kp|intro nb]. destruct (negb _); [apply xk_rehash_impl|apply xk_keeps; kp].
Qed.
Lemma xk_reserve m : xk (reserve c m).
Proof. unfold reserve. apply xk_bind; [kp|intro t]. apply xk_rehash. Qed.
Lemma xk_g1 h itb : xk (grow_for_one c h itb).
Proof.
  unfold grow_for_one. apply xk_bind; [kp|intro t]. destruct (N.ltb _ _); [|apply xk_keeps; kp]. apply xk_then; [apply xk_reserve|intro; nxx].
Qed.
Lemma xk_gi x h itb : xk (grow_insert c x h itb).
Proof. unfold grow_insert. apply xk_then; [apply xk_g1|intro; nxx]. Qed.
Ltac xx := repeat first
  [ apply xk_gi
  | (apply xk_on_exn; [|kp])
  | (apply xk_keeps; solve [kp])
  | (apply xk_then; [apply xk_gi|intro; nxx])
  | (apply xk_then; [apply xk_on_exn; [apply xk_gi|kp]|intro; nxx])
  | (apply xk_then; [apply xk_g1|intro; nxx])
  | (apply xk_bind; [solve [kp]|intro])
  | match goal with |- xk (match ?x with _ => _ end) => destruct x end ].
Lemma xk_euk kd e : xk (emplace_unique_key c kd e). Proof. unfold emplace_unique_key. xx. Qed.
Lemma xk_eun kd e : xk (emplace_unique_nokey c kd e). Proof. unfold emplace_unique_nokey. xx. Qed.
Lemma xk_eu kf kd e : xk (emplace_unique c kf kd e). Proof. unfold emplace_unique. destruct kf; [apply xk_euk|apply xk_eun]. Qed.
Lemma xk_ehu kf hint e : xk (emplace_hint_unique c kf hint e).
Proof.
  unfold emplace_hint_unique. destruct kf; [|xx]. apply xk_bind; [kp|]. intros [|]; [apply xk_keeps; kp|]. apply xk_then; [apply xk_euk|intro; nxx].
Qed.
Lemma xk_ioa k v : xk (insert_or_assign_unique c k v). Proof. unfold insert_or_assign_unique. xx. Qed.
Lemma xk_ee x : xk (emplace_equiv c x). Proof. unfold emplace_equiv. xx. Qed.
Lemma xk_ehe hint x : xk (emplace_hint_equiv c hint x).
Proof.
  unfold emplace_hint_equiv. apply xk_on_exn; [|kp]. apply xk_bind; [kp|intro t]. cbv zeta. apply xk_bind; [kp|intro u]. apply xk_bind.
  - destruct (negb u); [kp|]. destruct (N.ltb _ _); kp.
  - intros [[h itb] p]. apply xk_then; [|intro; nxx]. destruct (N.ltb _ _); [|apply xk_keeps; kp]. apply xk_then; [apply xk_reserve|intro; nxx].
Qed.
(** single operations: a throwing insertion, an erasure and clear() keep bucket_count(), max_load() and max_load_factor() *)
Lemma insert_throws_keeps o : match o with Insert _ _ | InsertHint _ _ _ | InsertOrAssign _ _ | Index _ _ => True | _ => False end -> xk (exec1 c o).
Proof.
  destruct o; intros H; try contradiction; cbn [exec1].
  - destruct (multi c); [apply xk_bind; [kp|intro x]; apply xk_then; [apply xk_ee|intro; nxx]|apply xk_then; [apply xk_eu|intro; nxx]].
  - apply xk_bind; [kp|intro hint]. destruct (multi c); [apply xk_bind; [kp|intro x]; apply xk_then; [apply xk_ehe|intro; nxx]|apply xk_then; [apply xk_ehu|intro; nxx]].
  - apply xk_then; [apply xk_ioa|intro; nxx].
  - apply xk_then; [apply xk_eu|intro; nxx].
Qed.
Lemma erase_keeps_load o : match o with EraseKey _ | EraseNth _ | EraseRange _ _ | EraseIf _ | Clear => True | _ => False end -> keeps sh (exec1 c o).
Proof. destruct o; intros H; try contradiction; cbn [exec1]; kp. Qed.
End Keep.
