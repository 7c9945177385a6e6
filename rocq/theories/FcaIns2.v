(** More insertion functions: assignment, equivalent keys, ranges, node handles. *)
From Coq Require Import NArith ZArith Bool List Arith Lia Permutation.
From Verif Require Import FloatModel HashArithModel HashArithProofs FoaModel FoaGroup FoaBase FcaLinks FcaLinksProofs FcaModel FcaInv FcaIter FcaTab FcaRehash FcaOps FcaIns.
Import ListNotations.
Local Open Scope m_scope.
Local Open Scope nat_scope.

Section Ins.
Context {K V : Type} (c : FCfg K V).
Notation node := (node K V).
Notation barray := (barray K V).
Notation table := (FcaModel.table K V).
Notation cb := (base c).
Notation St := (table * heap)%type.
Notation CInv := (CInv c). Notation TInv := (TInv c). Notation raised := (raised c). Notation keq := (keq c). Notation lookup := (lookup c).
Notation SI := (SI c). Notation OpExn := (OpExn c). Notation InsPost := (InsPost c). Notation InsPostG := (InsPostG c). Notation HintOk := (HintOk c). Notation HIt := (@HIt K V).
Implicit Types (b nb : barray) (t : table) (x y : node) (s : St) (e : K * V).

(** *** changing the mapped value of a node *)
Lemma keysok_keys t l0 : CInv t l0 -> forall l l' : list node, map nkey l = map nkey l' -> KeysOk c (f_pid t) l -> KeysOk c (f_pid t) l'.
Proof.
  intros H. pose proof (Eqv_of c t l0 H) as EV. assert (forall x x' y y', nkey x = nkey x' -> nkey y = nkey y' -> keq (f_pid t) x y = keq (f_pid t) x' y') as KE by (intros; unfold FcaTab.keq; congruence).
  unfold KeysOk. destruct (multi c).
  - induction l as [|a l IH]; intros [|a' l'] E G; try discriminate; [exact G|]. cbn [map] in E. assert (nkey a = nkey a') as Ea by congruence. assert (map nkey l = map nkey l') as El by congruence.
    apply grouped_iff in G as [G Hd]; [|exact EV]. apply grouped_iff; [exact EV|]. split; [apply IH; assumption|]. intros (y' & Iy & Ek).
    assert (exists y, In y l /\ nkey y = nkey y') as (y & Jy & Ey). { apply (in_map nkey) in Iy. rewrite <- El in Iy. apply in_map_iff in Iy as (y & A & B). eauto. }
    destruct Hd as (z & r & -> & Ez); [exists y; split; [exact Jy|]; rewrite (KE a a' y y'); auto|]. destruct l' as [|z' r']; [discriminate|]. cbn [map] in El. exists z', r'. split; [reflexivity|]. rewrite <- (KE a a' z z'); auto. congruence.
  - induction l as [|a l IH]; intros [|a' l'] E U; try discriminate; [exact U|]. cbn [map] in E. assert (nkey a = nkey a') as Ea by congruence. assert (map nkey l = map nkey l') as El by congruence.
    inversion U as [|? ? F U']. subst. constructor; [|apply IH; assumption]. apply Forall_forall. intros y' Iy. apply (in_map nkey) in Iy. rewrite <- El in Iy. apply in_map_iff in Iy as (y & A & B). rewrite Forall_forall in F. rewrite <- (KE a a' y y'); auto.
Qed.
Definition with_value (y : node) (v : V) : node := Nd (nd_id y) (nd_al y) (nkey y, v).
Lemma set_value_ok t l y it v : TInv t l -> In y l -> NIt (f_b t) y it ->
  exists b' l1 l2, (match chain (f_b t) (e_b it) with None => None | Some ch => match replace_id (nd_id y) (with_value y v) ch with None => None | Some ch' => set_chain (f_b t) (e_b it) ch' end end) = Some b' /\
    l = l1 ++ y :: l2 /\ TInv (set_b b' t) (l1 ++ with_value y v :: l2) /\ NIt b' (with_value y v) it /\ bucket_count b' = bucket_count (f_b t).
Proof.
  intros [H Sz Rm] Iy (p & Ip & ->). cbn [e_b]. assert (Wf (f_b t) l) as W by (apply BOk_cons; [apply H|intros ->; destruct Iy]). destruct W as (o & W & El). set (b := f_b t) in *.
  pose proof (chain_lt _ _ _ _ _ W Ip) as Lp. rewrite (chain_at b _ o) by (try exact W; lia).
  pose proof (ci_ids _ _ _ H) as ND. rewrite El in ND. pose proof (chain_nodup b _ o p W ND) as Nc.
  destruct (seqn_split b _ o p W Lp (ne_in _ _ _ Ip)) as (A & C & S & F & _). apply in_split in Ip as (c1 & c2 & Ec).
  destruct (remove_id_split (nd_id y) _ Nc c1 y c2 Ec eq_refl) as (_ & _ & _ & _ & ER). rewrite ER, (set_chain_at b _ o) by (try exact W; lia).
  set (y' := with_value y v). set (b' := setc b p (c1 ++ y' :: c2)).
  assert (forall q, chainat b' q = if q =? p then c1 ++ y' :: c2 else chainat b q) as CA by (intros q; apply (chainat_setc b (ne b) o); [exact W|lia]).
  assert (forall q, q < b_size b -> ne b q = ne b' q) as NE.
  { intros q Lq. unfold ne at 2. rewrite CA. destruct (Nat.eqb_spec q p) as [->|]; [|reflexivity]. unfold ne. rewrite Ec. destruct c1; reflexivity. }
  assert (WB b' (ne b) o) as W'. { apply WB_setc; [exact W|exact Lp|]. intros _. apply ne_true. rewrite Ec. destruct c1; discriminate. }
  assert (seqn b' (ne b) o = A ++ (c1 ++ y' :: c2) ++ C) as SE. { rewrite (F b'); [rewrite CA, Nat.eqb_refl; reflexivity|reflexivity|]. intros q Nq. rewrite CA. apply Nat.eqb_neq in Nq. rewrite Nq. reflexivity. }
  exists b', (A ++ c1), (c2 ++ C). split; [reflexivity|]. assert (l = (A ++ c1) ++ y :: (c2 ++ C)) as EL by (rewrite El, S, Ec, <- !app_assoc; reflexivity). split; [exact EL|].
  assert (seqn b' (ne b) o = (A ++ c1) ++ y' :: (c2 ++ C)) as EL' by (rewrite SE, <- !app_assoc; reflexivity).
  split; [|split; [exists p; split; [rewrite CA, Nat.eqb_refl; apply in_elt|reflexivity]|reflexivity]].
  assert (length ((A ++ c1) ++ y' :: c2 ++ C) = length l) as LL by (rewrite EL, !app_length; cbn [length]; rewrite !app_length; reflexivity).
  constructor; [|cbn [set_b f_size]; rewrite LL; exact Sz|rewrite LL; exact Rm].
  destruct H as [C1 C2 C3 C4 C5 C6 C7 C8 C9]. assert (CInv t l) as H by (constructor; assumption). constructor; cbn [set_b f_b f_al f_pid f_hid f_ml f_mlf]; auto.
  - right. exists o. split; [apply (WB_ext b' (ne b)); assumption|]. rewrite <- EL'. apply seqn_ext. exact NE.
  - rewrite EL in C3. apply Forall_app in C3 as [F1 F2]. apply Forall_app. split; [exact F1|]. inversion F2. subst. constructor; assumption.
  - rewrite EL, map_app in C4. cbn [map] in C4. rewrite map_app. exact C4.
  - intros q. rewrite CA. destruct (Nat.eqb_spec q p) as [->|]; [|apply C5]. apply (keysok_keys t l H (chainat b p)); [rewrite Ec, !map_app; reflexivity|apply C5].
  - intros q z I. rewrite CA in I. cbn [b' setc b_idx]. destruct (Nat.eqb_spec q p) as [->|]; [|apply C6; exact I].
    apply in_app_or in I as [I|[<-|I]]; [apply C6; fold b; rewrite Ec; apply in_or_app; left; exact I| |apply C6; fold b; rewrite Ec; apply in_or_app; right; right; exact I].
    change (nkey y') with (nkey y). apply C6. fold b. rewrite Ec. apply in_elt.
Qed.
Definition AssignPost (r : nat) (s : St) (l : list node) (k : K) (v : V) (p : eit * bool) (s' : St) : Prop :=
  match lookup (f_pid (fst s)) k l with
  | Some y => snd p = false /\ exists l1 l2, l = l1 ++ y :: l2 /\ SI r s' (l1 ++ with_value y v :: l2) /\ Fr s s' /\ NIt (f_b (fst s')) (with_value y v) (fst p) /\ bucket_count (f_b (fst s')) = bucket_count (f_b (fst s))
  | None => snd p = true /\ exists x, nd_kv x = (k, v) /\ next (snd s) <= nd_id x /\ InsPostG r s l None x (fst p) s'
  end.
Lemma insert_or_assign_ok r s l k v n : SI r s l -> (N.of_nat (length l) + 1 < max_elems)%N ->
  outcome (insert_or_assign_unique c k v s n) (AssignPost r s l k v) (OpExn r s l).
Proof.
  intros I Rm. destruct s as [t h]. pose proof (si_t _ _ _ _ I) as T. pose proof (ti_c _ _ _ T) as H. cbn [fst] in H, T. unfold insert_or_assign_unique, get_t. rewrite bind_bind, bind_get, bind_ret. cbn [fst].
  apply outcome_hash; [intros R; apply OpExn_kept; [exact R|apply Kept_refl|exact I]|]. intros n1. destruct (at_hash_ok c t l k H) as (itb & A). rewrite A. cbn [of_option]. rewrite bind_ret.
  eapply outcome_bind; [eapply outcome_weaken; [apply (find_node_impl_ok c t l k itb (t, h) n1 H A)|intros a s' X; exact X|intros kd' s' X; apply RO_OpExn; assumption]|].
  cbn beta. intros ri s' n2 [-> ->]. unfold AssignPost. cbn [fst]. destruct (lookup (f_pid t) k l) as [y|] eqn:L; cbn [option_map].
  - destruct (lookup_it c t l k y H L) as (itb' & A' & Ni). rewrite A in A'. injection A' as <-. apply lookup_some in L as [Iy Ek].
    assert (Wf (f_b t) l) as W by (apply BOk_cons; [apply H|intros ->; destruct Iy]).
    unfold assign_value, get_t. rewrite !bind_bind, bind_get, bind_ret. cbn [fst]. rewrite (e_node_ok _ l y _ W (ci_ids _ _ _ H) Ni). rewrite bind_bind. cbn [of_option]. rewrite bind_ret, bind_bind.
    apply outcome_tick; [intros R; apply OpExn_kept; [exact R|apply Kept_refl|exact I]|]. intros n3.
    destruct (set_value_ok t l y (EI (Some (nd_id y)) itb) v T Iy Ni) as (b' & l1 & l2 & E & El & T' & N' & BC).
    unfold on_b, get_t. rewrite !bind_bind, bind_get, bind_ret. cbn [fst e_b] in *. unfold bindo. unfold with_value in E at 1. rewrite bind_bind, E. cbn [of_option]. rewrite bind_ret. unfold mod_t. rewrite bind_modify. cbn [outcome ret fst snd].
    split; [reflexivity|]. exists l1, l2. split; [exact El|]. split; [|split; [|split; [exact N'|exact BC]]].
    + destruct I as [I1 I2 I3]. rewrite El in I2, I3. constructor; cbn [fst snd] in *; [exact T'|rewrite I2, !app_length; reflexivity|]. apply Forall_app in I3 as [F1 F2]. apply Forall_app. split; [exact F1|]. inversion F2. subst. constructor; assumption.
    + split; [repeat split|]. split; [left; auto|cbn; lia].
  - apply (fresh_ok c r (t, h) l KConstruct (k, v)); [exact I|]. intros n3. cbn [fst snd]. set (x := Nd (next h) (f_al t) (k, v)). eapply outcome_bind.
    + apply (with_node_ok c r l x); [cbn; lia|reflexivity|]. apply (grow_insert_ok c r (plus (t, h)) l x itb); [apply plus_SI; exact I|apply (fresh_hand c r (t, h) l (k, v) I)|exact A|exact L|exact Rm].
    + intros it s' n4 P. cbn [outcome ret fst snd]. split; [reflexivity|]. exists x. split; [reflexivity|]. split; [cbn; lia|]. apply (InsPostG_fr c r (t, h) (plus (t, h))); [reflexivity|cbn; lia|exact P].
Qed.

(** *** equivalent keys *)
Lemma lookup_hint t l k : multi c = true -> HintOk t l k (option_map nd_id (lookup (f_pid t) k l)).
Proof. intros M. unfold FcaOps.HintOk. destruct (lookup (f_pid t) k l) as [y|] eqn:L; cbn [option_map]; [|reflexivity]. split; [exact M|]. exists y. apply lookup_some in L as [A B]. auto. Qed.
Lemma emplace_equiv_ok r s l x n : SI (S r) s l -> InHand s l x -> multi c = true -> (N.of_nat (length l) + 1 < max_elems)%N ->
  outcome (emplace_equiv c x s n) (InsPostG r s l (option_map nd_id (lookup (f_pid (fst s)) (nkey x) l)) x) (OpExn r (minus s) l).
Proof.
  intros I Hx M Rm. destruct s as [t h]. pose proof (ti_c _ _ _ (si_t _ _ _ _ I)) as H. cbn [fst] in H. unfold emplace_equiv. apply (with_node_ok c r l x); [rewrite (si_live _ _ _ _ I); lia|apply Hx|].
  unfold get_t. rewrite bind_bind, bind_get, bind_ret. cbn [fst].
  apply outcome_hash; [intros R; apply OpExn_kept; [exact R|apply Kept_refl|exact I]|]. intros n1. destruct (at_hash_ok c t l (nkey x) H) as (itb & A). rewrite A. cbn [of_option]. rewrite bind_ret.
  eapply outcome_bind; [eapply outcome_weaken; [apply (find_node_impl_ok c t l (nkey x) itb (t, h) n1 H A)|intros a s' X; exact X|intros kd' s' X; apply RO_OpExn; assumption]|].
  cbn beta. intros ri s' n2 [-> ->]. apply (put_ok c r t h l x itb); [exact I|exact Hx|exact A|apply lookup_hint; exact M|exact Rm].
Qed.
Lemma hint_bucket t l y k hint : TInv t l -> In y l -> NIt (f_b t) y hint -> keqf cb (f_pid t) k (nkey y) = true -> at_hash (f_b t) (hash_of cb (f_hid t) k) = Some (e_b hint) /\ e_p hint = Some (nd_id y).
Proof.
  intros [H _ _] Iy (p & Ip & ->) Ek. cbn [e_b e_p]. split; [|reflexivity]. assert (Wf (f_b t) l) as W by (apply BOk_cons; [apply H|intros ->; destruct Iy]).
  destruct (at_hash_wf _ _ _ W (hash_lt c (f_hid t) k)) as (q & Lq & Pq & A). pose proof (ci_placed _ _ _ H p y Ip) as Pp. rewrite (same_pos c t l k y H Ek), Pq in Pp. injection Pp as Pp. assert (q = p) as -> by lia. exact A.
Qed.
Definition HintUsed (s : St) (l : list node) (hint : eit) (x : node) (ho : option nat) : Prop :=
  HintOk (fst s) l (nkey x) ho /\ forall y, In y l -> NIt (f_b (fst s)) y hint -> keqf cb (f_pid (fst s)) (nkey x) (nkey y) = true -> ho = Some (nd_id y).
Lemma emplace_hint_equiv_ok r s l hint x n : SI (S r) s l -> InHand s l x -> multi c = true -> HIt (fst s) l hint -> (N.of_nat (length l) + 1 < max_elems)%N ->
  outcome (emplace_hint_equiv c hint x s n) (fun it s' => exists ho, HintUsed s l hint x ho /\ InsPostG r s l ho x it s') (OpExn r (minus s) l).
Proof.
  intros I Hx M Hh Rm. destruct s as [t h]. pose proof (si_t _ _ _ _ I) as T. pose proof (ti_c _ _ _ T) as H. cbn [fst] in *. unfold emplace_hint_equiv. apply (with_node_ok c r l x); [rewrite (si_live _ _ _ _ I); lia|apply Hx|].
  unfold get_t at 1. rewrite bind_bind, bind_get, bind_ret. cbn [fst]. cbv zeta.
  (* the hint: the iterator of at most one node; whether it matches decides *)
  assert (forall y y', In y l -> In y' l -> NIt (f_b t) y hint -> NIt (f_b t) y' hint -> nd_id y = nd_id y') as UH.
  { intros y y' _ _ (p & _ & E) (p' & _ & E'). rewrite E in E'. injection E'. auto. }
  assert (forall itb ho, at_hash (f_b t) (hash_of cb (f_hid t) (nkey x)) = Some itb -> HintUsed (t, h) l hint x ho -> forall n1 hh, (hh = hash_of cb (f_hid t) (nkey x) \/ (f_ml t <? uadd (f_size t) 1)%N = false) ->
    outcome ((itb' <- (if (f_ml t <? uadd (f_size t) 1)%N then reserve c (uadd (f_size t) 1) ;;; t <- get_t ;; of_option (at_hash (f_b t) hh) else ret itb) ;; on_b (fun b => insert_node_hint b itb' x ho) ;;; mod_t inc_size ;;; ret (EI (Some (nd_id x)) itb')) (t, h) n1)
      (fun it s' => exists ho, HintUsed (t, h) l hint x ho /\ InsPostG r (t, h) l ho x it s') (OpExn (S r) (t, h) l)) as Tail.
  { intros itb ho A HU n1 hh Hhh. pose proof (put_ok c r t h l x itb ho n1 I Hx A (proj1 HU) Rm) as P.
    eapply outcome_weaken; [|intros it s' X; exists ho; split; [exact HU|exact X]|intros kd s' X; exact X].
    unfold grow_for_one, get_t at 1 in P. rewrite bind_bind, bind_bind, bind_get, bind_ret in P. cbn [fst] in P. destruct (f_ml t <? uadd (f_size t) 1)%N; [destruct Hhh as [->|X]; [|discriminate]|]; exact P. }
  eapply outcome_bind; [eapply outcome_weaken; [apply (hint_matches_ok c (t, h) t l hint (nkey x) n eq_refl T Hh)|intros a s' X; exact X|intros kd' s' X; apply RO_OpExn; assumption]|].
  cbn beta. intros us s' n1 (-> & Hu & Hu2). destruct us; cbn [negb].
  - destruct (Hu eq_refl) as (y & Iy & Ny & Ey). destruct (hint_bucket t l y (nkey x) hint T Iy Ny Ey) as (A & Ep).
    assert (HintUsed (t, h) l hint x (e_p hint)) as HU.
    { rewrite Ep. split; [split; [exact M|]; exists y; auto|]. cbn [fst]. intros y' Iy' Ny' _. f_equal. apply UH; assumption. }
    destruct (f_ml t <? uadd (f_size t) 1)%N eqn:NR.
    + rewrite bind_bind. apply outcome_hash; [intros R; apply OpExn_kept; [exact R|apply Kept_refl|exact I]|]. intros n2. rewrite bind_ret. apply (Tail (e_b hint) (e_p hint) A HU n2). left. reflexivity.
    + rewrite bind_ret. apply (Tail (e_b hint) (e_p hint) A HU n1 0%N). right. reflexivity.
  - rewrite bind_bind. apply outcome_hash; [intros R; apply OpExn_kept; [exact R|apply Kept_refl|exact I]|]. intros n2. destruct (at_hash_ok c t l (nkey x) H) as (itb & A). rewrite A. cbn [of_option]. rewrite bind_bind, bind_ret, bind_bind.
    eapply outcome_bind; [eapply outcome_weaken; [apply (find_node_impl_ok c t l (nkey x) itb (t, h) n2 H A)|intros a s' X; exact X|intros kd' s' X; apply RO_OpExn; assumption]|].
    cbn beta. intros ri s' n3 [-> ->]. rewrite bind_ret. apply Tail; [exact A| |left; reflexivity]. split; [apply lookup_hint; exact M|]. cbn [fst]. intros y Iy Ny Ey. exfalso. rewrite <- (Hu2 y Iy Ny) in Ey. discriminate.
Qed.

(** *** ranges *)
Fixpoint added (p : N) (ks : list K) (es : list (K * V)) : list (K * V) :=
  match es with
  | [] => []
  | e :: r => if negb (multi c) && existsb (keqf cb p (fst e)) ks then added p ks r else e :: added p (fst e :: ks) r
  end.
Lemma existsb_same (f : K -> bool) ks ks' : (forall k, In k ks <-> In k ks') -> existsb f ks = existsb f ks'.
Proof.
  intros E. destruct (existsb f ks) eqn:A, (existsb f ks') eqn:B; try reflexivity.
  - apply existsb_exists in A as (k & I & F). rewrite <- B. symmetry. apply existsb_exists. exists k. split; [apply E; exact I|exact F].
  - apply existsb_exists in B as (k & I & F). rewrite <- A. apply existsb_exists. exists k. split; [apply E; exact I|exact F].
Qed.
Lemma added_same p es : forall ks ks', (forall k, In k ks <-> In k ks') -> added p ks es = added p ks' es.
Proof.
  induction es as [|e es IH]; intros ks ks' E; cbn [added]; [reflexivity|]. rewrite (existsb_same _ ks ks' E). destruct (negb (multi c) && existsb (keqf cb p (fst e)) ks'); [apply IH; exact E|]. f_equal. apply IH. intros k. cbn [In]. rewrite E. reflexivity.
Qed.
Lemma added_app p es1 : forall ks es2, added p ks (es1 ++ es2) = added p ks es1 ++ added p (map fst (added p ks es1) ++ ks) es2.
Proof.
  induction es1 as [|e es1 IH]; intros ks es2; cbn [added app map]; [reflexivity|]. destruct (negb (multi c) && existsb (keqf cb p (fst e)) ks); [apply IH|]. cbn [map app]. rewrite IH. f_equal. f_equal.
  apply added_same. intros k. rewrite !in_app_iff. cbn [In]. rewrite in_app_iff. tauto.
Qed.
Lemma lookup_exists p k l : existsb (keqf cb p k) (map nkey l) = match lookup p k l with Some _ => true | None => false end.
Proof.
  unfold FcaTab.lookup. induction l as [|x l IH]; [reflexivity|]. cbn [map existsb List.find]. destruct (keqf cb p k (nkey x)); [reflexivity|exact IH].
Qed.
Definition RangePost (r : nat) (s : St) (l : list node) (es : list (K * V)) (s' : St) : Prop :=
  exists xs l', map nd_kv xs = added (f_pid (fst s)) (map nkey l) es /\ Forall (fun x => next (snd s) <= nd_id x) xs /\ SI r s' l' /\ Permutation l' (xs ++ l) /\ Fr s s'.
Definition RangeExn (r : nat) (s : St) (l : list node) (es : list (K * V)) (kd : kind) (s' : St) : Prop :=
  raised kd /\ exists es1 es2 xs l' lost, es = es1 ++ es2 /\ map nd_kv xs = added (f_pid (fst s)) (map nkey l) es1 /\ Forall (fun x => next (snd s) <= nd_id x) xs /\
    SI r s' l' /\ Permutation (xs ++ l) (lost ++ l') /\ (kd <> KHash -> lost = []) /\ Fr s s'.
Lemma map_fst_kv (xs : list node) : map fst (map nd_kv xs) = map nkey xs. Proof. rewrite map_map. reflexivity. Qed.
Lemma keys_perm l' (xs l : list node) : Permutation l' (xs ++ l) -> forall k, In k (map nkey l') <-> In k (map nkey xs ++ map nkey l).
Proof. intros P k. rewrite <- map_app. split; apply Permutation_in; [apply Permutation_map; exact P|apply Permutation_map, Permutation_sym; exact P]. Qed.
Lemma range_post_seq r s l es1 s1 es2 s2 : RangePost r s l es1 s1 -> (forall l1, SI r s1 l1 -> RangePost r s1 l1 es2 s2) -> RangePost r s l (es1 ++ es2) s2.
Proof.
  intros (xs & l1 & E & Fx & I & P & F) H2. destruct (H2 l1 I) as (ys & l2 & E2 & Fy & I2 & P2 & F2). exists (xs ++ ys), l2.
  split; [|split; [|split; [exact I2|split; [|apply (Fr_trans s s1); assumption]]]].
  - rewrite map_app, E, E2, added_app. f_equal. destruct F as ((_ & Sp & _) & _). rewrite Sp. apply added_same. intros k. rewrite (keys_perm l1 xs l P), <- E, map_fst_kv. reflexivity.
  - apply Forall_app. split; [exact Fx|]. eapply Forall_impl; [|exact Fy]. cbn beta. destruct F as (_ & _ & L). intros a La. lia.
  - rewrite P2, P. rewrite <- app_assoc, !app_assoc. apply Permutation_app_tail. apply Permutation_app_comm.
Qed.
Lemma range_exn_seq r s l es1 s1 es2 kd s2 : RangePost r s l es1 s1 -> (forall l1, SI r s1 l1 -> RangeExn r s1 l1 es2 kd s2) -> RangeExn r s l (es1 ++ es2) kd s2.
Proof.
  intros (xs & l1 & E & Fx & I & P & F) H2. destruct (H2 l1 I) as (R & e1 & e2 & ys & l2 & lost & Ee & E2 & Fy & I2 & P2 & X & F2). split; [exact R|]. exists (es1 ++ e1), e2, (xs ++ ys), l2, lost.
  split; [rewrite Ee, app_assoc; reflexivity|]. split; [|split; [|split; [exact I2|split; [|split; [exact X|apply (Fr_trans s s1); assumption]]]]].
  - rewrite map_app, E, E2, added_app. f_equal. destruct F as ((_ & Sp & _) & _). rewrite Sp. apply added_same. intros k. rewrite (keys_perm l1 xs l P), <- E, map_fst_kv. reflexivity.
  - apply Forall_app. split; [exact Fx|]. eapply Forall_impl; [|exact Fy]. cbn beta. destruct F as (_ & _ & L). intros a La. lia.
  - rewrite <- P2, P. rewrite !app_assoc. apply Permutation_app_tail. apply Permutation_app_comm.
Qed.
Lemma range_post_nil r s l : SI r s l -> RangePost r s l [] s.
Proof. intros I. exists [], l. split; [reflexivity|]. split; [constructor|]. split; [exact I|]. split; [reflexivity|apply Fr_refl]. Qed.
Lemma OpExn_range r s l es kd s' : OpExn r s l kd s' -> RangeExn r s l es kd s'.
Proof.
  intros (R & l' & lost & I & P & F & X). split; [exact R|]. exists [], es, [], l', lost. split; [reflexivity|]. split; [reflexivity|]. split; [constructor|]. split; [exact I|]. split; [exact P|]. split; [|exact F].
  intros N. apply X. left. exact N.
Qed.
Lemma SI_fun r s l l' : SI r s l -> SI r s l' -> l = l'.
Proof.
  intros [H1 _ _] [H2 _ _]. pose proof (elements_ok _ _ (ci_b _ _ _ (ti_c _ _ _ H1)) (ci_ids _ _ _ (ti_c _ _ _ H1)) (ti_size _ _ _ H1)) as E1.
  pose proof (elements_ok _ _ (ci_b _ _ _ (ti_c _ _ _ H2)) (ci_ids _ _ _ (ti_c _ _ _ H2)) (ti_size _ _ _ H2)) as E2. congruence.
Qed.
Lemma InsPost_range r s l hint x it s' : InsPost r s l hint x it s' -> (multi c = true \/ lookup (f_pid (fst s)) (nkey x) l = None) -> next (snd s) <= nd_id x -> RangePost r s l [nd_kv x] s'.
Proof.
  intros (l0 & l' & P & IA & I & F & _) Hm L. exists [x], l'. split; [|split; [auto|split; [exact I|split; [|exact F]]]].
  - cbn [added map]. change (fst (nd_kv x)) with (nkey x). destruct Hm as [->|E]; [reflexivity|]. rewrite lookup_exists, E, andb_false_r. reflexivity.
  - rewrite (Inserted_perm _ _ _ (InsAt_ins _ _ _ _ IA)), <- P. reflexivity.
Qed.
Lemma EUPost_range r s l e p s' : SI r s l -> multi c = false -> EUPost c r s l e p s' -> RangePost r s l [e] s'.
Proof.
  intros I M. unfold EUPost. destruct (lookup (f_pid (fst s)) (fst e) l) as [y|] eqn:E.
  - intros (_ & Kp & _). exists [], l. split; [cbn [added map]; rewrite lookup_exists, E, M; reflexivity|]. split; [constructor|]. split; [apply (Kept_SI c r s); assumption|]. split; [reflexivity|apply Kept_Fr; exact Kp].
  - intros (_ & x & <- & L & P). apply (InsPost_range _ _ _ _ _ _ _ (proj1 P)); [right; exact E|exact L].
Qed.
Definition room (l : list node) (n : nat) : Prop := (N.of_nat (length l + n) < max_elems)%N.
Lemma added_len p es : forall ks, length (added p ks es) <= length es.
Proof. induction es as [|e es IH]; intros ks; cbn [added]; [lia|]. destruct (negb (multi c) && existsb (keqf cb p (fst e)) ks); cbn [length]; [rewrite IH; lia|]. specialize (IH (fst e :: ks)). lia. Qed.
Lemma range_room r s l es s' l' n : RangePost r s l es s' -> SI r s' l' -> room l (length es + n) -> room l' n.
Proof.
  intros (xs & l1 & E & _ & I & P & _) I' Rm. assert (l1 = l') as -> by (apply (SI_fun r s'); assumption). unfold room in *. rewrite (Permutation_length P), app_length. apply (f_equal (@length _)) in E. rewrite map_length in E. pose proof (added_len (f_pid (fst s)) es (map nkey l)). lia.
Qed.
(** a loop over the range, one insertion per element *)
Lemma range_loop_ok r (step : K * V -> M St unit) (loop : list (K * V) -> M St unit) :
  (forall s n, loop [] s n = Ret tt s n) -> (forall e es s n, loop (e :: es) s n = bind (step e) (fun _ => loop es) s n) ->
  (forall s l e n, SI r s l -> room l 1 -> outcome (step e s n) (fun _ s' => RangePost r s l [e] s') (RangeExn r s l [e])) ->
  forall es s l n, SI r s l -> room l (length es) -> outcome (loop es s n) (fun _ s' => RangePost r s l es s') (RangeExn r s l es).
Proof.
  intros H0 H1 H2. induction es as [|e es IH]; intros s l n I Rm; [rewrite H0; cbn [outcome]; apply range_post_nil; exact I|]. rewrite H1. cbn [length] in Rm.
  eapply outcome_bind; [eapply outcome_weaken; [apply (H2 s l e n I); unfold room in *; lia|intros a s' X; exact X|]|].
  - intros kd s' (R & e1 & e2 & xs & l' & lost & Ee & X). split; [exact R|]. exists e1, (e2 ++ es), xs, l', lost. split; [rewrite app_assoc, <- Ee; reflexivity|exact X].
  - cbn beta. intros _ s1 n1 P. pose proof P as P0. destruct P0 as (_ & l1 & _ & _ & I1 & _). assert (room l1 (length es)) as Rm1 by (apply (range_room r s l [e] s1); assumption).
    eapply outcome_weaken; [apply (IH s1 l1 n1 I1 Rm1)| |].
    + intros [] s2 Q. apply (range_post_seq r s l [e] s1 es s2 P). intros l1' I1'. assert (l1 = l1') as <- by (apply (SI_fun r s1); assumption). exact Q.
    + intros kd s2 Q. apply (range_exn_seq r s l [e] s1 es kd s2 P). intros l1' I1'. assert (l1 = l1') as <- by (apply (SI_fun r s1); assumption). exact Q.
Qed.
Lemma insert_range_unique_ok r es : forall s l n, multi c = false -> SI r s l -> room l (length es) -> outcome (insert_range_unique c es s n) (fun _ s' => RangePost r s l es s') (RangeExn r s l es).
Proof.
  intros s l n M I Rm. apply (range_loop_ok r (fun e => emplace_unique_nokey c KConstruct e ;;; ret tt) (insert_range_unique c)); [reflexivity| | |exact I|exact Rm].
  - intros e es' s' n'. cbn [insert_range_unique]. rewrite bind_bind. unfold bind. destruct (emplace_unique_nokey c KConstruct e s' n'); reflexivity.
  - clear - M. intros s l e n I Rm. eapply outcome_bind; [eapply outcome_weaken; [apply (emplace_unique_nokey_ok c r s l KConstruct e n I); unfold room in Rm; lia|intros a s' X; exact X|intros kd s' X; apply OpExn_range; exact X]|].
    cbn beta. intros p s' n' P. cbn [outcome ret]. apply (EUPost_range r s l e p s' I M P).
Qed.
Lemma emplace_fresh_equiv_ok r s l kd e n : multi c = true -> SI r s l -> room l 1 ->
  outcome ((x <- new_node c kd e ;; emplace_equiv c x) s n) (fun it s' => exists x, nd_kv x = e /\ next (snd s) <= nd_id x /\ InsPostG r s l (option_map nd_id (lookup (f_pid (fst s)) (fst e) l)) x it s') (OpExn r s l).
Proof.
  intros M I Rm. apply (fresh_ok c r s l kd e); [exact I|]. intros n1. set (x := Nd (next (snd s)) (f_al (fst s)) e).
  eapply outcome_weaken; [apply (emplace_equiv_ok r (plus s) l x n1); [apply plus_SI; exact I|apply (fresh_hand c r s l e I)|exact M|unfold room in Rm; lia]| |auto].
  cbn beta. intros it s' P. exists x. split; [reflexivity|]. split; [cbn; lia|]. apply (InsPostG_fr c r s (plus s)); [reflexivity|cbn; lia|exact P].
Qed.
Lemma emplace_fresh_hint_equiv_ok r s l kd hint e n : multi c = true -> SI r s l -> HIt (fst s) l hint -> room l 1 ->
  outcome ((x <- new_node c kd e ;; emplace_hint_equiv c hint x) s n) (fun it s' => exists x ho, nd_kv x = e /\ next (snd s) <= nd_id x /\ HintUsed s l hint x ho /\ InsPostG r s l ho x it s') (OpExn r s l).
Proof.
  intros M I Hh Rm. apply (fresh_ok c r s l kd e); [exact I|]. intros n1. set (x := Nd (next (snd s)) (f_al (fst s)) e).
  eapply outcome_weaken; [apply (emplace_hint_equiv_ok r (plus s) l hint x n1); [apply plus_SI; exact I|apply (fresh_hand c r s l e I)|exact M|exact Hh|unfold room in Rm; lia]| |auto].
  cbn beta. intros it s' (ho & HU & P). exists x, ho. split; [reflexivity|]. split; [cbn; lia|]. split; [exact HU|]. apply (InsPostG_fr c r s (plus s)); [reflexivity|cbn; lia|exact P].
Qed.
Lemma insert_each_equiv_ok r es : forall s l n, multi c = true -> SI r s l -> room l (length es) -> outcome (insert_each_equiv c es s n) (fun _ s' => RangePost r s l es s') (RangeExn r s l es).
Proof.
  intros s l n M I Rm. apply (range_loop_ok r (fun e => (x <- new_node c KConstruct e ;; emplace_equiv c x) ;;; ret tt) (insert_each_equiv c)); [reflexivity| | |exact I|exact Rm].
  - intros e es' s' n'. cbn [insert_each_equiv]. rewrite !bind_bind. unfold bind. destruct (new_node c KConstruct e s' n') as [x s1 n1| |]; try reflexivity; try (destruct (emplace_equiv c x s1 n1); reflexivity).
  - clear - M. intros s l e n I Rm. eapply outcome_bind; [eapply outcome_weaken; [apply (emplace_fresh_equiv_ok r s l KConstruct e n M I Rm)|intros a s' X; exact X|intros kd s' X; apply OpExn_range; exact X]|].
    cbn beta. intros it s' n' (x & <- & L & P). cbn [outcome ret]. apply (InsPost_range _ _ _ _ _ _ _ (proj1 P)); [left; exact M|exact L].
Qed.
(** without growth *)
Lemma on_b_insert_ok {A} r t h l x itb hint (f : unit -> M St A) n Q E : SI (S r) (t, h) l -> InHand (t, h) l x -> 0 < b_size (f_b t) -> at_hash (f_b t) (hash_of cb (f_hid t) (nkey x)) = Some itb -> HintOk t l (nkey x) hint -> room l 1 ->
  (forall t' l', SI r (inc_size t', h) l' -> InsAt hint x l l' -> NIt (f_b t') x (EI (Some (nd_id x)) itb) -> SameT t t' -> f_ml t' = f_ml t -> bucket_count (f_b t') = bucket_count (f_b t) -> outcome (f tt (t', h) n) Q E) ->
  outcome (bind (on_b (fun b => insert_node_hint b itb x hint)) f (t, h) n) Q E.
Proof.
  intros I (Al & Ni & Nx) Z Ah Hh Rm H. pose proof I as [T Lv Fn]. cbn [fst snd] in *.
  destruct (insert_ok c t l x (f_pid t) itb hint T Z Ah Al Ni) as (b' & l' & Eb & T' & IA & NI & BC); [unfold room in Rm; lia|exact Hh|reflexivity|].
  unfold on_b, get_t. rewrite !bind_bind, bind_get, bind_ret. cbn [fst]. rewrite bind_bind, Eb. cbn [of_option]. rewrite bind_ret. unfold mod_t. rewrite bind_modify. cbn [fst snd].
  pose proof (Inserted_perm _ _ _ (InsAt_ins _ _ _ _ IA)) as PM. apply (H (set_b b' t) l'); auto; [|repeat split].
  constructor; cbn [fst snd]; [exact T'|rewrite (Permutation_length PM); cbn [length]; lia|]. rewrite PM. constructor; assumption.
Qed.
Lemma emplace_no_rehash_ok r t h l x n : SI (S r) (t, h) l -> InHand (t, h) l x -> multi c = true -> 0 < b_size (f_b t) -> room l 1 ->
  outcome (emplace_no_rehash_equiv c x (t, h) n)
    (fun _ s' => 0 < b_size (f_b (fst s')) /\ exists it, InsPost r (t, h) l (option_map nd_id (lookup (f_pid t) (nkey x) l)) x it s') (OpExn r (minus (t, h)) l).
Proof.
  intros I Hx M Z Rm. pose proof (ti_c _ _ _ (si_t _ _ _ _ I)) as H. cbn [fst] in H. unfold emplace_no_rehash_equiv. apply (with_node_ok c r l x); [rewrite (si_live _ _ _ _ I); lia|apply Hx|].
  unfold get_t at 1. rewrite bind_bind, bind_get, bind_ret. cbn [fst].
  apply outcome_hash; [intros R; apply OpExn_kept; [exact R|apply Kept_refl|exact I]|]. intros n1. destruct (at_hash_ok c t l (nkey x) H) as (itb & A). rewrite A. cbn [of_option]. rewrite bind_ret.
  eapply outcome_bind; [eapply outcome_weaken; [apply (find_node_impl_ok c t l (nkey x) itb (t, h) n1 H A)|intros a s' X; exact X|intros kd' s' X; apply RO_OpExn; assumption]|].
  cbn beta. intros ri s' n2 [-> ->]. apply (on_b_insert_ok r t h l x itb); [exact I|exact Hx|exact Z|exact A|apply lookup_hint; exact M|exact Rm|].
  intros t' l' I' IA NI S ML BC. unfold mod_t, modify. cbn [outcome fst snd inc_size set_size f_b]. split; [unfold bucket_count in BC; lia|].
  exists (EI (Some (nd_id x)) itb). exists l, l'. split; [reflexivity|]. split; [exact IA|]. split; [exact I'|]. split; [|split; [exact NI|auto]].
  split; [exact S|]. split; [left; auto|cbn; lia].
Qed.
Lemma insert_no_rehash_ok r es : forall s l n, multi c = true -> SI r s l -> 0 < b_size (f_b (fst s)) -> room l (length es) -> outcome (insert_no_rehash c es s n) (fun _ s' => RangePost r s l es s') (RangeExn r s l es).
Proof.
  induction es as [|e es IH]; intros s l n M I Z Rm; cbn [insert_no_rehash]; [cbn [outcome ret]; apply range_post_nil; exact I|]. cbn [length] in Rm.
  destruct s as [t h].
  eapply outcome_bind; [eapply outcome_weaken; [apply (new_node_ok c KConstruct e t h n)|intros a s' X; exact X|]|].
  { cbn beta. intros kd s' (_ & R & Y). apply OpExn_range. apply OpExn_kept; [exact R| |exact I]. destruct Y as [->| ->]; [apply Kept_refl|apply (kept_minus_plus (t, h))]. }
  cbn beta. intros x s' n1 [-> ->]. set (x := Nd (next h) (f_al t) e).
  eapply outcome_bind; [eapply outcome_weaken; [apply (emplace_no_rehash_ok r t (Hp (S (live h)) (S (next h))) l x n1); [apply (plus_SI c r (t, h) l I)|apply (fresh_hand c r (t, h) l e I)|exact M|exact Z|unfold room in *; lia]|intros a s' X; exact X|]|].
  { intros kd s' X. apply OpExn_range. apply (OpExn_next c r (t, h) (minus (plus (t, h)))); [apply kept_minus_plus|exact X]. }
  cbn beta. intros _ s1 n2 (Z1 & it & P).
  assert (RangePost r (t, h) l [e] s1) as P1. { change [e] with [nd_kv x]; eapply InsPost_range; [apply (InsPost_fr c r (t, h) (plus (t, h))); [reflexivity|cbn; lia|exact P]|left; exact M|cbn; lia]. }
  pose proof P1 as P0. destruct P0 as (_ & l1 & _ & _ & I1 & _). assert (room l1 (length es)) as Rm1 by (apply (range_room r (t, h) l [e] s1); assumption).
  eapply outcome_weaken; [apply (IH s1 l1 n2 M I1 Z1 Rm1)| |].
  + intros [] s2 Q. apply (range_post_seq r (t, h) l [e] s1 es s2 P1). intros l1' I1'. assert (l1 = l1') as <- by (apply (SI_fun r s1); assumption). exact Q.
  + intros kd s2 Q. apply (range_exn_seq r (t, h) l [e] s1 es kd s2 P1). intros l1' I1'. assert (l1 = l1') as <- by (apply (SI_fun r s1); assumption). exact Q.
Qed.
(** a rehash only rearranges *)
Lemma Rehashed_SI r t h l s' : SI r (t, h) l -> Rehashed c t h l s' -> exists l', SI r s' l' /\ Permutation l l' /\ Fr (t, h) s'.
Proof.
  intros I (t' & l' & -> & T & P & S & M). exists l'. split; [apply (SI_perm_rehash c r t h l); assumption|]. split; [exact P|]. split; [exact S|]. split; [exact M|cbn; lia].
Qed.
Definition WExn (r : nat) (s : St) (l : list node) (kd : kind) (s' : St) : Prop := raised kd /\ exists l' lost, SI r s' l' /\ Permutation l (lost ++ l') /\ Fr s s' /\ (kd <> KHash -> lost = []).
Lemma RehashExn_W r t h l kd s' : SI r (t, h) l -> RehashExn c t h l kd s' -> WExn r (t, h) l kd s'.
Proof.
  intros I H. destruct (RehashExn_SI c r t h l kd s' I H) as (R & [[-> ->]|(-> & l' & lost & I' & P & F)]); (split; [exact R|]).
  - exists l, []. split; [exact I|]. split; [reflexivity|]. split; [apply Fr_refl|auto].
  - exists l', lost. split; [exact I'|]. split; [exact P|]. split; [exact F|contradiction].
Qed.
Lemma OpExn_W r s l kd s' : OpExn r s l kd s' -> WExn r s l kd s'.
Proof. intros (R & l' & lost & I & P & F & X). split; [exact R|]. exists l', lost. split; [exact I|]. split; [exact P|]. split; [exact F|]. intros N. apply X. left. exact N. Qed.
Lemma WExn_perm r s s1 l l1 kd s' : Permutation l l1 -> Fr s s1 -> WExn r s1 l1 kd s' -> WExn r s l kd s'.
Proof. intros P F (R & l' & lost & I & P' & F' & X). split; [exact R|]. exists l', lost. split; [exact I|]. split; [rewrite P; exact P'|]. split; [apply (Fr_trans s s1); assumption|exact X]. Qed.
Lemma WExn_range r s l es kd s' : WExn r s l kd s' -> RangeExn r s l es kd s'.
Proof. intros (R & l' & lost & I & P & F & X). split; [exact R|]. exists [], es, [], l', lost. split; [reflexivity|]. split; [reflexivity|]. split; [constructor|]. auto. Qed.
Lemma RangePost_perm r s s1 l l1 es s' : Permutation l l1 -> Fr s s1 -> RangePost r s1 l1 es s' -> RangePost r s l es s'.
Proof.
  intros P F (xs & l' & E & Fx & I & P' & F'). exists xs, l'. destruct F as ((F1 & Fp & F2) & F3 & F4). split; [|split; [|split; [exact I|split; [rewrite P', P; reflexivity|apply (Fr_trans s s1); [split; [split; [exact F1|split; assumption]|split; assumption]|exact F']]]]].
  - rewrite E, Fp. apply added_same. intros k. split; apply Permutation_in; [apply Permutation_map, Permutation_sym; exact P|apply Permutation_map; exact P].
  - eapply Forall_impl; [|exact Fx]. cbn beta. intros a L. lia.
Qed.
Lemma RangeExn_perm r s s1 l l1 es kd s' : Permutation l l1 -> Fr s s1 -> RangeExn r s1 l1 es kd s' -> RangeExn r s l es kd s'.
Proof.
  intros P F (R & e1 & e2 & xs & l' & lost & Ee & E & Fx & I & P' & X & F'). split; [exact R|]. exists e1, e2, xs, l', lost. destruct F as ((F1 & Fp & F2) & F3 & F4). split; [exact Ee|]. split; [|split; [|split; [exact I|split; [rewrite P; exact P'|split; [exact X|apply (Fr_trans s s1); [split; [split; [exact F1|split; assumption]|split; assumption]|exact F']]]]]].
  - rewrite E, Fp. apply added_same. intros k. split; apply Permutation_in; [apply Permutation_map, Permutation_sym; exact P|apply Permutation_map; exact P].
  - eapply Forall_impl; [|exact Fx]. cbn beta. intros a L. lia.
Qed.
Lemma insert_range_equiv_ok r fwd es s l n : multi c = true -> SI r s l -> room l (length es) -> outcome (insert_range_equiv c fwd es s n) (fun _ s' => RangePost r s l es s') (RangeExn r s l es).
Proof.
  intros M I Rm. unfold insert_range_equiv. destruct fwd; [|apply insert_each_equiv_ok; assumption]. destruct es as [|e [|e2 es]].
  - cbn [outcome ret]. apply range_post_nil. exact I.
  - pose proof (insert_each_equiv_ok r [e] s l n M I Rm) as H. cbn [insert_each_equiv] in H. exact H.
  - remember (e :: e2 :: es) as all eqn:Eall. assert (0 < length all) as Lp by (subst all; cbn; lia). clear Eall e e2 es. destruct s as [t h]. pose proof (si_t _ _ _ _ I) as T. cbn [fst] in T.
    unfold get_t. rewrite bind_bind, bind_get, bind_ret. cbn [fst].
    assert (uadd (f_size t) (N.of_nat (length all)) = N.of_nat (length l + length all)) as ->.
    { unfold uadd. rewrite (ti_size _ _ _ T). rewrite N.mod_small; [lia|]. pose proof max_elems_lt. unfold room in Rm. lia. }
    eapply outcome_bind; [eapply outcome_weaken; [apply (reserve_for_insert_ok c t h l (N.of_nat (length l + length all)) n T)|intros a s' X; exact X|]|].
    + pose proof (si_live _ _ _ _ I) as SL. cbn [snd] in SL. lia.
    + lia.
    + unfold room in Rm. lia.
    + intros kd s' (X & _). apply WExn_range. apply (RehashExn_W r t h l kd s' I X).
    + cbn beta. intros _ s1 n1 (Rh & Z & _). destruct (Rehashed_SI r t h l s1 I Rh) as (l1 & I1 & P & F).
      eapply outcome_weaken; [apply (insert_no_rehash_ok r all s1 l1 n1 M I1 Z)| |].
      * unfold room in *. rewrite <- (Permutation_length P). exact Rm.
      * intros [] s2 Q. apply (RangePost_perm r (t, h) s1 l l1); assumption.
      * intros kd s2 Q. apply (RangeExn_perm r (t, h) s1 l l1); assumption.
Qed.
End Ins.
