(** Heterogeneous lookup in the closed-addressing containers: the member templates that take, instead of a key, a value of another type for which
    the hash function and the predicate are transparent. The code is that of the ordinary operations (they are templates over the type of the
    argument); only the calls of hash function and predicate differ. *)
From Coq Require Import NArith ZArith Bool List Arith Lia Permutation.
From Verif Require Import FloatModel FloatProofs HashArithModel HashArithProofs FoaModel FoaGroup FoaBase FcaLinks FcaLinksProofs FcaModel FcaInv FcaIter FcaTab FcaRehash FcaLoad FcaOps FcaIns FcaIns2 FcaHandle FcaErase FcaErase2 FcaCopy FcaMove FcaMerge FcaQuery FcaEq FcaSpec FcaWorld FcaApi FcaRun FcaRun2 FcaRun3 FcaRun4 FcaProps.
Import ListNotations.
Local Open Scope m_scope.
Local Open Scope nat_scope.

Section Het.
Context {K V Q : Type} (c : FCfg K V).
Notation node := (node K V).
Notation table := (FcaModel.table K V).
Notation cb := (base c).
Notation St := (table * heap)%type.
Notation TInv := (TInv c). Notation raised := (raised c).
Notation el := (@el K V).
Implicit Types (t : table) (y z : node).
(** the hash function and the predicate on the other type, as first and as second argument *)
Context (qhashf : N -> Q -> N) (qeqf : N -> Q -> K -> bool) (qeqr : N -> K -> Q -> bool).

Definition het_hash (h : N) (q : Q) : N := (qhashf h q mod 2 ^ 64)%N.
Definition het_hash_for {X} (h : N) (q : Q) : M X N := tick cb KHash ;;; ret (het_hash h q).
Fixpoint het_find_in_chain {X} (p : N) (q : Q) (l : list node) : M X (option nat) :=
  match l with
  | [] => ret None
  | x :: r => tick cb KEq ;;; if qeqf p q (nkey x) then ret (Some (nd_id x)) else het_find_in_chain p q r
  end.
(** implementation.hpp l.1720-1734 [find_node_impl] *)
Definition het_find_node_impl {X} (t : table) (q : Q) (itb : biter) : M X (option nat) :=
  if bi_eqb itb (b_end (f_b t)) then ret None
  else l <- of_option (chain (f_b t) itb) ;; het_find_in_chain (f_pid t) q l.
(** l.1753-1768 [find(k)] *)
Definition het_find {X} (t : table) (q : Q) : M X eit :=
  if N.ltb 0 (f_size t) then
    h <- het_hash_for (f_hid t) q ;;
    itb <- of_option (at_hash (f_b t) h) ;;
    l <- of_option (chain (f_b t) itb) ;;
    r <- het_find_in_chain (f_pid t) q l ;;
    match r with Some i => ret (EI (Some i) itb) | None => ret e_end end
  else ret e_end.
(** l.1288-1310 [group_count] *)
Fixpoint het_count_chain {X} (p : N) (q : Q) (found : bool) (l : list node) : M X N :=
  match l with
  | [] => ret 0%N
  | x :: r =>
      tick cb KEq ;;;
      if qeqf p q (nkey x) then n <- het_count_chain p q true r ;; ret (n + 1)%N
      else if found then ret 0%N else het_count_chain p q false r
  end.
Definition het_group_count {X} (t : table) (q : Q) : M X N :=
  if N.eqb (f_size t) 0 then ret 0%N
  else
    h <- het_hash_for (f_hid t) q ;;
    itb <- of_option (at_hash (f_b t) h) ;;
    l <- of_option (chain (f_b t) itb) ;;
    het_count_chain (f_pid t) q false l.
(** l.1278-1286 [next_group] *)
Fixpoint het_next_group {X} (p : N) (q : Q) (l : list node) : M X (list node * list node) :=
  match l with
  | [] => ret ([], [])
  | x :: r =>
      tick cb KEq ;;;
      if qeqf p q (nkey x) then g <- het_next_group p q r ;; ret (x :: fst g, snd g) else ret ([], x :: r)
  end.
(** unordered_map.hpp l.562-573 and 1839-1847, unordered_multimap l.1171-1182: equal_range *)
Definition het_equal_range {X} (t : table) (q : Q) : M X (list node) :=
  it <- het_find t q ;;
  if e_eqb it e_end then ret []
  else if multi c then
    l <- of_option (rest t it) ;; g <- het_next_group (f_pid t) q l ;; ret (fst g)
  else
    last <- of_option (e_next (f_b t) it) ;;
    of_option (walk (fuel_of t) (f_b t) it last).
(** l.2230-2243 [erase_key_unique_impl], 1770-1784 [find_prev] *)
Definition het_find_prev (t : table) (q : Q) (itb : biter) : M St (option nat) :=
  if N.ltb 0 (f_size t) then l <- of_option (chain (f_b t) itb) ;; het_find_in_chain (f_pid t) q l else ret None.
Definition het_erase_key_unique (q : Q) : M St N :=
  t <- get_t ;;
  h <- het_hash_for (f_hid t) q ;;
  itb <- of_option (at_hash (f_b t) h) ;;
  r <- het_find_prev t q itb ;;
  match r with
  | None => ret 0%N
  | Some i =>
      x <- lookup_at itb i ;;
      on_b (fun b => extract_node b itb i) ;;;
      delete_node x ;;;
      mod_t dec_size ;;;
      ret 1%N
  end.
(** l.2626-2647 [erase_key_equiv_impl]: here the predicate gets the stored key first *)
Fixpoint het_erase_run (p : N) (q : Q) (itb : biter) (pre l : list node) : M St N :=
  match l with
  | [] => ret 0%N
  | x :: r =>
      tick cb KEq ;;;
      if qeqr p (nkey x) q then
        on_b (fun b => set_chain b itb (pre ++ r)) ;;;
        delete_node x ;;;
        mod_t dec_size ;;;
        n <- het_erase_run p q itb pre r ;;
        ret (n + 1)%N
      else ret 0%N
  end.
Definition het_erase_key_equiv (q : Q) : M St N :=
  t <- get_t ;;
  h <- het_hash_for (f_hid t) q ;;
  itb <- of_option (at_hash (f_b t) h) ;;
  r <- het_find_prev t q itb ;;
  match r with
  | None => ret 0%N
  | Some i =>
      pq <- of_option (l <-o chain (f_b t) itb ;; split_id i l) ;;
      n <- het_erase_run (f_pid t) q itb (fst pq) (snd pq) ;;
      t <- get_t ;;
      l <- of_option (chain (f_b t) itb) ;;
      (if is_nil l then on_b (fun b => b_unlink b itb) else ret tt) ;;;
      ret n
  end.
(** l.2003-2030 [try_emplace_unique(k,args)]: the element is made of [conv q], the key constructed from q, and v *)
Definition het_try_emplace (conv : Q -> K) (q : Q) (v : V) : M St (eit * bool) :=
  t <- get_t ;;
  h <- het_hash_for (f_hid t) q ;;
  itb <- of_option (at_hash (f_b t) h) ;;
  r <- het_find_node_impl t q itb ;;
  match r with
  | Some i => ret (EI (Some i) itb, false)
  | None =>
      x <- new_node c KConstruct (conv q, v) ;;
      it <- on_exn (grow_insert c x h itb) (delete_node x) ;;
      ret (it, true)
  end.
(** l.2043-2070 [insert_or_assign_unique] *)
Definition het_insert_or_assign (conv : Q -> K) (q : Q) (v : V) : M St (eit * bool) :=
  t <- get_t ;;
  h <- het_hash_for (f_hid t) q ;;
  itb <- of_option (at_hash (f_b t) h) ;;
  r <- het_find_node_impl t q itb ;;
  match r with
  | Some i => assign_value c (EI (Some i) itb) v ;;; ret (EI (Some i) itb, false)
  | None =>
      x <- new_node c KConstruct (conv q, v) ;;
      it <- on_exn (grow_insert c x h itb) (delete_node x) ;;
      ret (it, true)
  end.
(** l.1788-1799 [extract_by_key_impl] *)
Definition het_extract_key (q : Q) : M St (option node) :=
  t <- get_t ;;
  it <- het_find t q ;;
  if e_eqb it e_end then ret None else x <- extract_at it ;; ret (Some x).
(** the operations and what they return to the user *)
Definition m_het_find (q : Q) : M St (option (nat * (K * V))) := t <- get_t ;; it <- het_find t q ;; deref_opt it.
(** unordered_map.hpp l.1881-1917: None stands for std::out_of_range *)
Definition m_het_at (q : Q) : M St (option V) := o <- m_het_find q ;; ret (option_map (fun x => snd (snd x)) o).
Definition m_het_contains (q : Q) : M St bool := t <- get_t ;; it <- het_find t q ;; ret (negb (e_eqb it e_end)).
Definition m_het_count (q : Q) : M St N := t <- get_t ;; het_group_count t q.
Definition m_het_equal_range (q : Q) : M St (list (nat * (K * V))) := t <- get_t ;; l <- het_equal_range t q ;; ret (map el l).
Definition m_het_erase (q : Q) : M St N := if multi c then het_erase_key_equiv q else het_erase_key_unique q.

(** *** lookup of an arbitrary value whose hash agrees with the keys it matches *)
Definition het_compat (h p : N) (q : Q) : Prop := forall k, qeqf p q k = true -> qhashf h q = hashf cb h k.
Definition het_lookup (p : N) (q : Q) (l : list node) : option node := List.find (fun x => qeqf p q (nkey x)) l.
Lemma het_hash_lt h q : (het_hash h q < 2 ^ 64)%N. Proof. apply N.mod_lt. discriminate. Qed.
Lemma het_not_here t l q p y j : CInv c t l -> het_compat (f_hid t) (f_pid t) q ->
  fca_position (het_hash (f_hid t) q) (b_idx (f_b t)) = Some (N.of_nat p) -> In y (chainat (f_b t) j) -> j <> p -> qeqf (f_pid t) q (nkey y) = false.
Proof.
  intros H HQ E I N. destruct (qeqf (f_pid t) q (nkey y)) eqn:Ek; [|reflexivity]. exfalso. apply N. pose proof (ci_placed _ _ _ H j y I) as P.
  unfold het_hash in E. rewrite (HQ _ Ek) in E. unfold hash_of in P. rewrite E in P. injection P as P. lia.
Qed.
Lemma het_lookup_chain t l q p : CInv c t l -> het_compat (f_hid t) (f_pid t) q -> Wf (f_b t) l -> p < b_size (f_b t) ->
  fca_position (het_hash (f_hid t) q) (b_idx (f_b t)) = Some (N.of_nat p) -> het_lookup (f_pid t) q l = het_lookup (f_pid t) q (chainat (f_b t) p).
Proof.
  intros H HQ W L E. destruct (seq_chain _ _ p W L) as (A & C & -> & D). unfold het_lookup. rewrite !FcaTab.find_app.
  assert (forall y, In y A \/ In y C -> qeqf (f_pid t) q (nkey y) = false) as F.
  { intros y I. destruct (D y I) as (j & N & J). apply (het_not_here t _ q p y j H HQ E J N). }
  rewrite (find_none_all _ A) by auto. rewrite (find_none_all _ C) by auto. destruct (List.find _ _); reflexivity.
Qed.
Lemma het_find_in_chain_ok {X} p q l (s : X) n : outcome (het_find_in_chain p q l s n) (fun r s' => s' = s /\ r = option_map nd_id (het_lookup p q l)) (RO c s).
Proof.
  revert n. induction l as [|y l IH]; intros n; cbn [het_find_in_chain]; [split; reflexivity|]. apply (outcome_tick c); [intros R; split; [reflexivity|auto]|]. intros n'. unfold het_lookup. cbn [List.find].
  destruct (qeqf p q (nkey y)); [split; reflexivity|]. apply IH.
Qed.
Lemma het_outcome_hash {X A} h q (f : N -> M X A) (s : X) n P (E : kind -> X -> Prop) : (raised KHash -> E KHash s) -> (forall n', outcome (f (het_hash h q) s n') P E) -> outcome (bind (het_hash_for h q) f s n) P E.
Proof. intros H1 H2. unfold het_hash_for. rewrite bind_bind. apply (outcome_tick c); [exact H1|]. intros n'. rewrite bind_ret. apply H2. Qed.
Lemma het_find_ok {X} t l q (s : X) n : TInv t l -> het_compat (f_hid t) (f_pid t) q ->
  outcome (het_find t q s n) (fun it s' => s' = s /\ opt_it t (het_lookup (f_pid t) q l) it) (RO c s).
Proof.
  intros [H Sz _] HQ. unfold het_find. destruct (N.ltb_spec 0 (f_size t)) as [L|L].
  - assert (l <> []) as Nl by (intros ->; cbn in Sz; lia). pose proof (BOk_cons _ _ (ci_b _ _ _ H) Nl) as W.
    apply het_outcome_hash; [intros R; split; [reflexivity|auto]|]. intros n1. destruct (at_hash_wf _ _ _ W (het_hash_lt (f_hid t) q)) as (p & Lp & P & A). rewrite A. cbn [of_option]. rewrite bind_ret.
    assert (chain (f_b t) (BI p (Some (p / 64))) = Some (chainat (f_b t) p)) as -> by (destruct W as (o & W & _); apply (chain_at _ (ne (f_b t)) o); [exact W|lia]).
    cbn [of_option]. rewrite bind_ret. rewrite (het_lookup_chain t l q p H HQ W Lp P).
    eapply outcome_bind; [apply het_find_in_chain_ok|]. cbn beta. intros r s' n2 [-> ->]. destruct (het_lookup (f_pid t) q (chainat (f_b t) p)) as [y|] eqn:E; cbn; [|split; reflexivity].
    split; [reflexivity|]. exists p. split; [apply List.find_some in E; apply E|reflexivity].
  - assert (l = []) as -> by (destruct l; [reflexivity|cbn in Sz; lia]). split; reflexivity.
Qed.

(** *** a value that stands for a key: everything is as with the key *)
Lemma bind_same {S A B} (m m' : M S A) (f : A -> M S B) s n : m s n = m' s n -> bind m f s n = bind m' f s n.
Proof. intros E. unfold bind. now rewrite E. Qed.
Lemma bind_ext {S A B} (m : M S A) (f g : A -> M S B) s n : (forall a s' n', f a s' n' = g a s' n') -> bind m f s n = bind m g s n.
Proof. intros E. unfold bind. destruct (m s n); [apply E|reflexivity|reflexivity]. Qed.
Section Stands.
Variables (p : N) (q : Q) (k0 : K).
Hypothesis He : forall k, qeqf p q k = keqf cb p k0 k.
Hypothesis Hr : forall k, qeqr p k q = keqf cb p k k0.
Lemma stands_chain {X} l (s : X) n : het_find_in_chain p q l s n = find_in_chain c p k0 l s n.
Proof. revert s n. induction l as [|y l IH]; intros s n; [reflexivity|]. cbn [het_find_in_chain find_in_chain]. apply bind_ext. intros u s' n'. rewrite He. destruct (keqf cb p k0 (nkey y)); [reflexivity|apply IH]. Qed.
Lemma stands_count b l : forall {X} (s : X) n, het_count_chain p q b l s n = count_chain c p k0 b l s n.
Proof.
  revert b. induction l as [|y l IH]; intros b X s n; [reflexivity|]. cbn [het_count_chain count_chain]. apply bind_ext. intros u s' n'. rewrite He.
  destruct (keqf cb p k0 (nkey y)); [apply bind_same; apply IH|]. destruct b; [reflexivity|apply IH].
Qed.
Lemma stands_group {X} l (s : X) n : het_next_group p q l s n = next_group c p k0 l s n.
Proof.
  revert s n. induction l as [|y l IH]; intros s n; [reflexivity|]. cbn [het_next_group next_group]. apply bind_ext. intros u s' n'. rewrite He.
  destruct (keqf cb p k0 (nkey y)); [apply bind_same; apply IH|reflexivity].
Qed.
Lemma stands_run itb pre l s n : het_erase_run p q itb pre l s n = erase_run c p k0 itb pre l s n.
Proof.
  revert s n. induction l as [|y l IH]; intros s n; [reflexivity|]. cbn [het_erase_run erase_run]. apply bind_ext. intros u s' n'. rewrite Hr.
  destruct (keqf cb p (nkey y) k0); [|reflexivity]. do 3 (apply bind_ext; intros ? ? ?). apply bind_same. apply IH.
Qed.
End Stands.
Definition stands (t : table) (q : Q) (k0 : K) : Prop :=
  qhashf (f_hid t) q = hashf cb (f_hid t) k0 /\ (forall k, qeqf (f_pid t) q k = keqf cb (f_pid t) k0 k) /\ (forall k, qeqr (f_pid t) k q = keqf cb (f_pid t) k k0).
Lemma stands_hash_for {X A} t q k0 (f : N -> M X A) s n : stands t q k0 -> bind (het_hash_for (f_hid t) q) f s n = bind (hash_for cb (f_hid t) k0) f s n.
Proof. intros (Hh & _). unfold het_hash_for, hash_for, het_hash, hash_of. now rewrite Hh. Qed.
Lemma stands_find {X} t q k0 (s : X) n : stands t q k0 -> het_find t q s n = find c t k0 s n.
Proof.
  intros S. unfold het_find, find. destruct (0 <? f_size t)%N; [|reflexivity]. rewrite (stands_hash_for t q k0 _ s n S). apply bind_ext. intros h s1 n1. do 2 (apply bind_ext; intros ? ? ?).
  apply bind_same. apply stands_chain. apply S.
Qed.
Lemma stands_group_count {X} t q k0 (s : X) n : stands t q k0 -> het_group_count t q s n = group_count c t k0 s n.
Proof.
  intros S. unfold het_group_count, group_count. destruct (f_size t =? 0)%N; [reflexivity|]. rewrite (stands_hash_for t q k0 _ s n S). apply bind_ext. intros h s1 n1. do 2 (apply bind_ext; intros ? ? ?).
  apply stands_count. apply S.
Qed.
Lemma stands_range {X} t q k0 (s : X) n : stands t q k0 -> het_equal_range t q s n = equal_range c t k0 s n.
Proof.
  intros S. unfold het_equal_range, equal_range. unfold bind at 1. rewrite (stands_find t q k0 s n S). fold (bind (find c t k0) (fun it => if e_eqb it e_end then ret [] else if multi c then l <- of_option (rest t it) ;; g <- het_next_group (f_pid t) q l ;; ret (fst g) else last <- of_option (e_next (f_b t) it) ;; of_option (walk (fuel_of t) (f_b t) it last)) s n).
  apply bind_ext. intros it s1 n1. destruct (e_eqb it e_end); [reflexivity|]. destruct (multi c); [|reflexivity]. apply bind_ext. intros l s2 n2. apply bind_same. apply stands_group. apply S.
Qed.
Lemma stands_prev t q k0 itb s n : stands t q k0 -> het_find_prev t q itb s n = find_prev c t k0 itb s n.
Proof. intros S. unfold het_find_prev, find_prev. destruct (0 <? f_size t)%N; [|reflexivity]. apply bind_ext. intros l s1 n1. apply stands_chain. apply S. Qed.
Lemma stands_erase t h q k0 n : stands t q k0 -> m_het_erase q (t, h) n = (if multi c then erase_key_equiv c k0 else erase_key_unique c k0) (t, h) n.
Proof.
  intros S. unfold m_het_erase. destruct (multi c).
  - unfold het_erase_key_equiv, erase_key_equiv, get_t. rewrite !bind_bind, !bind_get, !bind_ret. cbn [fst]. rewrite (stands_hash_for t q k0 _ _ n S). apply bind_ext. intros hh s1 n1. apply bind_ext. intros itb s2 n2.
    transitivity ((r <- find_prev c t k0 itb ;;
      match r with
      | None => ret 0%N
      | Some i =>
          pq <- of_option (l <-o chain (f_b t) itb ;; split_id i l) ;;
          n <- het_erase_run (f_pid t) q itb (fst pq) (snd pq) ;;
          t <- (s <- get ;; ret (fst s)) ;;
          l <- of_option (chain (f_b t) itb) ;;
          (if is_nil l then on_b (fun b => b_unlink b itb) else ret tt) ;;;
          ret n
      end) s2 n2); [apply bind_same; exact (stands_prev t q k0 itb s2 n2 S)|].
    apply bind_ext. intros r s3 n3. destruct r as [i|]; [|reflexivity]. apply bind_ext. intros pq s4 n4. apply bind_same. apply stands_run. apply S.
  - unfold het_erase_key_unique, erase_key_unique, get_t. rewrite !bind_bind, !bind_get, !bind_ret. cbn [fst]. rewrite (stands_hash_for t q k0 _ _ n S). apply bind_ext. intros hh s1 n1. apply bind_ext. intros itb s2 n2.
    apply bind_same. exact (stands_prev t q k0 itb s2 n2 S).
Qed.
Lemma stands_node t q k0 itb {X} (s : X) n : stands t q k0 -> het_find_node_impl t q itb s n = find_node_impl c t k0 itb s n.
Proof. intros S. unfold het_find_node_impl, find_node_impl. destruct (bi_eqb itb (b_end (f_b t))); [reflexivity|]. apply bind_ext. intros l s1 n1. apply stands_chain. apply S. Qed.
Lemma bind_both {S A B} (m m' : M S A) (f g : A -> M S B) s n : m s n = m' s n -> (forall a s' n', f a s' n' = g a s' n') -> bind m f s n = bind m' g s n.
Proof. intros E F. rewrite (bind_same m m' f s n E). apply bind_ext. exact F. Qed.
Lemma stands_try_emplace conv t h q v n : stands t q (conv q) -> het_try_emplace conv q v (t, h) n = emplace_unique c true KConstruct (conv q, v) (t, h) n.
Proof.
  intros S. unfold het_try_emplace, emplace_unique, emplace_unique_key, get_t. rewrite !bind_bind, !bind_get, !bind_ret. cbn [fst]. rewrite (stands_hash_for t q (conv q) _ _ n S). apply bind_ext. intros hh s1 n1. apply bind_ext. intros itb s2 n2.
  apply bind_both; [exact (stands_node t q (conv q) itb s2 n2 S)|]. intros r s3 n3. destruct r; reflexivity.
Qed.
Lemma stands_insert_or_assign conv t h q v n : stands t q (conv q) -> het_insert_or_assign conv q v (t, h) n = insert_or_assign_unique c (conv q) v (t, h) n.
Proof.
  intros S. unfold het_insert_or_assign, insert_or_assign_unique, get_t. rewrite !bind_bind, !bind_get, !bind_ret. cbn [fst]. rewrite (stands_hash_for t q (conv q) _ _ n S). apply bind_ext. intros hh s1 n1. apply bind_ext. intros itb s2 n2.
  apply bind_both; [exact (stands_node t q (conv q) itb s2 n2 S)|]. intros r s3 n3. destruct r; reflexivity.
Qed.
Lemma stands_extract t h q k0 n : stands t q k0 -> het_extract_key q (t, h) n = extract_key c k0 (t, h) n.
Proof.
  intros S. unfold het_extract_key, extract_key, get_t. rewrite !bind_bind, !bind_get, !bind_ret. cbn [fst]. apply bind_both; [exact (stands_find t q k0 _ n S)|]. intros it s3 n3. reflexivity.
Qed.

(** *** a value that behaves like the keys it matches *)
Definition fits (t : table) (q : Q) : Prop :=
  (forall k, qeqf (f_pid t) q k = true -> qhashf (f_hid t) q = hashf cb (f_hid t) k) /\
  (forall k, qeqf (f_pid t) q k = true -> forall k', qeqf (f_pid t) q k' = keqf cb (f_pid t) k k') /\
  (forall k, qeqr (f_pid t) k q = qeqf (f_pid t) q k).
Lemma fits_stands t l q k : TInv t l -> fits t q -> qeqf (f_pid t) q k = true -> stands t q k.
Proof.
  intros T (A & B & C) E. split; [apply A; exact E|]. split; [apply B; exact E|]. intros k'. rewrite C, (B k E k'). destruct (ci_agree _ _ _ (ti_c _ _ _ T)) as [(_ & Sy & _) _]. apply Sy.
Qed.
Definition matches (t : table) (q : Q) (x : nat * (K * V)) : bool := qeqf (f_pid t) q (key x).
Definition nomatch (t : table) (l : list node) (q : Q) : Prop := forall y, In y l -> qeqf (f_pid t) q (nkey y) = false.
Lemma match_dec t l q : (exists y, In y l /\ qeqf (f_pid t) q (nkey y) = true) \/ nomatch t l q.
Proof.
  destruct (List.find (fun y => qeqf (f_pid t) q (nkey y)) l) as [y|] eqn:E.
  - left. exists y. apply List.find_some in E. exact E.
  - right. intros y I. exact (List.find_none _ _ E y I).
Qed.
Lemma nomatch_lookup t l q : nomatch t l q -> het_lookup (f_pid t) q l = None.
Proof. intros N. unfold het_lookup. apply find_none_all. exact N. Qed.
Lemma nomatch_filter t l q : nomatch t l q -> filter (fun y : node => qeqf (f_pid t) q (nkey y)) l = [].
Proof. intros N. induction l as [|y l IH]; [reflexivity|]. cbn [filter]. rewrite (N y (or_introl eq_refl)). apply IH. intros z I. apply N. right. exact I. Qed.
Lemma nomatch_count {X} p q l (s : X) n : (forall y, In y l -> qeqf p q (nkey y) = false) -> outcome (het_count_chain p q false l s n) (fun m s' => s' = s /\ m = 0%N) (RO c s).
Proof.
  revert n. induction l as [|y l IH]; intros n N; cbn [het_count_chain]; [split; reflexivity|]. apply (outcome_tick c); [intros R; split; [reflexivity|auto]|]. intros n'.
  rewrite (N y (or_introl eq_refl)). apply IH. intros z I. apply N. right. exact I.
Qed.
Lemma nomatch_chain {X} p q l (s : X) n : (forall y, In y l -> qeqf p q (nkey y) = false) -> outcome (het_find_in_chain p q l s n) (fun r s' => s' = s /\ r = None) (RO c s).
Proof.
  intros N. eapply outcome_weaken; [apply het_find_in_chain_ok| |intros k s' E; exact E]. cbn beta. intros r s' [-> ->]. split; [reflexivity|]. unfold het_lookup. rewrite (find_none_all _ l N). reflexivity.
Qed.
Lemma het_at_hash t l q : CInv c t l -> exists itb, at_hash (f_b t) (het_hash (f_hid t) q) = Some itb.
Proof. intros H. destruct (ci_b _ _ _ H) as [[B _]|W]; [rewrite (at_hash_null _ _ B (het_hash_lt _ _)); eauto|]. destruct (at_hash_wf _ _ _ W (het_hash_lt (f_hid t) q)) as (p & _ & _ & A). eauto. Qed.
(** the chain of a bucket of a non-empty container *)
Lemma het_chain t l q : TInv t l -> (0 < f_size t)%N -> exists p, at_hash (f_b t) (het_hash (f_hid t) q) = Some (BI p (Some (p / 64))) /\ chain (f_b t) (BI p (Some (p / 64))) = Some (chainat (f_b t) p) /\ forall y, In y (chainat (f_b t) p) -> In y l.
Proof.
  intros [H Sz _] L. assert (l <> []) as Nl by (intros ->; cbn in Sz; lia). pose proof (BOk_cons _ _ (ci_b _ _ _ H) Nl) as W.
  destruct (at_hash_wf _ _ _ W (het_hash_lt (f_hid t) q)) as (p & Lp & P & A). exists p. split; [exact A|]. split; [destruct W as (o & W & _); apply (chain_at _ (ne (f_b t)) o); [exact W|lia]|].
  intros y I. exact (in_CInv c t l y p H I).
Qed.
Notation heqs t q l := (filter (fun y : node => qeqf (f_pid t) q (nkey y)) l).
Lemma het_count_ok t l q {X} (s : X) n : TInv t l -> fits t q -> outcome (het_group_count t q s n) (fun m s' => s' = s /\ m = N.of_nat (length (heqs t q l))) (RO c s).
Proof.
  intros T F. destruct (match_dec t l q) as [(y & I & E)|N].
  - pose proof (fits_stands t l q (nkey y) T F E) as S. rewrite (stands_group_count t q (nkey y) s n S). eapply outcome_weaken; [apply (group_count_ok c t l (nkey y) s n T)| |intros k s' X1; exact X1].
    cbn beta. intros m s' [-> ->]. split; [reflexivity|]. f_equal. f_equal. unfold eqs. apply filter_ext. intros z. symmetry. apply S.
  - rewrite (nomatch_filter t l q N). unfold het_group_count. destruct (N.eqb_spec (f_size t) 0) as [Z|Z]; [split; reflexivity|].
    apply het_outcome_hash; [intros R; split; [reflexivity|auto]|]. intros n1. destruct (het_chain t l q T ltac:(lia)) as (p & A & B & C). rewrite A. cbn [of_option]. rewrite bind_ret, B. cbn [of_option]. rewrite bind_ret.
    apply nomatch_count. intros y I. apply N, C, I.
Qed.
Lemma het_range_ok t l q {X} (s : X) n : TInv t l -> fits t q -> outcome (het_equal_range t q s n) (fun g s' => s' = s /\ g = heqs t q l) (RO c s).
Proof.
  intros T F. destruct (match_dec t l q) as [(y & I & E)|N].
  - pose proof (fits_stands t l q (nkey y) T F E) as S. rewrite (stands_range t q (nkey y) s n S). eapply outcome_weaken; [apply (equal_range_ok c t l (nkey y) s n T)| |intros k s' X1; exact X1].
    cbn beta. intros m s' [-> ->]. split; [reflexivity|]. unfold eqs. apply filter_ext. intros z. symmetry. apply S.
  - rewrite (nomatch_filter t l q N). unfold het_equal_range. eapply outcome_bind; [apply (het_find_ok t l q s n T (proj1 F))|]. cbn beta. intros it s' n1 [-> O]. rewrite (nomatch_lookup t l q N) in O. cbn in O. unfold e_eqb. rewrite O. split; reflexivity.
Qed.
(** erase: none matches, nothing happens *)
Lemma het_erase_none t l h q n : TInv t l -> nomatch t l q -> outcome (m_het_erase q (t, h) n) (fun m s' => s' = (t, h) /\ m = 0%N) (RO c (t, h)).
Proof.
  intros T N. pose proof (ti_c _ _ _ T) as H.
  assert (forall itb n', at_hash (f_b t) (het_hash (f_hid t) q) = Some itb -> outcome (het_find_prev t q itb (t, h) n') (fun r s' => s' = (t, h) /\ r = None) (RO c (t, h))) as P.
  { intros itb n' A. unfold het_find_prev. destruct (N.ltb_spec 0 (f_size t)) as [L|L]; [|split; reflexivity]. destruct (het_chain t l q T L) as (p & A' & B & C). rewrite A in A'. assert (itb = BI p (Some (p / 64))) as -> by congruence. rewrite B. cbn [of_option]. rewrite bind_ret.
    apply nomatch_chain. intros y I. apply N, C, I. }
  destruct (het_at_hash t l q H) as (itb & A). unfold m_het_erase. destruct (multi c).
  - unfold het_erase_key_equiv. rewrite get_t_eq. apply het_outcome_hash; [intros R; split; [reflexivity|auto]|]. intros n1. rewrite A. cbn [of_option]. rewrite bind_ret. eapply outcome_bind; [apply (P itb n1 A)|]. cbn beta. intros r s' n2 [-> ->]. split; reflexivity.
  - unfold het_erase_key_unique. rewrite get_t_eq. apply het_outcome_hash; [intros R; split; [reflexivity|auto]|]. intros n1. rewrite A. cbn [of_option]. rewrite bind_ret. eapply outcome_bind; [apply (P itb n1 A)|]. cbn beta. intros r s' n2 [-> ->]. split; reflexivity.
Qed.

(** *** in terms of what a user sees *)
Lemma find_map {A B} (f : A -> B) (P : B -> bool) l : List.find P (map f l) = option_map f (List.find (fun a => P (f a)) l).
Proof. induction l as [|a l IH]; [reflexivity|]. cbn [map List.find]. destruct (P (f a)); [reflexivity|exact IH]. Qed.
Lemma filter_map {A B} (f : A -> B) (P : B -> bool) l : filter P (map f l) = map f (filter (fun a => P (f a)) l).
Proof. induction l as [|a l IH]; [reflexivity|]. cbn [map filter]. destruct (P (f a)); cbn [map]; rewrite IH; reflexivity. Qed.
Definition reads {A} (s : St) (r : R St A) (P : A -> Prop) : Prop :=
  match r with Ret a s' _ => s' = s /\ P a | Exn k s' _ => s' = s /\ (k = KHash \/ k = KEq) /\ exists j, throws cb k j = true | Undef => False end.
Lemma reads_outcome {A} (s : St) (r : R St A) P : outcome r (fun a s' => s' = s /\ P a) (RO c s) -> reads s r P.
Proof. unfold outcome, reads, RO. destruct r; [auto| |auto]. intros (A1 & A2 & A3). auto. Qed.
Lemma het_find_user t h l q n r : SI c r (t, h) l -> TInv t l -> het_compat (f_hid t) (f_pid t) q ->
  reads (t, h) (m_het_find q (t, h) n) (fun o => o = List.find (fun x => qeqf (f_pid t) q (key x)) (map el l)).
Proof.
  intros I T HQ. apply reads_outcome. unfold m_het_find. rewrite get_t_eq. eapply outcome_bind; [apply (het_find_ok t l q (t, h) n T HQ)|]. cbn beta. intros it s' n1 [-> O]. rewrite find_map.
  change (List.find (fun a => qeqf (f_pid t) q (key (el a))) l) with (het_lookup (f_pid t) q l). rewrite <- (bind_ret_r (deref_opt it) (t, h) n1). destruct (het_lookup (f_pid t) q l) as [y|]; cbn [opt_it option_map] in *.
  - rewrite (deref_opt_node c r (t, h) l y it _ n1 I O). split; reflexivity.
  - rewrite (deref_opt_none (t, h) it _ n1 O). split; reflexivity.
Qed.
Lemma het_contains_user t h l q n : TInv t l -> het_compat (f_hid t) (f_pid t) q ->
  reads (t, h) (m_het_contains q (t, h) n) (fun b => b = existsb (fun x => qeqf (f_pid t) q (key x)) (map el l)).
Proof.
  intros T HQ. apply reads_outcome. unfold m_het_contains. rewrite get_t_eq. eapply outcome_bind; [apply (het_find_ok t l q (t, h) n T HQ)|]. cbn beta. intros it s' n1 [-> O].
  split; [reflexivity|]. destruct (match_dec t l q) as [(y & I & E)|N].
  - assert (exists z, het_lookup (f_pid t) q l = Some z) as (z & Ez). { unfold het_lookup. destruct (List.find _ l) as [z|] eqn:F; [eauto|]. rewrite (List.find_none _ _ F y I) in E. discriminate. }
    rewrite Ez in O. destruct O as (p & _ & ->). cbn. symmetry. apply existsb_exists. exists (el y). split; [apply in_map; exact I|exact E].
  - rewrite (nomatch_lookup t l q N) in O. cbn in O. unfold e_eqb. rewrite O. cbn. symmetry. apply not_true_iff_false. intros X. apply existsb_exists in X as (x & J & E). apply in_map_iff in J as (y & <- & J).
    change (qeqf (f_pid t) q (nkey y) = true) in E. rewrite (N y J) in E. discriminate.
Qed.
Lemma het_count_user t h l q n : TInv t l -> fits t q ->
  reads (t, h) (m_het_count q (t, h) n) (fun m => m = N.of_nat (length (filter (fun x => qeqf (f_pid t) q (key x)) (map el l)))).
Proof.
  intros T F. apply reads_outcome. unfold m_het_count. rewrite get_t_eq. rewrite filter_map, map_length. exact (het_count_ok t l q (t, h) n T F).
Qed.
Lemma het_range_user t h l q n : TInv t l -> fits t q ->
  reads (t, h) (m_het_equal_range q (t, h) n) (fun m => m = filter (fun x => qeqf (f_pid t) q (key x)) (map el l)).
Proof.
  intros T F. apply reads_outcome. unfold m_het_equal_range. rewrite get_t_eq. eapply outcome_bind; [apply (het_range_ok t l q (t, h) n T F)|]. cbn beta. intros g s' n1 [-> ->]. split; [reflexivity|]. rewrite filter_map. reflexivity.
Qed.
Lemma het_erase_user t h q n : in_program c t h -> fits t q ->
  match m_het_erase q (t, h) n with
  | Ret m s' _ => in_program c (fst s') (snd s') /\ m = N.of_nat (length (filter (fun x => qeqf (f_pid t) q (key x)) (elems t))) /\ elems (fst s') = filter (fun x => negb (qeqf (f_pid t) q (key x))) (elems t)
  | Exn k s' _ => in_program c (fst s') (snd s') /\ (exists j, throws cb k j = true) /\
     (elems (fst s') = elems t \/ multi c = true /\ exists gone, Permutation (elems t) (gone ++ elems (fst s')) /\ forallb (fun x => qeqf (f_pid t) q (key x)) gone = true)
  | Undef => False
  end.
Proof.
  intros P F. pose proof (prog_inv c t h P) as T. destruct (match_dec t (contents t) q) as [(y & I & E)|N].
  - pose proof (fits_stands t _ q (nkey y) T F E) as S. rewrite (stands_erase t h q (nkey y) n S). pose proof (step1 c t h (EraseKey (nkey y)) n P Logic.I) as X. cbn [exec1] in X.
    assert (forall l : list (nat * (K * V)), filter (has (keqf cb) (f_pid t) (nkey y)) l = filter (fun x => qeqf (f_pid t) q (key x)) l) as E1 by (intros l; apply filter_ext; intros x; symmetry; apply S).
    assert (forall l : list (nat * (K * V)), filter (fun x => negb (has (keqf cb) (f_pid t) (nkey y) x)) l = filter (fun x => negb (qeqf (f_pid t) q (key x))) l) as E2 by (intros l; apply filter_ext; intros x; f_equal; symmetry; apply S).
    assert (forall l : list (nat * (K * V)), forallb (has (keqf cb) (f_pid t) (nkey y)) l = forallb (fun x => qeqf (f_pid t) q (key x)) l) as E3.
    { intros l. induction l as [|x l IH]; [reflexivity|]. cbn [forallb]. rewrite IH. f_equal. symmetry. apply S. }
    unfold bind in X. destruct ((if multi c then erase_key_equiv c (nkey y) else erase_key_unique c (nkey y)) (t, h) n) as [m s' n'|k s' n'|]; cbn [ret spec1] in X; [| |exact X].
    + destruct X as (A & (B1 & B2) & _). rewrite E1 in B1. rewrite E2 in B2. auto.
    + destruct X as (A & B & _ & _ & R). split; [exact A|]. split; [exact R|]. destruct B as [B|(M & gone & B1 & B2)]; [left; exact B|right]. split; [exact M|]. exists gone. rewrite E3 in B2. auto.
  - pose proof (het_erase_none t _ h q n T N) as X.
    assert (filter (fun x => qeqf (f_pid t) q (key x)) (elems t) = []) as E1 by (rewrite (elems_inv c t _ T), filter_map; change (map el (filter (fun y : node => qeqf (f_pid t) q (nkey y)) (contents t)) = []); rewrite (nomatch_filter t _ q N); reflexivity).
    assert (filter (fun x => negb (qeqf (f_pid t) q (key x))) (elems t) = elems t) as E2.
    { apply filter_all. intros x J. destruct (qeqf (f_pid t) q (key x)) eqn:Q0; [|reflexivity]. exfalso. assert (In x []) as []. rewrite <- E1. apply filter_In. auto. }
    destruct (m_het_erase q (t, h) n) as [m s' n'|k s' n'|]; cbn [outcome] in X; [| |exact X].
    + destruct X as [-> ->]. cbn [fst snd]. rewrite E1, E2. split; [exact P|]. split; reflexivity.
    + destruct X as (-> & _ & R). cbn [fst snd]. split; [exact P|]. split; [exact R|]. left. reflexivity.
Qed.
End Het.
