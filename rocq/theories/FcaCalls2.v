(** Calls of user-supplied functions by the closed-addressing containers: kinds of calls, insertion of present keys, node handles. *)
From Coq Require Import NArith ZArith Bool List Arith Lia Permutation.
From Verif Require Import FloatModel HashArithModel FoaModel FoaBase FcaLinks FcaModel FcaIter FcaInv FcaTab FcaRehash FcaOps FcaSpec FcaWorld CallSpec FoaCalls FoaCalls2 FcaCalls.
Import ListNotations.
Local Open Scope nat_scope.
Local Open Scope m_scope.
(** every exception of m is of a kind in P *)
Definition Tk {St A} (P : kind -> Prop) (m : M St A) : Prop := forall s n, throws_only (m s n) P.
Lemma tk_nc {St A} P (m : M St A) : Nc m -> Tk P m.
Proof. intros H s n. specialize (H s n). destruct (m s n); cbn in *; auto; contradiction. Qed.
Lemma tk_bind {St A B} P (m : M St A) (f : A -> M St B) : Tk P m -> (forall a, Tk P (f a)) -> Tk P (bind m f).
Proof. intros H Hf s n. unfold bind. specialize (H s n). destruct (m s n) as [a s' n'|k s' n'|]; cbn in *; [apply Hf|exact H|exact I]. Qed.
Lemma tk_on_exn {St A} P (m : M St A) h : Tk P m -> Nc h -> Tk P (on_exn m h).
Proof. intros H H2 s n. unfold on_exn. specialize (H s n). destruct (m s n) as [a s' n'|k s' n'|]; cbn in *; auto. specialize (H2 s' n'). destruct (h s' n'); cbn in *; auto. Qed.
Lemma tk_lens {St T A} P g (p : St -> T -> St) (m : M T A) : Tk P m -> Tk P (lens g p m).
Proof. intros H s n. unfold lens. specialize (H (g s) n). destruct (m (g s) n); cbn in *; auto. Qed.
Section C.
Context {K V : Type} (c : FCfg K V).
Notation node := (node K V).
Notation table := (FcaModel.table K V).
Notation cb := (base c).
Notation St := (table * heap)%type.
Lemma tk_tick {X} (P : kind -> Prop) k : P k -> Tk (St:=X) P (tick cb k).
Proof. intros H s n. unfold tick. destruct (throws cb k n); cbn; auto. Qed.
Lemma tk_hash {X} (P : kind -> Prop) h k : P KHash -> Tk (St:=X) P (hash_for cb h k).
Proof. intros H. apply tk_bind; [apply tk_tick; exact H|intro; apply tk_nc, nc_ret]. Qed.
Lemma tk_find_in_chain {X} (P : kind -> Prop) p k l : P KEq -> Tk (St:=X) P (find_in_chain c p k l).
Proof. intros H. induction l as [|x l IH]; cbn [find_in_chain]; [apply tk_nc, nc_ret|]. apply tk_bind; [apply tk_tick, H|intro]. destruct (keqf _ _ _ _); [apply tk_nc, nc_ret|exact IH]. Qed.
Lemma tk_find_impl {X} (P : kind -> Prop) (t : table) k itb : P KEq -> Tk (St:=X) P (find_node_impl c t k itb).
Proof. intros H. unfold find_node_impl. destruct (bi_eqb _ _); [apply tk_nc, nc_ret|]. apply tk_bind; [apply tk_nc, nc_opt|intro]. apply tk_find_in_chain, H. Qed.
Lemma tk_transfer_chain (P : kind -> Prop) p l : P KHash -> Tk P (transfer_chain c p l).
Proof.
  intros H. induction l as [|x l IH]; cbn [transfer_chain]; [apply tk_nc, nc_ret|].
  repeat (first [apply IH | apply tk_hash; exact H | apply tk_nc; first [apply nc_get|apply nc_opt|apply nc_modify|apply nc_ret|apply nc_lens, nc_on_b] | apply tk_bind; [|intro]]).
Qed.
Lemma tk_transfer_all (P : kind -> Prop) ps : P KHash -> Tk P (transfer_all c ps).
Proof. intros H. induction ps as [|p ps IH]; cbn [transfer_all]; [apply tk_nc, nc_ret|]. apply tk_bind; [apply tk_nc, nc_get|intro]. apply tk_bind; [apply tk_nc, nc_opt|intro]. apply tk_bind; [apply tk_transfer_chain, H|intro; exact IH]. Qed.
Lemma tk_new_barray {X} (P : kind -> Prop) al m : P KAlloc -> Tk (St:=X) P (new_barray c al m).
Proof. intros H. unfold new_barray. destruct (N.eqb m 0); [apply tk_nc, nc_ret|]. apply tk_bind; [apply tk_nc, nc_opt|intro]. apply tk_bind; [apply tk_tick, H|intro]. apply tk_bind; [apply tk_tick, H|intro]. apply tk_nc, nc_bind; [apply nc_opt|intro; apply nc_ret]. Qed.
Lemma tk_rehash_impl (P : kind -> Prop) m : P KHash -> P KAlloc -> Tk P (rehash_impl c m).
Proof.
  intros H H2. unfold rehash_impl. apply tk_bind; [apply tk_nc, nc_get_t|intro t]. apply tk_bind; [apply tk_new_barray, H2|intro nb]. intros s n.
  match goal with |- throws_only match ?r with _ => _ end _ => assert (throws_only r P) as X end.
  - match goal with |- throws_only (?m ?s ?n) _ => change (throws_only (m s n) P); generalize s, n; change (Tk P m) end. apply tk_bind.
    + apply tk_on_exn; [apply tk_transfer_all, H|]. apply nc_bind; [apply nc_get|intro]. apply nc_bind; [apply nc_opt|intro]. apply nc_bind; [apply nc_delete_transferred|intro]. apply nc_bind; [apply nc_lens, nc_on_b|intro]. apply nc_bind; [apply nc_get|intro]. apply nc_bind; [apply nc_opt|intro; apply nc_ret].
    + intro. apply tk_nc. apply nc_bind; [apply nc_get|intro]. apply nc_bind; [apply nc_opt|intro; apply nc_modify].
  - match goal with |- throws_only match ?r with _ => _ end _ => destruct r; exact X end.
Qed.
Lemma tk_rehash (P : kind -> Prop) m : P KHash -> P KAlloc -> Tk P (rehash c m).
Proof. intros H H2. unfold rehash. apply tk_bind; [apply tk_nc, nc_get_t|intro t]. apply tk_bind; [apply tk_nc, nc_opt|intro]. destruct (negb _); [apply tk_rehash_impl; assumption|apply tk_nc, nc_ret]. Qed.
Lemma tk_reserve (P : kind -> Prop) m : P KHash -> P KAlloc -> Tk P (reserve c m).
Proof. intros H H2. unfold reserve. apply tk_bind; [apply tk_nc, nc_get_t|intro t]. apply tk_rehash; assumption. Qed.
Lemma tk_rfi (P : kind -> Prop) m : P KHash -> P KAlloc -> Tk P (reserve_for_insert c m).
Proof.
  intros H H2. unfold reserve_for_insert. apply tk_bind; [apply tk_nc, nc_get_t|intro t]. destruct (N.ltb _ _); [|apply tk_nc, nc_ret]. apply tk_bind; [apply tk_nc, nc_opt|intro q].
  cbv zeta. destruct (Z.leb _ _); [apply tk_nc, nc_undef|apply tk_rehash_impl; assumption].
Qed.
Lemma tk_grow_insert (P : kind -> Prop) x h itb : P KHash -> P KAlloc -> Tk P (grow_insert c x h itb).
Proof.
  intros H H2. unfold grow_insert. apply tk_bind.
  - unfold grow_for_one. apply tk_bind; [apply tk_nc, nc_get_t|intro t]. destruct (N.ltb _ _); [|apply tk_nc, nc_ret]. apply tk_bind; [first [apply tk_reserve; assumption|apply tk_rfi; assumption]|intro]. apply tk_nc. apply nc_bind; [apply nc_get_t|intro; apply nc_opt].
  - intro. apply tk_nc. apply nc_bind; [apply nc_on_b|intro]. apply nc_bind; [apply nc_mod_t|intro; apply nc_ret].
Qed.
Lemma tk_hint (P : kind -> Prop) hint k : P KEq -> Tk P (hint_matches c hint k).
Proof.
  intros H. unfold hint_matches. destruct (e_p hint); [|apply tk_nc, nc_ret].
  repeat (first [apply tk_tick; exact H | apply tk_nc; first [apply nc_get_t|apply nc_get|apply nc_opt|apply nc_ret|apply nc_deref] | apply tk_bind; [|intro]]).
Qed.
(** what a call of a node-handle insertion may call: never a constructor, never an assignment of an element *)
Definition not_elements (k : kind) : Prop := k = KHash \/ k = KEq \/ k = KAlloc.
Lemma tk_insert_handle hint x : Tk not_elements (insert_handle c hint x).
Proof.
  assert (not_elements KHash) as H1 by (left; reflexivity). assert (not_elements KEq) as H2 by (right; left; reflexivity). assert (not_elements KAlloc) as H3 by (right; right; reflexivity).
  unfold insert_handle. destruct (multi c), hint as [h|]; [unfold insert_handle_hint_equiv|unfold insert_handle_equiv|unfold insert_handle_hint_unique|unfold insert_handle_unique];
    repeat (first [ apply tk_hash; exact H1 | apply tk_find_impl; exact H2 | apply tk_hint; exact H2 | apply tk_rfi; assumption | apply tk_reserve; assumption | apply tk_grow_insert; assumption | apply tk_tick; exact H2
      | apply tk_nc; first [apply nc_get_t|apply nc_mod_t|apply nc_on_b|apply nc_opt|apply nc_ret] | apply tk_bind; [|intro]
      | match goal with |- Tk _ (match ?b with _ => _ end) => destruct b end ]).
Qed.

(** *** sizes *)
Lemma nn_size (t : table) l : TInv c t l -> nn t = length l.
Proof. intros T. unfold nn. apply Permutation_length, (nodes_total c), (ti_c _ _ _ T). Qed.
Lemma nsz_size (t : table) l : TInv c t l -> nsz t = length l.
Proof. intros T. unfold nsz. rewrite (ti_size _ _ _ T). apply Nnat.Nat2N.id. Qed.
Lemma rehashed_nn t h l s' : TInv c t l -> Rehashed c t h l s' -> nn (fst s') = nn t.
Proof. intros T (t' & l' & -> & T' & P & _). cbn [fst]. rewrite (nn_size _ _ T'), (nn_size _ _ T). symmetry. apply Permutation_length, P. Qed.
Lemma outcome_calls {St0 A B} (m : M St0 A) (f : A -> M St0 B) s n Q E d1 d2 : outcome (m s n) Q E -> calls (m s n) n d1 -> (forall a s' n', Q a s' -> calls (f a s' n') n' d2) -> calls (bind m f s n) n (d1 + d2).
Proof. intros O H Hf. apply calls_bind; [exact H|]. intros a s' n' X. apply Hf. rewrite X in O. exact O. Qed.
(** *** node handles *)
Lemma insert_handle_calls r s l hint x n : SI c r s l -> (f_size (fst s) + 1 < 2 ^ 53)%N -> calls (insert_handle c hint x s n) n (4 + 2 * length l).
Proof.
  intros SI0 Rm. pose proof (si_t _ _ _ _ SI0) as T. pose proof (nn_size _ _ T) as NN. destruct s as [t h]. cbn [fst] in *.
  assert (Lv : length l <= live h) by (pose proof (si_live _ _ _ _ SI0) as SL; cbn [snd] in SL; rewrite SL; apply Nat.le_add_r).
  assert (U : uadd (f_size t) 1 = (f_size t + 1)%N) by (unfold uadd; apply N.mod_small; clear - Rm; assert (2 ^ 53 < 2 ^ 64)%N by reflexivity; lia).
  assert (Rm1 : (0 < f_size t + 1)%N) by (clear; lia). assert (Rm2 : (f_size t + 1 <= max_elems)%N) by (unfold max_elems; clear - Rm; lia).
  assert (G : gcost t <= 2 + nn t) by (unfold gcost; destruct (full t); clear; lia).
  unfold insert_handle. destruct (multi c), hint as [hi|].
  - unfold insert_handle_hint_equiv. apply get_t_calls. cbn [fst]. replace (4 + 2 * length l) with (1 + ((2 + nn t) + (1 + nn t))) by (rewrite NN; clear; lia).
    apply calls_ro; [apply cb_hash|apply ro_hash|]. intros hh n1.
    assert (R : forall (b : biter) s' n', nn (fst s') = nn t -> calls ((usable <- (match e_p hi with
             | None => ret false
             | Some i => t <- get_t ;; x' <- of_option (lookup_id i (concat (b_chains (f_b t)))) ;; tick cb KEq ;;; ret (keqf cb (f_pid t) (nkey x) (nkey x'))
             end) ;;
      q <- (if usable : bool then ret (b, e_p hi) else t <- get_t ;; itb <- of_option (at_hash (f_b t) hh) ;; pos <- find_node_impl c t (nkey x) itb ;; ret (itb, pos)) ;;
      on_b (fun b => insert_node_hint b (fst q) x (snd q)) ;;; mod_t inc_size ;;; ret (EI (Some (nd_id x)) (fst q), @None node)) s' n') n' (1 + nn t)).
    { intros b s' n' E.
      apply calls_ro.
      - destruct (e_p hi); [|apply calls_ret]. apply cb_then0; [apply nc_get_t|intro]. apply cb_then0; [apply nc_opt|intro]. apply cb_0then; [apply cb_tick|intro; apply nc_ret].
      - destruct (e_p hi) as [i|]; intros s0 n0 a s1 n2 X; [|injection X as _ <- _; reflexivity].
        unfold get_t in X. rewrite bind_bind, bind_get, bind_ret in X. destruct (lookup_id i _) as [y|]; [|discriminate X]. cbn [of_option] in X. rewrite bind_ret in X. unfold bind, tick in X. destruct (throws cb KEq n0); [discriminate|]. injection X as _ <- _. reflexivity.
      - intros us n2. apply calls_0then; [|intro; apply nc_bind; [apply nc_on_b|intro; apply nc_bind; [apply nc_mod_t|intro; apply nc_ret]]].
        destruct us; [apply calls_ret|]. apply get_t_calls. apply opt_then. intros itb _. apply calls_0then; [rewrite <- E; apply find_impl_cb|intro; apply nc_ret]. }
    destruct (N.ltb _ _) eqn:F.
    + rewrite U. rewrite bind_bind. apply (outcome_calls _ _ _ _ _ _ _ _ (reserve_ok c t h l _ n1 T Lv)); [apply reserve_calls|]. intros _ s' n' (Rh & _). rewrite bind_bind. apply get_t_calls. apply opt_then. intros b _. apply R. apply (rehashed_nn _ _ _ _ T Rh).
    + rewrite bind_ret. eapply calls_le; [apply R; reflexivity|clear; lia].
  - unfold insert_handle_equiv. apply get_t_calls. cbn [fst]. rewrite U. replace (4 + 2 * length l) with ((2 + nn t) + (2 + nn t)) by (rewrite NN; clear; lia).
    apply (outcome_calls _ _ _ _ _ _ _ _ (reserve_for_insert_ok c t h l _ n T Lv Rm1 Rm2)); [apply rfi_calls|]. intros _ s' n' (Rh & _). pose proof (rehashed_nn _ _ _ _ T Rh) as E. apply get_t_calls.
    eapply calls_le; [apply (calls_ro _ _ _ _ 1 (nn t)); [apply cb_hash|apply ro_hash|]|clear; lia]. intros hh n1. apply opt_then. intros itb _.
    apply calls_0then; [rewrite <- E; apply find_impl_cb|intro; apply nc_bind; [apply nc_on_b|intro; apply nc_bind; [apply nc_mod_t|intro; apply nc_ret]]].
  - unfold insert_handle_hint_unique. replace (4 + 2 * length l) with (1 + (1 + (nn t + (2 + nn t)))) by (rewrite NN; clear; lia).
    apply calls_ro; [apply hint_matches_cb|apply ro_hint|]. intros b n1. destruct b; [apply calls_ret|]. apply get_t_calls. cbn [fst]. apply calls_ro; [apply cb_hash|apply ro_hash|]. intros hh n2. apply opt_then. intros itb _.
    apply calls_ro; [apply find_impl_cb|apply ro_find_impl|]. intros [i|] n3; [apply calls_ret|]. apply calls_0then; [|intro; apply nc_ret]. eapply calls_le; [apply grow_insert_calls|exact G].
  - unfold insert_handle_unique. apply get_t_calls. cbn [fst]. replace (4 + 2 * length l) with (1 + (nn t + (3 + nn t))) by (rewrite NN; clear; lia).
    apply calls_ro; [apply cb_hash|apply ro_hash|]. intros hh n2. apply opt_then. intros itb _. apply calls_ro; [apply find_impl_cb|apply ro_find_impl|]. intros [i|] n3; [apply calls_ret|].
    eapply calls_le; [apply calls_0then; [apply rfi_calls|]|cbn [fst]; clear; lia]. intro. apply nc_bind; [apply nc_get_t|intro]. apply nc_bind; [apply nc_opt|intro]. apply nc_bind; [apply nc_on_b|intro]. apply nc_bind; [apply nc_mod_t|intro; apply nc_ret].
Qed.

(** *** insertion of a key that is present *)
Definition present (t : table) (l : list node) (k : K) : Prop := exists x, In x l /\ keqf cb (f_pid t) k (nkey x) = true.
Lemma present_lookup t l k : present t l k -> exists x, FcaTab.lookup c (f_pid t) k l = Some x.
Proof.
  intros (x & I & E). unfold FcaTab.lookup. destruct (List.find _ l) as [y|] eqn:F; [eauto|]. pose proof (find_none _ _ F x I) as X. cbn beta in X. congruence.
Qed.
Definition KeyOnly (k : kind) : Prop := k = KHash \/ k = KEq.
Lemma tick_bind {X A} k (f : unit -> M X A) s n : bind (tick cb k) f s n = if throws cb k n then Exn k s (S n) else f tt s (S n).
Proof. unfold bind, tick. destruct (throws cb k n); reflexivity. Qed.
(** a computation that hashes the key, looks it up and goes on with f if it is there *)
Lemma present_then {A} (t : table) l k (g : N -> biter -> M St A) (f : N -> biter -> nat -> M St A) s n d (P : kind -> Prop) : CInv c t l -> present t l k -> P KHash -> P KEq ->
  (forall h b i s n, calls (f h b i s n) n d /\ throws_only (f h b i s n) P) ->
  let m := h <- hash_for cb (f_hid t) k ;; itb <- of_option (at_hash (f_b t) h) ;; r <- find_node_impl c t k itb ;; match r with Some i => f h itb i | None => g h itb end in
  calls (m s n) n (1 + (nn t + d)) /\ throws_only (m s n) P.
Proof.
  intros H Pr P1 P2 Hf m. subst m. destruct (present_lookup _ _ _ Pr) as (x & Lx). destruct (at_hash_ok c t l k H) as (itb & Ah).
  assert (forall n', calls ((r <- find_node_impl c t k itb ;; match r with Some i => f (hash_of cb (f_hid t) k) itb i | None => g (hash_of cb (f_hid t) k) itb end) s n') n' (nn t + d) /\
    throws_only ((r <- find_node_impl c t k itb ;; match r with Some i => f (hash_of cb (f_hid t) k) itb i | None => g (hash_of cb (f_hid t) k) itb end) s n') P) as X.
  { intros n'. pose proof (find_node_impl_ok c t l k itb s n' H Ah) as O. pose proof (find_impl_cb c t k itb s n') as C. pose proof (tk_find_impl P t k itb P2 s n') as T. unfold bind.
    destruct (find_node_impl c t k itb s n') as [r s' n2|kd s' n2|]; cbn [outcome] in O; [|split; [cbn in *; clear - C; lia|exact T]|contradiction]. destruct O as [-> ->]. rewrite Lx. cbn [option_map].
    destruct (Hf (hash_of cb (f_hid t) k) itb (nd_id x) s n2) as [C2 T2]. split; [|exact T2]. destruct (f _ _ _ s n2); cbn in *; clear - C C2; lia || exact I. }
  unfold hash_for. rewrite bind_bind. rewrite tick_bind. destruct (throws cb KHash n); [split; [cbn; clear; lia|exact P1]|]. rewrite bind_ret, Ah. cbn [of_option]. rewrite bind_ret.
  destruct (X (S n)) as [X1 X2]. split; [|exact X2]. clear - X1. destruct (bind _ _ s (S n)); cbn in *; lia || exact I.
Qed.
Definition insert1 (o : op1 K V) : option K := match o with Insert true e => Some (fst e) | Index _ k => Some k | InsertOrAssign k _ => Some k | _ => None end.
Lemma tk_assign (P : kind -> Prop) it v : P KConstruct -> Tk P (assign_value c it v).
Proof. intros H. unfold assign_value. apply tk_bind; [apply tk_nc, nc_get_t|intro]. apply tk_bind; [apply tk_nc, nc_opt|intro]. apply tk_bind; [apply tk_tick, H|intro; apply tk_nc, nc_on_b]. Qed.
Lemma bind_both {A B} (m : M St A) (f : A -> M St B) s n d P : (calls (m s n) n d /\ throws_only (m s n) P) -> (forall a, Nc (f a)) -> calls (bind m f s n) n d /\ throws_only (bind m f s n) P.
Proof. intros [X Y] Hf. split; [apply calls_0then; assumption|]. unfold bind. destruct (m s n) as [a s' n'|k s' n'|]; cbn in *; auto. specialize (Hf a s' n'). destruct (f a s' n'); cbn in *; auto; contradiction. Qed.
Lemma emplace_present (t : table) l kd e h n : CInv c t l -> present t l (fst e) -> calls (emplace_unique_key c kd e (t, h) n) n (1 + nn t) /\ throws_only (emplace_unique_key c kd e (t, h) n) KeyOnly.
Proof.
  intros H P. unfold emplace_unique_key, get_t. rewrite bind_bind, bind_get, bind_ret. cbn [fst].
  replace (1 + nn t) with (1 + (nn t + 0)) by lia. apply (present_then t l (fst e) (fun h0 itb => x <- new_node c kd e ;; it <- on_exn (grow_insert c x h0 itb) (delete_node x) ;; ret (it, true)) (fun _ itb i => ret (EI (Some i) itb, false))).
  - exact H.
  - exact P.
  - left; reflexivity.
  - right; reflexivity.
  - intros. split; [apply calls_ret|exact I].
Qed.
Lemma insert1_present (t : table) l o k h n : insert1 o = Some k -> multi c = false -> TInv c t l -> present t l k ->
  calls (exec1 c o (t, h) n) n (1 + length l + match o with InsertOrAssign _ _ => 1 | _ => 0 end) /\
  throws_only (exec1 c o (t, h) n) (fun k => k = KHash \/ k = KEq \/ match o with InsertOrAssign _ _ => k = KConstruct | _ => False end).
Proof.
  intros E M T P. pose proof (ti_c _ _ _ T) as H. rewrite <- (nn_size _ _ T). destruct o; try discriminate; cbn [exec1 insert1] in *.
  - destruct kf; [|discriminate]. injection E as <-. rewrite M. unfold emplace_unique. rewrite Nat.add_0_r. apply bind_both; [|intro; apply nc_bind; [apply nc_deref|intro; apply nc_ret]].
    destruct (emplace_present t l KConstruct e h n H P) as [X Y]. split; [exact X|]. destruct (emplace_unique_key _ _ _ _ _); cbn in *; auto. destruct Y; auto.
  - injection E as <-. apply bind_both; [|intro; apply nc_bind; [apply nc_deref|intro; apply nc_ret]]. unfold insert_or_assign_unique, get_t. rewrite bind_bind, bind_get, bind_ret. cbn [fst].
    replace (1 + nn t + 1) with (1 + (nn t + 1)) by lia.
    apply (present_then t l k0 (fun h0 itb => x <- new_node c KConstruct (k0, v) ;; it <- on_exn (grow_insert c x h0 itb) (delete_node x) ;; ret (it, true)) (fun _ itb i => assign_value c (EI (Some i) itb) v ;;; ret (EI (Some i) itb, false))).
    + exact H.
    + exact P.
    + auto.
    + auto.
    + intros. apply bind_both; [|intro; apply nc_ret]. split; [apply assign_value_cb|apply tk_assign; auto].
  - injection E as <-. unfold emplace_unique. rewrite Nat.add_0_r. apply bind_both; [|intro; apply nc_bind; [apply nc_deref|intro; apply nc_ret]].
    destruct (emplace_present t l KConstruct (k0, dv) h n H P) as [X Y]. split; [exact X|]. destruct (emplace_unique_key _ _ _ _ _); cbn in *; auto. destruct Y; auto.
Qed.
(** *** everything else *)
Definition bound1 (o : op1 K V) (t : table) (l : list node) : option nat :=
  let z := length l in let g := if N.ltb (f_size t) (f_ml t) then 0 else 2 + z in
  match o with
  | Find _ | At _ | Count _ | Contains _ => Some (1 + z)
  | EqualRange _ | EraseKey _ => Some (1 + z + if multi c then z else 0)
  | EraseIf _ => Some (1 + z)
  | Rehash _ | Reserve _ => Some (2 + z)
  | Insert _ _ | InsertOrAssign _ _ | Index _ _ => Some (3 + z + g)
  | InsertHint _ _ _ => Some (4 + z + g)
  | InsertRange _ _ | AssignList _ => None
  | _ => Some 0
  end.
Lemma some_eq {A} (a b : A) : Some a = Some b -> a = b. Proof. congruence. Qed.
Lemma bound1_calls (t : table) l o h n d : TInv c t l -> (f_size t + 1 < 2 ^ 53)%N -> bound1 o t l = Some d -> calls (exec1 c o (t, h) n) n d.
Proof.
  intros T Rm E. pose proof (nn_size _ _ T) as NN. pose proof (nsz_size _ _ T) as NZ.
  assert (G : gcost t = if N.ltb (f_size t) (f_ml t) then 0 else 2 + length l).
  { unfold gcost, full. assert (U : uadd (f_size t) 1 = (f_size t + 1)%N) by (unfold uadd; apply N.mod_small; clear - Rm; assert (2 ^ 53 < 2 ^ 64)%N by reflexivity; lia). rewrite U, NN.
    clear. destruct (N.ltb_spec (f_ml t) (f_size t + 1)), (N.ltb_spec (f_size t) (f_ml t)); reflexivity || lia. }
  assert (IC : icost t = 3 + length l + (if N.ltb (f_size t) (f_ml t) then 0 else 2 + length l)) by (unfold icost; rewrite NN, G; reflexivity).
  unfold bound1 in E. cbv zeta in E. destruct o; try discriminate E; apply some_eq in E; subst d; cbn [exec1].
  - destruct (multi c).
    + eapply calls_le; [apply (new_node_then c KConstruct e _ (t, h) n (1 + (nn t + gcost t)))|rewrite NN, G; clear; destruct (N.ltb _ _); lia]. intros x s' n' X. cbn [fst] in X. apply calls_0then; [|intro; apply nc_bind; [apply nc_deref|intro; apply nc_ret]]. rewrite <- X. apply emplace_equiv_calls.
    + apply calls_0then; [|intro; apply nc_bind; [apply nc_deref|intro; apply nc_ret]]. rewrite <- IC. unfold emplace_unique. destruct kf; [apply emplace_key_calls|apply emplace_nokey_calls].
  - unfold it_at at 1. unfold get_t. rewrite !bind_bind, bind_get, bind_ret. cbn [fst]. apply opt_then. intros hint _. destruct (multi c).
    + eapply calls_le; [apply (new_node_then c KConstruct e _ (t, h) n (1 + (1 + nn t + gcost t)))|rewrite NN, G; clear; destruct (N.ltb _ _); lia]. intros x s' n' X. cbn [fst] in X. apply calls_0then; [|intro; apply nc_bind; [apply nc_deref|intro; apply nc_ret]]. rewrite <- X. apply hint_equiv_calls.
    + apply calls_0then; [|intro; apply nc_bind; [apply nc_deref|intro; apply nc_ret]]. eapply calls_le; [apply hint_unique_calls|cbn [fst]; rewrite IC; clear; destruct (N.ltb _ _); lia].
  - apply calls_0then; [|intro; apply nc_bind; [apply nc_deref|intro; apply nc_ret]]. rewrite <- IC. apply assign_calls.
  - apply calls_0then; [|intro; apply nc_bind; [apply nc_deref|intro; apply nc_ret]]. rewrite <- IC. apply emplace_key_calls.
  - apply get_t_calls. cbn [fst]. rewrite <- NN. apply calls_0then; [apply find_cb|]. intro. apply nc_bind; [apply nc_deref_opt|intro; apply nc_ret].
  - apply get_t_calls. cbn [fst]. rewrite <- NN. apply calls_0then; [apply find_cb|]. intro. apply nc_bind; [apply nc_deref_opt|intro; apply nc_ret].
  - apply get_t_calls. cbn [fst]. rewrite <- NN. apply calls_0then; [apply group_count_cb|]. intro. apply nc_ret.
  - apply get_t_calls. cbn [fst]. rewrite <- NN. apply calls_0then; [apply find_cb|]. intro. apply nc_ret.
  - apply get_t_calls. cbn [fst]. apply calls_0then; [|intro; apply nc_ret]. eapply calls_le; [apply equal_range_cb|]. rewrite NN, NZ. destruct (multi c); clear; lia.
  - apply calls_0then; [|intro; apply nc_ret]. destruct (multi c); [eapply calls_le; [apply erase_equiv_calls|]|eapply calls_le; [apply erase_unique_calls|]]; cbn [fst]; rewrite NN; clear; lia.
  - apply nc_cb. apply (nc_exec1 c (EraseNth m)). reflexivity.
  - apply nc_cb. apply (nc_exec1 c (EraseRange m m2)). reflexivity.
  - apply calls_0then; [|intro; apply nc_ret]. rewrite <- NZ. apply erase_if_calls.
  - apply nc_cb. apply (nc_exec1 c Clear). reflexivity.
  - apply calls_0then; [|intro; apply nc_ret]. rewrite <- NN. apply rehash_calls.
  - apply calls_0then; [|intro; apply nc_ret]. rewrite <- NN. apply reserve_calls.
  - apply nc_cb. apply (nc_exec1 c (MaxLoadFactor z)). reflexivity.
  - apply nc_cb. apply (nc_exec1 c Iterate). reflexivity.
  - apply nc_cb. apply (nc_exec1 c Size). reflexivity.
Qed.
End C.
