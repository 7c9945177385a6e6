(** How many nodes the insertion functions of the closed-addressing containers make: the arguments are passed to a constructor when a node is made, once for each
    (implementation.hpp l.614-700 construct_node_from_args, node_constructor). [next] counts the nodes whose allocation has succeeded. *)
From Coq Require Import NArith ZArith Bool List Arith Lia.
From Verif Require Import FloatModel HashArithModel FoaModel FoaBase FcaLinks FcaModel FcaIter FcaTab FcaSpec FcaWorld CallSpec FoaCalls FoaCalls2 FcaCalls FcaCalls2.
From Verif Require FoaMemKeep FcaGrowKeep.
Import ListNotations.
Local Open Scope m_scope.
Notation keeps := FoaMemKeep.keeps.
Ltac kp := auto 40 with kp.

Section Arg.
Context {K V : Type} (c : FCfg K V).
Notation node := (node K V). Notation barray := (barray K V). Notation table := (FcaModel.table K V). Notation cb := (base c).
Notation St := (table * heap)%type. Notation RSt := (St * barray)%type.
Definition nn (s : St) : nat := next (snd s).
Definition rn (s : RSt) : nat := nn (fst s).

Lemma k_tick {S X} (h : S -> X) k : keeps h (tick cb k). Proof. apply FcaGrowKeep.keeps_tick. Qed.
Lemma k_hash {S X} (h : S -> X) i k : keeps h (hash_for cb i k). Proof. apply FcaGrowKeep.keeps_hash. Qed.
Lemma k_fni {S X} (h : S -> X) t k b : keeps h (find_node_impl c t k b). Proof. apply FcaGrowKeep.keeps_fni. Qed.
Lemma k_get_t {X} (h : St -> X) : keeps h (@get_t K V). Proof. apply FcaGrowKeep.keeps_get_t. Qed.
Hint Resolve k_tick k_hash k_fni k_get_t : kp.
Lemma k_mod_t f : keeps nn (mod_t (K:=K) (V:=V) f). Proof. unfold mod_t. apply FoaMemKeep.keeps_modify. reflexivity. Qed.
Hint Resolve k_mod_t : kp.
Lemma k_on_b f : keeps nn (on_b (K:=K) (V:=V) f).
Proof. intros s n. unfold on_b, get_t, bind, get, ret, of_option, undef. destruct (f (f_b (fst s))); [reflexivity|exact I]. Qed.
Lemma k_dn (x : node) : keeps nn (delete_node x).
Proof. unfold delete_node. apply FoaMemKeep.keeps_bind; [kp|intro s]. destruct (_ && _); [|kp]. unfold mod_h. apply FoaMemKeep.keeps_modify. reflexivity. Qed.
Hint Resolve k_on_b k_dn : kp.
Lemma k_on_st {A} (m : M St A) : keeps nn m -> keeps rn (on_st m).
Proof. intros H. unfold on_st. apply FoaMemKeep.keeps_lens with (hT := nn); [exact H|]. intros s t E. exact E. Qed.
Lemma k_set (nb : barray) : keeps rn (modify (fun s : RSt => (fst s, nb))). Proof. apply FoaMemKeep.keeps_modify. reflexivity. Qed.
Hint Resolve k_on_st k_set : kp.
Lemma k_tc p l : keeps rn (transfer_chain c p l). Proof. induction l as [|x l IH]; cbn [transfer_chain]; kp. Qed.
Hint Resolve k_tc : kp.
Lemma k_ta ps : keeps rn (transfer_all c ps). Proof. induction ps as [|p ps IH]; cbn [transfer_all]; kp. Qed.
Lemma k_dl (l : list node) : keeps nn (delete_list l). Proof. induction l as [|x l IH]; cbn [delete_list]; kp. Qed.
Hint Resolve k_ta k_dl : kp.
Lemma k_dt fuel : forall it, keeps rn (delete_transferred (K:=K) (V:=V) fuel it). Proof. induction fuel as [|f IH]; intros it; cbn [delete_transferred]; kp. Qed.
Hint Resolve k_dt : kp.
Lemma k_nb al m : keeps (fun s : St => s) (new_barray c al m).
Proof. intros s n. pose proof (FcaGrowKeep.new_same c al m s n). destruct (new_barray c al m s n); auto. Qed.
Lemma k_ri m : keeps nn (rehash_impl c m).
Proof.
  unfold rehash_impl. apply FoaMemKeep.keeps_bind; [kp|intro t]. apply FoaMemKeep.keeps_bind; [apply FoaMemKeep.keeps_id, k_nb|intro nb]. intros s n.
  match goal with |- match (match ?m _ _ with _ => _ end) with _ => _ end => assert (keeps rn m) as Kb end.
  { apply FoaMemKeep.keeps_bind; [apply FoaMemKeep.keeps_on_exn; [apply k_ta|]; kp|intro]. apply FoaMemKeep.keeps_bind; [kp|intro s0]. apply FoaMemKeep.keeps_bind; [kp|intro]. apply FoaMemKeep.keeps_modify. reflexivity. }
  specialize (Kb (s, nb) n). match goal with |- match (match ?r with _ => _ end) with _ => _ end => destruct r end; auto.
Qed.
Hint Resolve k_ri : kp.
Lemma k_rehash m : keeps nn (rehash c m). Proof. unfold rehash. kp. Qed.
Hint Resolve k_rehash : kp.
Lemma k_reserve m : keeps nn (reserve c m). Proof. unfold reserve. kp. Qed.
Hint Resolve k_reserve : kp.
Lemma k_g1 h itb : keeps nn (grow_for_one c h itb). Proof. unfold grow_for_one. kp. Qed.
Hint Resolve k_g1 : kp.
Lemma k_gi x h itb : keeps nn (grow_insert c x h itb). Proof. unfold grow_insert. kp. Qed.
Lemma k_hm {X} (h : St -> X) hint k : keeps h (hint_matches c hint k). Proof. unfold hint_matches. kp. Qed.
Hint Resolve k_gi k_hm : kp.
Lemma k_av it v : keeps nn (assign_value c it v). Proof. unfold assign_value. kp. Qed.
Lemma k_ee (x : node) : keeps nn (emplace_equiv c x). Proof. unfold emplace_equiv. kp. Qed.
Lemma k_ehe hint (x : node) : keeps nn (emplace_hint_equiv c hint x).
Proof.
  unfold emplace_hint_equiv. apply FoaMemKeep.keeps_on_exn; [|kp]. apply FoaMemKeep.keeps_bind; [kp|intro t]. cbv zeta. apply FoaMemKeep.keeps_bind; [kp|intro u]. apply FoaMemKeep.keeps_bind.
  - destruct (negb u); [kp|]. destruct (N.ltb _ _); kp.
  - intros [[h itb] p]. kp.
Qed.
Lemma k_deref it : keeps (fun s : St => s) (deref (K:=K) (V:=V) it). Proof. unfold deref. kp. Qed.
Lemma k_it_at m : keeps (fun s : St => s) (it_at (K:=K) (V:=V) m). Proof. unfold it_at. kp. Qed.

(** new_node: makes one node, or fails to allocate it *)
Lemma new_node_made kd e (s : St) n : match new_node c kd e s n with Ret _ s' _ => nn s' = S (nn s) | Exn kd' s' _ => (s' = s /\ kd' = KAlloc) \/ (nn s' = S (nn s) /\ kd' = kd) | Undef => True end.
Proof.
  unfold new_node, get_t, bind, get, ret, tick. destruct (throws cb KAlloc n); [auto|]. unfold mod_h, modify, on_exn, tick. cbn. destruct (throws cb kd (S n)); cbn; auto.
Qed.
(** *** exceptions of the growth: only if the container is full *)
Definition Grows (s : St) (kd : kind) : Prop := (kd = KHash \/ kd = KAlloc) /\ (f_ml (fst s) < uadd (f_size (fst s)) 1)%N.
Lemma gi_throws x h itb (s : St) n : throws_only (grow_insert c x h itb s n) (Grows s).
Proof.
  assert (throws_only (grow_insert c x h itb s n) (fun kd => kd = KHash \/ kd = KAlloc)) as T by (apply tk_grow_insert; auto). revert T.
  unfold grow_insert, bind at 1 4, grow_for_one, get_t. rewrite !bind_bind, !bind_get, !bind_ret. destruct (N.ltb_spec (f_ml (fst s)) (uadd (f_size (fst s)) 1)) as [L|L].
  - match goal with |- throws_only ?r _ -> _ => destruct r end; cbn; auto. intros X. split; auto.
  - intros _. cbn [ret]. match goal with |- throws_only (?m ?s ?n) ?P => assert (Tk P m) as Y; [|apply Y] end. apply tk_nc. apply nc_bind; [apply nc_on_b|intro]. apply nc_bind; [apply nc_mod_t|intro; apply nc_ret].
Qed.
(** the end of an insertion whose key is at hand *)
Lemma make_made kd e h itb (s : St) n :
  match (x <- new_node c kd e ;; it <- on_exn (grow_insert c x h itb) (delete_node x) ;; ret (it, true)) s n with
  | Ret r s' _ => snd r = true /\ nn s' = S (nn s)
  | Exn kd' s' _ => (s' = s /\ kd' = KAlloc) \/ (nn s' = S (nn s) /\ (kd' = kd \/ Grows s kd'))
  | Undef => True
  end.
Proof.
  unfold bind at 1. pose proof (new_node_made kd e s n) as H. assert (match new_node c kd e s n with Ret _ s' _ => fst s' = fst s | _ => True end) as Ht.
  { unfold new_node, get_t, bind, get, ret, tick. destruct (throws cb KAlloc n); [exact I|]. unfold mod_h, modify, on_exn, tick. cbn. destruct (throws cb kd (S n)); cbn; auto. }
  destruct (new_node c kd e s n) as [x s1 n1|kd1 s1 n1|]; [|tauto|exact I]. unfold bind at 1.
  assert (keeps nn (on_exn (grow_insert c x h itb) (delete_node x))) as Kp by (apply FoaMemKeep.keeps_on_exn; kp).
  specialize (Kp s1 n1). assert (throws_only (on_exn (grow_insert c x h itb) (delete_node x) s1 n1) (Grows s1)) as T.
  { unfold on_exn. pose proof (gi_throws x h itb s1 n1) as T. destruct (grow_insert c x h itb s1 n1) as [|k2 s2 n2|]; cbn [throws_only] in *; [exact I| |exact I]. pose proof (nc_delete_node x s2 n2) as D. destruct (delete_node x s2 n2); cbn [no_calls throws_only] in *; [exact T|contradiction|exact I]. }
  destruct (on_exn (grow_insert c x h itb) (delete_node x) s1 n1) as [it s2 n2|k2 s2 n2|]; [| |exact I]; [cbn; split; [reflexivity|congruence]|].
  right. split; [congruence|]. right. cbn in T. unfold Grows in *. rewrite <- Ht. exact T.
Qed.
(** lookup, with the key at hand *)
Lemma looked {A} (t : table) h k (f g : N -> biter -> nat -> M St A) n (P : R St A -> Prop) l : CInv c t l ->
  (forall kd n', (kd = KHash \/ kd = KEq) -> P (Exn kd (t, h) n')) -> P Undef ->
  (forall itb i n', P (f (hash_of cb (f_hid t) k) itb i (t, h) n')) -> (~ present c t l k -> forall itb n', P (g (hash_of cb (f_hid t) k) itb 0 (t, h) n')) ->
  P ((h <- hash_for cb (f_hid t) k ;; itb <- of_option (at_hash (f_b t) h) ;; r <- find_node_impl c t k itb ;; match r with Some i => f h itb i | None => g h itb 0 end) (t, h) n).
Proof.
  intros H He Hu Hf Hg. unfold hash_for. rewrite bind_bind. unfold bind at 1, tick. destruct (throws cb KHash n); [apply He; auto|]. rewrite bind_ret.
  destruct (at_hash_ok c t l k H) as (itb & E). rewrite E. cbn [of_option]. rewrite bind_ret. unfold bind at 1. pose proof (find_node_impl_ok c t l k itb (t, h) (S n) H E) as F.
  destruct (find_node_impl c t k itb (t, h) (S n)) as [r s1 n1|k1 s1 n1|]; cbn [outcome] in F; [|destruct F as (-> & Hk & _); apply He; tauto|exact Hu].
  destruct F as [-> ->]. destruct (FcaTab.lookup c (f_pid t) k l) as [y|] eqn:L; cbn [option_map]; [apply Hf|]. apply Hg. intros Pr. destruct (present_lookup c t l k Pr) as (y & X). congruence.
Qed.
Definition KeyUse (kd : kind) (s : St) (pr : Prop) {A} (r : R St A) : Prop :=
  match r with
  | Ret _ s' _ => (s' = s) \/ (~ pr /\ nn s' = S (nn s))
  | Exn kd' s' _ => (s' = s /\ (kd' = KHash \/ kd' = KEq \/ kd' = KAlloc)) \/ (~ pr /\ nn s' = S (nn s) /\ (kd' = kd \/ Grows s kd'))
  | Undef => True
  end.
Lemma euk_use kd e t h n l : CInv c t l ->
  match emplace_unique_key c kd e (t, h) n with Ret r s' _ => (if snd r then nn s' = S (nn (t, h)) else s' = (t, h)) | _ => True end /\ KeyUse kd (t, h) (present c t l (fst e)) (emplace_unique_key c kd e (t, h) n).
Proof.
  intros H. unfold emplace_unique_key, get_t. rewrite bind_bind, bind_get, bind_ret. cbn [fst].
  apply (looked t h (fst e) (fun h0 itb i => ret (EI (Some i) itb, false)) (fun h0 itb _ => x <- new_node c kd e ;; it <- on_exn (grow_insert c x h0 itb) (delete_node x) ;; ret (it, true)) n
    (fun r => match r with Ret r s' _ => (if snd r then nn s' = S (nn (t, h)) else s' = (t, h)) | _ => True end /\ KeyUse kd (t, h) (present c t l (fst e)) r) l H).
  - intros kd' n' Hk. split; [exact I|]. left. split; [reflexivity|tauto].
  - split; exact I.
  - intros itb i n'. split; [reflexivity|left; reflexivity].
  - intros Np itb n'. pose proof (make_made kd e (hash_of cb (f_hid t) (fst e)) itb (t, h) n') as X.
    match goal with X : match ?r with _ => _ end |- _ => destruct r as [[it b] s' n2|k s' n2|] end; cbn [KeyUse snd] in *; [destruct X as [-> X]; tauto| |tauto]. split; [exact I|]. destruct X as [[-> ->]|X]; tauto.
Qed.
Lemma ehu_use hint e t h n l : CInv c t l -> KeyUse KConstruct (t, h) (present c t l (fst e)) (emplace_hint_unique c true hint e (t, h) n).
Proof.
  intros H. cbn [emplace_hint_unique]. unfold bind at 1. pose proof (k_hm (fun s => s) hint (fst e) (t, h) n) as X. pose proof (tk_hint c (fun kd => kd = KEq) hint (fst e) eq_refl (t, h) n) as T.
  destruct (hint_matches c hint (fst e) (t, h) n) as [b s1 n1|k1 s1 n1|]; [subst s1|cbn in T; left; split; [exact X|tauto]|exact I]. destruct b; [left; reflexivity|].
  unfold bind. destruct (euk_use KConstruct e t h n1 l H) as [_ U]. destruct (emplace_unique_key c KConstruct e (t, h) n1); exact U.
Qed.
Lemma ioa_use k v t h n l : CInv c t l ->
  match insert_or_assign_unique c k v (t, h) n with
  | Ret r s' _ => if snd r then ~ present c t l k /\ nn s' = S (nn (t, h)) else nn s' = nn (t, h)
  | Exn kd s' _ => (nn s' = nn (t, h) /\ (s' = (t, h) /\ (kd = KHash \/ kd = KEq \/ kd = KAlloc) \/ kd = KConstruct)) \/ (~ present c t l k /\ nn s' = S (nn (t, h)) /\ (kd = KConstruct \/ Grows (t, h) kd))
  | Undef => True end.
Proof.
  intros H. unfold insert_or_assign_unique, get_t. rewrite bind_bind, bind_get, bind_ret. cbn [fst].
  apply (looked t h k (fun h0 itb i => assign_value c (EI (Some i) itb) v ;;; ret (EI (Some i) itb, false)) (fun h0 itb _ => x <- new_node c KConstruct (k, v) ;; it <- on_exn (grow_insert c x h0 itb) (delete_node x) ;; ret (it, true)) n
    (fun r => match r with
  | Ret r s' _ => if snd r then ~ present c t l k /\ nn s' = S (nn (t, h)) else nn s' = nn (t, h)
  | Exn kd s' _ => (nn s' = nn (t, h) /\ (s' = (t, h) /\ (kd = KHash \/ kd = KEq \/ kd = KAlloc) \/ kd = KConstruct)) \/ (~ present c t l k /\ nn s' = S (nn (t, h)) /\ (kd = KConstruct \/ Grows (t, h) kd))
  | Undef => True end) l H).
  - intros kd' n' Hk. left. split; [reflexivity|left; tauto].
  - exact I.
  - intros itb i n'. unfold bind at 1. pose proof (k_av (EI (Some i) itb) v (t, h) n') as X.
    assert (Tk (fun kd => kd = KConstruct) (assign_value c (EI (Some i) itb) v)) as T.
    { unfold assign_value. apply tk_bind; [apply tk_nc, nc_get_t|intro]. apply tk_bind; [apply tk_nc, nc_opt|intro]. apply tk_bind; [apply tk_tick; reflexivity|intro; apply tk_nc, nc_on_b]. }
    specialize (T (t, h) n'). destruct (assign_value c (EI (Some i) itb) v (t, h) n'); cbn [throws_only snd ret] in *; [exact X|left; split; [exact X|right; exact T]|exact I].
  - intros Np itb n'. pose proof (make_made KConstruct (k, v) (hash_of cb (f_hid t) k) itb (t, h) n') as X.
    match goal with X : match ?r with _ => _ end |- _ => destruct r as [[it b] s' n2|k' s' n2|] end; cbn [snd] in *; [destruct X as [-> X]; tauto| |tauto]. destruct X as [[-> ->]|X]; [left; split; [reflexivity|tauto]|tauto].
Qed.
(** a node is always made first *)
Definition AlwaysUse (s : St) {A} (r : R St A) : Prop :=
  match r with Ret _ s' _ => nn s' = S (nn s) | Exn kd' s' _ => (s' = s /\ kd' = KAlloc) \/ nn s' = S (nn s) | Undef => True end.
Lemma first_made {A} kd e (f : node -> M St A) s n : (forall x, keeps nn (f x)) -> AlwaysUse s ((x <- new_node c kd e ;; f x) s n).
Proof.
  intros Hf. unfold bind. pose proof (new_node_made kd e s n) as H. destruct (new_node c kd e s n) as [x s1 n1|k s1 n1|]; [|cbn; tauto|exact I].
  specialize (Hf x s1 n1). destruct (f x s1 n1); cbn; [congruence|right; congruence|exact I].
Qed.
Lemma eun_use kd e s n : AlwaysUse s (emplace_unique_nokey c kd e s n).
Proof. unfold emplace_unique_nokey. apply first_made. intros x. apply FoaMemKeep.keeps_on_exn; kp. Qed.
Lemma ehun_use hint e s n : AlwaysUse s (emplace_hint_unique c false hint e s n).
Proof. cbn [emplace_hint_unique]. apply first_made. intros x. apply FoaMemKeep.keeps_on_exn; kp. Qed.
End Arg.
