(** Erasure in the closed-addressing containers. *)
From Coq Require Import NArith ZArith Bool List Arith Lia Permutation.
From Verif Require Import FloatModel HashArithModel HashArithProofs FoaModel FoaGroup FoaBase FcaLinks FcaLinksProofs FcaModel FcaInv FcaIter FcaTab FcaRehash FcaOps FcaIns FcaIns2 FcaHandle.
Import ListNotations.
Local Open Scope m_scope.
Local Open Scope nat_scope.

Section Erase.
Context {K V : Type} (c : FCfg K V).
Notation node := (node K V).
Notation barray := (barray K V).
Notation table := (FcaModel.table K V).
Notation cb := (base c).
Notation St := (table * heap)%type.
Notation CInv := (CInv c). Notation TInv := (TInv c). Notation raised := (raised c). Notation keq := (keq c). Notation lookup := (lookup c).
Notation SI := (SI c). Notation OpExn := (OpExn c).
Notation WExn := (WExn c).
Implicit Types (b nb : barray) (t : table) (x y : node) (s : St) (e : K * V).

Lemma TInv_wf t l x : TInv t l -> In x l -> Wf (f_b t) l.
Proof. intros T I. apply BOk_cons; [apply (ci_b _ _ _ (ti_c _ _ _ T))|intros ->; destruct I]. Qed.
Lemma TInv_wfc t l x p : TInv t l -> In x (chainat (f_b t) p) -> Wf (f_b t) l.
Proof. intros T I. apply (TInv_wf t l x T). apply (in_CInv c t l x p (ti_c _ _ _ T) I). Qed.
Lemma dec_inv t l1 x l2 b' : TInv t (l1 ++ x :: l2) -> Wf b' (l1 ++ l2) -> b_idx b' = b_idx (f_b t) -> b_size b' = b_size (f_b t) -> b_own b' = b_own (f_b t) ->
  (forall q, KeysOk c (f_pid t) (chainat b' q)) -> (forall q y, In y (chainat b' q) -> In y (chainat (f_b t) q)) -> TInv (dec_size (set_b b' t)) (l1 ++ l2).
Proof.
  intros [H Sz Rm] W E1 E2 E3 Kk Sub. assert (length (l1 ++ x :: l2) = S (length (l1 ++ l2))) as LL by (rewrite !app_length; cbn [length]; lia). rewrite LL in *. constructor.
  - destruct H as [C1 C2 C3 C4 C5 C6 C7 C8 C9]. constructor; cbn [dec_size set_size set_b f_b f_al f_pid f_hid f_ml f_mlf]; auto.
    + right. exact W.
    + congruence.
    + apply Forall_app in C3 as [A B]. inversion B. subst. apply Forall_app. auto.
    + rewrite map_app in *. cbn [map] in C4. apply NoDup_remove_1 in C4. exact C4.
    + intros q y I. rewrite E1. apply C6. apply Sub. exact I.
    + rewrite E2. exact C7.
  - cbn [dec_size set_size set_b f_size]. rewrite Sz. apply usub_1. pose proof max_elems_lt. lia.
  - lia.
Qed.
(** one node leaves *)
Lemma take_tab t l p x : TInv t l -> In x (chainat (f_b t) p) ->
  exists b' l1 l2, extract_node (f_b t) (BI p (Some (p / 64))) (nd_id x) = Some b' /\ l = l1 ++ x :: l2 /\ TInv (dec_size (set_b b' t)) (l1 ++ l2) /\ bucket_count b' = bucket_count (f_b t) /\
    (forall y it, y <> x -> NIt (f_b t) y it -> NIt b' y it) /\ (forall q, q <> p -> chainat b' q = chainat (f_b t) q) /\ exists c1 c2, chainat (f_b t) p = c1 ++ x :: c2 /\ chainat b' p = c1 ++ c2.
Proof.
  intros T I. pose proof (TInv_wfc t l x p T I) as W. pose proof T as [H Sz Rm]. destruct (extract_node_ok (f_b t) l p x W (ci_ids _ _ _ H) I) as (b' & l1 & l2 & E & -> & W' & X1 & X2 & X3 & X4 & c1 & c2 & Ec & Ec').
  exists b', l1, l2. split; [exact E|]. split; [reflexivity|].
  assert (forall q y, In y (chainat b' q) -> In y (chainat (f_b t) q)) as Sub.
  { intros q y J. destruct (Nat.eq_dec q p) as [->|Nq]; [|rewrite <- X4 by exact Nq; exact J]. rewrite Ec. rewrite Ec' in J. apply in_app_or in J as [J|J]; apply in_or_app; [left|right; right]; exact J. }
  split; [|split; [unfold bucket_count; congruence|split; [|split; [exact X4|eauto]]]].
  - apply (dec_inv t l1 x l2 b' T W' X1 X2 X3); [|exact Sub]. intros q. destruct (Nat.eq_dec q p) as [->|Nq]; [|rewrite X4 by exact Nq; apply (ci_keys _ _ _ H)]. rewrite Ec'. apply (keysok_remove c _ c1 x c2 (Eqv_of c t _ H)). rewrite <- Ec. apply (ci_keys _ _ _ H).
  - intros y it Ny. apply NIt_frame. intros q J. destruct (Nat.eq_dec q p) as [->|Nq]; [|rewrite X4 by exact Nq; exact J]. rewrite Ec in J. rewrite Ec'. apply in_elt_inv in J as [J|J]; [congruence|exact J].
Qed.
Lemma nodup_ids_mid t l1 x l2 y : TInv t (l1 ++ x :: l2) -> In y (l1 ++ l2) -> y <> x.
Proof. intros T I ->. pose proof (NoDup_map_inv _ _ (ci_ids _ _ _ (ti_c _ _ _ T))) as ND. apply NoDup_remove_2 in ND. contradiction. Qed.
Lemma pos_shift t b' l1 x l2 m it : TInv t (l1 ++ x :: l2) -> (forall y it, y <> x -> NIt (f_b t) y it -> NIt b' y it) -> length l1 <= m -> Pos (f_b t) (l1 ++ x :: l2) (S m) it -> Pos b' (l1 ++ l2) m it.
Proof.
  intros T F Lm. unfold Pos. rewrite !nth_error_app2 by lia. replace (S m - length l1) with (S (m - length l1)) by lia. cbn [nth_error]. destruct (nth_error l2 (m - length l1)) as [y|] eqn:E.
  - apply F. apply (nodup_ids_mid t l1 x l2 y T). apply in_or_app. right. apply nth_error_In in E. exact E.
  - intros [A B]. split; [|exact B]. rewrite app_length in *. cbn [length] in A. lia.
Qed.
Lemma on_b_eq {A} (f : barray -> option barray) b' (g : unit -> M St A) t h n : f (f_b t) = Some b' -> bind (on_b f) g (t, h) n = g tt (set_b b' t, h) n.
Proof. intros E. unfold on_b, get_t. rewrite !bind_bind, bind_get, bind_ret. cbn [fst]. rewrite bind_bind, E. cbn [of_option]. rewrite bind_ret. unfold mod_t. rewrite bind_modify. reflexivity. Qed.
Lemma mod_t_eq {A} (f : table -> table) (g : unit -> M St A) t h n : bind (mod_t f) g (t, h) n = g tt (f t, h) n. Proof. unfold mod_t. rewrite bind_modify. reflexivity. Qed.
Lemma get_t_eq {A} (g : table -> M St A) t h n : bind get_t g (t, h) n = g t (t, h) n. Proof. unfold get_t. rewrite bind_bind, bind_get, bind_ret. reflexivity. Qed.
Lemma delete_eq {A} x (g : unit -> M St A) t h n : nd_al x = f_al t -> 0 < live h -> bind (delete_node x) g (t, h) n = g tt (t, Hp (Nat.pred (live h)) (next h)) n.
Proof. intros A1 B. unfold bind. rewrite delete_node_ok by assumption. reflexivity. Qed.

Lemma al_in t l x : TInv t l -> In x l -> nd_al x = f_al t.
Proof. intros T I. pose proof (ci_al _ _ _ (ti_c _ _ _ T)) as F. rewrite Forall_forall in F. auto. Qed.
Lemma SI_take r t h l1 x l2 b' : SI r (t, h) (l1 ++ x :: l2) -> TInv (dec_size (set_b b' t)) (l1 ++ l2) -> SI (S r) (dec_size (set_b b' t), h) (l1 ++ l2).
Proof.
  intros [I1 I2 I3] T. cbn [fst snd] in *. constructor; cbn [fst snd]; [exact T|rewrite I2, !app_length; cbn [length]; lia|]. apply Forall_app in I3 as [A B]. inversion B. subst. apply Forall_app. auto.
Qed.
Lemma SI_del r t h l1 x l2 b' : SI r (t, h) (l1 ++ x :: l2) -> TInv (dec_size (set_b b' t)) (l1 ++ l2) -> SI r (dec_size (set_b b' t), Hp (Nat.pred (live h)) (next h)) (l1 ++ l2).
Proof. intros I T. destruct (SI_take r t h l1 x l2 b' I T) as [I1 I2 I3]. constructor; cbn [fst snd live next] in *; [exact I1|lia|exact I3]. Qed.
Lemma live_pos r t h l x : SI r (t, h) l -> In x l -> 0 < live h.
Proof. intros [_ I2 _] I. cbn [snd] in I2. destruct l; [destruct I|cbn [length] in I2; lia]. Qed.
Lemma Fr_dec t h b' h' : bucket_count b' = bucket_count (f_b t) -> next h <= next h' -> Fr (t, h) (dec_size (set_b b' t), h').
Proof. intros B L. split; [repeat split|]. split; [left; cbn; auto|exact L]. Qed.

(** *** one element by iterator *)
Definition SameB (s s' : St) : Prop := bucket_count (f_b (fst s')) = bucket_count (f_b (fst s)) /\ f_ml (fst s') = f_ml (fst s) /\ next (snd s') = next (snd s) /\ SameT (fst s) (fst s').
Lemma SameB_refl s : SameB s s. Proof. repeat split. Qed.
Lemma SameB_trans s1 s2 s3 : SameB s1 s2 -> SameB s2 s3 -> SameB s1 s3.
Proof. intros (A & B & C & A1 & A2 & A3 & A4) (A' & B' & C' & A1' & A2' & A3' & A4'). repeat split; congruence. Qed.
Lemma SameB_Fr s s' : SameB s s' -> Fr s s'.
Proof. intros (A & B & C & D). split; [exact D|]. split; [left; auto|lia]. Qed.
(** the iterators to the nodes of [l] stay valid *)
Definition Valid (s s' : St) (l : list node) : Prop := forall y it, In y l -> NIt (f_b (fst s)) y it -> NIt (f_b (fst s')) y it.
Lemma Valid_refl s l : Valid s s l. Proof. intros y it _ N. exact N. Qed.
Definition TakeExt x (p : nat) b b' : Prop := (forall y it, y <> x -> NIt b y it -> NIt b' y it) /\ (forall q, q <> p -> chainat b' q = chainat b q) /\ exists c1 c2, chainat b p = c1 ++ x :: c2 /\ chainat b' p = c1 ++ c2.
Lemma take_state {A} r t h l p x (f : unit -> M St A) n Q E : SI r (t, h) l -> In x (chainat (f_b t) p) ->
  (forall b' l1 l2, l = l1 ++ x :: l2 -> SI r (dec_size (set_b b' t), Hp (Nat.pred (live h)) (next h)) (l1 ++ l2) -> SameB (t, h) (dec_size (set_b b' t), Hp (Nat.pred (live h)) (next h)) -> TakeExt x p (f_b t) b' ->
     outcome (f tt (dec_size (set_b b' t), Hp (Nat.pred (live h)) (next h)) n) Q E) ->
  outcome (bind (on_b (fun b => extract_node b (BI p (Some (p / 64))) (nd_id x))) (fun _ => bind (delete_node x) (fun _ => bind (mod_t dec_size) f)) (t, h) n) Q E.
Proof.
  intros I J H. pose proof (si_t _ _ _ _ I) as T. cbn [fst] in T. destruct (take_tab t l p x T J) as (b' & l1 & l2 & Eb & El & T' & BC & X1 & X2 & X3). rewrite (on_b_eq _ b') by exact Eb.
  pose proof (in_CInv c t l x p (ti_c _ _ _ T) J) as Ix. rewrite delete_eq by (try apply (live_pos r t h l x I Ix); cbn [set_b f_al]; apply (al_in t l x T Ix)). rewrite mod_t_eq. subst l.
  apply (H b' l1 l2); [reflexivity|apply (SI_del r t h l1 x l2 b' I T')|repeat split; exact BC|split; [exact X1|split; assumption]].
Qed.
Lemma split_nodup {A} (x : A) m1 m2 l1 l2 : NoDup (l1 ++ x :: l2) -> l1 ++ x :: l2 = m1 ++ x :: m2 -> m1 = l1 /\ m2 = l2.
Proof.
  revert m1. induction l1 as [|a l1 IH]; intros [|b m1] ND E; cbn [app] in *.
  - injection E. auto.
  - injection E as -> E. subst l2. inversion ND. exfalso. apply H1. apply in_elt.
  - injection E as -> E. inversion ND. exfalso. apply H1. apply in_elt.
  - injection E as -> E. inversion ND. destruct (IH m1 H2 E) as [-> ->]. auto.
Qed.
Definition RemovedAt (r : nat) (s : St) (l1 : list node) (x : node) (l2 : list node) (s' : St) : Prop := SI r s' (l1 ++ l2) /\ SameB s s' /\ Valid s s' (l1 ++ l2).
Lemma erase_node_ok r s l1 x l2 it n E : SI r s (l1 ++ x :: l2) -> NIt (f_b (fst s)) x it ->
  outcome (erase_node it s n) (fun it' s' => RemovedAt r s l1 x l2 s' /\ Pos (f_b (fst s')) (l1 ++ l2) (length l1) it') E.
Proof.
  intros I Ni. destruct s as [t h]. pose proof (si_t _ _ _ _ I) as T. cbn [fst] in *. pose proof (TInv_wf t _ x T (in_elt _ _ _)) as W. pose proof (ci_ids _ _ _ (ti_c _ _ _ T)) as ND.
  assert (Pos (f_b t) (l1 ++ x :: l2) (length l1) it) as P0 by (apply (pos_nth _ _ l1 x l2); [reflexivity|exact Ni]).
  destruct (e_next_ok (f_b t) _ (length l1) it W ND) as (nx & En & Pn); [rewrite app_length; cbn [length]; lia|exact P0|].
  unfold erase_node. rewrite get_t_eq, En. cbn [of_option]. rewrite bind_ret, (e_node_ok _ _ x it W ND Ni). cbn [of_option]. rewrite bind_ret. pose proof Ni as (p & J & ->). cbn [e_b].
  apply (take_state r t h (l1 ++ x :: l2) p x); [exact I|exact J|]. intros b' m1 m2 El I' SB (X1 & X2 & X3). cbn [outcome ret].
  assert (m1 = l1 /\ m2 = l2) as [-> ->].
  { apply (split_nodup x m1 m2 l1 l2); [apply (NoDup_map_inv _ _ ND)|exact El]. }
  split; [split; [exact I'|split; [exact SB|]]|].
  - intros y jt Jy. cbn [fst dec_size set_size set_b f_b]. apply X1. apply (nodup_ids_mid t l1 x l2 y T Jy).
  - cbn [fst dec_size set_size set_b f_b]. apply (pos_shift t b' l1 x l2 (length l1) nx T X1 (le_n _) Pn).
Qed.
(** extraction: the node leaves the table but lives on *)
Lemma extract_at_ok r s l1 x l2 it n E : SI r s (l1 ++ x :: l2) -> NIt (f_b (fst s)) x it ->
  outcome (extract_at it s n) (fun x' s' => x' = x /\ SI (S r) s' (l1 ++ l2) /\ SameB s s' /\ snd s' = snd s /\ Valid s s' (l1 ++ l2)) E.
Proof.
  intros I Ni. destruct s as [t h]. pose proof (si_t _ _ _ _ I) as T. cbn [fst] in *. pose proof (TInv_wf t _ x T (in_elt _ _ _)) as W. pose proof (ci_ids _ _ _ (ti_c _ _ _ T)) as ND.
  unfold extract_at. rewrite get_t_eq, (e_node_ok _ _ x it W ND Ni). cbn [of_option]. rewrite bind_ret. pose proof Ni as (p & J & ->). cbn [e_b].
  destruct (take_tab t _ p x T J) as (b' & m1 & m2 & Eb & El & T' & BC & X1 & X2 & X3). rewrite (on_b_eq _ b') by exact Eb. rewrite mod_t_eq. cbn [outcome ret].
  assert (m1 = l1 /\ m2 = l2) as [-> ->] by (apply (split_nodup x m1 m2 l1 l2); [apply (NoDup_map_inv _ _ ND)|exact El]).
  split; [reflexivity|]. split; [apply (SI_take r t h l1 x l2 b' I T')|]. split; [repeat split; exact BC|]. split; [reflexivity|]. intros y jt Jy. cbn [fst dec_size set_size set_b f_b]. apply X1. apply (nodup_ids_mid t l1 x l2 y T Jy).
Qed.
Lemma extract_key_ok r s l k n : SI r s l ->
  outcome (extract_key c k s n) (fun o s' => match lookup (f_pid (fst s)) k l with
      | None => o = None /\ s' = s
      | Some x => o = Some x /\ exists l1 l2, l = l1 ++ x :: l2 /\ SI (S r) s' (l1 ++ l2) /\ SameB s s' /\ snd s' = snd s /\ Valid s s' (l1 ++ l2) end) (RO c s).
Proof.
  intros I. unfold extract_key. destruct s as [t h]. pose proof (si_t _ _ _ _ I) as T. cbn [fst] in *. rewrite get_t_eq.
  eapply outcome_bind; [apply (find_ok c t l k (t, h) n T)|]. cbn beta. intros it s' n1 [-> Ho]. unfold opt_it in Ho. destruct (lookup (f_pid t) k l) as [x|] eqn:L.
  - pose proof Ho as (p & J & Ei). assert (e_eqb it e_end = false) as -> by (rewrite Ei; reflexivity). apply lookup_some in L as [Ix _]. apply in_split in Ix as (l1 & l2 & ->).
    eapply outcome_bind; [apply (extract_at_ok r (t, h) l1 x l2 it n1 _ I Ho)|]. cbn beta. intros x' s' n2 (-> & Q). cbn [outcome ret]. split; [reflexivity|]. exists l1, l2. auto.
  - assert (e_eqb it e_end = true) as -> by (unfold e_eqb; rewrite Ho; reflexivity). cbn [outcome ret]. auto.
Qed.

(** *** by key *)
Lemma find_prev_ok r s l k itb n : SI r s l -> at_hash (f_b (fst s)) (hash_of cb (f_hid (fst s)) k) = Some itb ->
  outcome (find_prev c (fst s) k itb s n) (fun o s' => s' = s /\ o = option_map nd_id (lookup (f_pid (fst s)) k l)) (RO c s).
Proof.
  intros I A. destruct s as [t h]. pose proof (si_t _ _ _ _ I) as T. cbn [fst] in *. unfold find_prev. rewrite (ti_size _ _ _ T). destruct (N.ltb_spec 0 (N.of_nat (length l))) as [L|L].
  - pose proof (find_node_impl_ok c t l k itb (t, h) n (ti_c _ _ _ T) A) as F. unfold find_node_impl in F. assert (Wf (f_b t) l) as W by (apply BOk_cons; [apply (ci_b _ _ _ (ti_c _ _ _ T))|intros ->; cbn in L; lia]).
    destruct (at_hash_wf _ _ _ W (hash_lt c (f_hid t) k)) as (p & Lp & Pp & A'). assert (BI p (Some (p / 64)) = itb) as <- by congruence.
    assert (bi_eqb (BI p (Some (p / 64))) (b_end (f_b t)) = false) as X by (unfold bi_eqb, b_end; cbn [bi_p]; apply Nat.eqb_neq; lia). rewrite X in F. exact F.
  - destruct l; [|cbn [length] in L; lia]. cbn. auto.
Qed.
Lemma erase_key_unique_ok r s l k n : SI r s l ->
  outcome (erase_key_unique c k s n) (fun m s' => match lookup (f_pid (fst s)) k l with
      | None => m = 0%N /\ s' = s
      | Some x => m = 1%N /\ exists l1 l2, l = l1 ++ x :: l2 /\ RemovedAt r s l1 x l2 s' end) (RO c s).
Proof.
  intros I. destruct s as [t h]. pose proof (si_t _ _ _ _ I) as T. pose proof (ti_c _ _ _ T) as H. cbn [fst] in *. unfold erase_key_unique. rewrite get_t_eq.
  apply outcome_hash; [intros R; split; auto|]. intros n1. destruct (at_hash_ok c t l k H) as (itb & A). rewrite A. cbn [of_option]. rewrite bind_ret.
  eapply outcome_bind; [apply (find_prev_ok r (t, h) l k itb n1 I A)|]. cbn beta. intros o s' n2 [-> ->]. cbn [fst]. destruct (lookup (f_pid t) k l) as [x|] eqn:L; cbn [option_map]; [|cbn; auto].
  destruct (lookup_it c t l k x H L) as (itb' & A' & Ni). assert (itb' = itb) as -> by congruence. apply lookup_some in L as [Ix _]. pose proof (TInv_wf t l x T Ix) as W.
  unfold lookup_at. rewrite bind_bind, get_t_eq. pose proof (e_node_ok _ _ x _ W (ci_ids _ _ _ H) Ni) as En. unfold e_node in En. cbn [e_p e_b bindo] in En. rewrite En. cbn [of_option]. rewrite bind_ret. pose proof Ni as (p & J & Ei). assert (itb = BI p (Some (p / 64))) as -> by congruence.
  apply (take_state r t h l p x); [exact I|exact J|]. intros b' l1 l2 -> I' SB (X1 & X2 & X3). cbn [outcome ret]. split; [reflexivity|]. exists l1, l2. split; [reflexivity|]. split; [exact I'|]. split; [exact SB|].
  intros y jt Jy. cbn [fst dec_size set_size set_b f_b]. apply X1. apply (nodup_ids_mid t l1 x l2 y T Jy).
Qed.

(** a node leaves through its link; nothing else moves *)
Definition kept (xs : list node) (y : node) : bool := negb (existsb (fun x => nd_id x =? nd_id y) xs).
Lemma kept_cons x xs y : kept (x :: xs) y = kept [x] y && kept xs y.
Proof. unfold kept. cbn [existsb]. rewrite orb_false_r, negb_orb. reflexivity. Qed.
Lemma kept_none (l : list node) : filter (kept []) l = l. Proof. apply filter_all. reflexivity. Qed.
Lemma filter_comp {A} (f g : A -> bool) l : filter g (filter f l) = filter (fun a : A => f a && g a) l.
Proof. induction l as [|a l IH]; [reflexivity|]. cbn [filter]. destruct (f a); cbn [andb filter]; [destruct (g a)|]; rewrite IH; reflexivity. Qed.
Lemma kept_filter_cons x xs (l : list node) : filter (kept xs) (filter (kept [x]) l) = filter (kept (x :: xs)) l.
Proof. rewrite filter_comp. apply filter_ext. intros y. symmetry. apply kept_cons. Qed.
Lemma kept_one (l1 : list node) x l2 : NoDup (map nd_id (l1 ++ x :: l2)) -> filter (kept [x]) (l1 ++ x :: l2) = l1 ++ l2.
Proof.
  intros ND. rewrite filter_app. cbn [filter]. unfold kept at 2. cbn [existsb]. rewrite Nat.eqb_refl. cbn [orb negb]. rewrite map_app in ND. cbn [map] in ND. apply NoDup_remove_2 in ND.
  assert (forall y, In y (l1 ++ l2) -> kept [x] y = true) as Hk.
  { intros y I. unfold kept. cbn [existsb]. rewrite orb_false_r. apply negb_true_iff. apply Nat.eqb_neq. intros E. apply ND. rewrite <- map_app, E. apply in_map. exact I. }
  rewrite !filter_all; [reflexivity| |]; intros y I; apply Hk; apply in_or_app; auto.
Qed.
Lemma extract_set b l p pre x r0 : Wf b l -> NoDup (map nd_id l) -> chainat b p = pre ++ x :: r0 ->
  exists b1, set_chain b (BI p (Some (p / 64))) (pre ++ r0) = Some b1 /\ chain b1 (BI p (Some (p / 64))) = Some (pre ++ r0) /\ b_groups b1 = b_groups b /\
    extract_node b (BI p (Some (p / 64))) (nd_id x) = (if is_nil (pre ++ r0) then b_unlink b1 (BI p (Some (p / 64))) else Some b1).
Proof.
  intros (o & W & ->) ND Ec. assert (In x (chainat b p)) as I by (rewrite Ec; apply in_elt). pose proof (chain_lt _ _ _ _ _ W I) as L.
  exists (setc b p (pre ++ r0)). rewrite (set_chain_at b _ o) by (try exact W; lia). split; [reflexivity|].
  assert (WB (setc b p (pre ++ r0)) (ne b) o) as W' by (apply WB_setc; [exact W|exact L|intros _; apply (ne_in _ _ _ I)]).
  split; [rewrite (chain_at _ (ne b) o) by (try exact W'; cbn; lia); rewrite (chainat_setc b (ne b) o) by (try exact W; lia); rewrite Nat.eqb_refl; reflexivity|]. split; [reflexivity|].
  unfold extract_node. rewrite (chain_at b _ o) by (try exact W; lia). cbn [bindo]. destruct (remove_id_split (nd_id x) _ (chain_nodup b _ o p W ND) pre x r0 Ec eq_refl) as (ER & _). rewrite ER. cbn [bindo].
  rewrite (set_chain_at b _ o) by (try exact W; lia). reflexivity.
Qed.
Definition RunOk (r : nat) (s : St) (l : list node) (k : K) (ch : list node) (run rest : list node) (s' : St) : Prop :=
  ch = run ++ rest /\ Forall (fun y => keqf cb (f_pid (fst s)) (nkey y) k = true) run /\ SI r s' (filter (kept run) l) /\ SameB s s' /\ Valid s s' (filter (kept run) l).
Lemma RunOk_nil r s l k ch : SI r s l -> RunOk r s l k ch [] ch s.
Proof. intros I. split; [reflexivity|]. split; [constructor|]. rewrite kept_none. split; [exact I|]. split; [apply SameB_refl|apply Valid_refl]. Qed.
Lemma erase_run_ok r p k : forall ch pre s l m n, SI r s l -> chainat (f_b (fst s)) p = pre ++ ch -> pre ++ ch <> [] ->
  outcome ((q <- erase_run c (f_pid (fst s)) k (BI p (Some (p / 64))) pre ch ;; t <- get_t ;; l <- of_option (chain (f_b t) (BI p (Some (p / 64)))) ;;
     (if is_nil l then on_b (fun b => b_unlink b (BI p (Some (p / 64)))) else ret tt) ;;; ret (q + m)%N) s n)
    (fun q s' => exists run rest, RunOk r s l k ch run rest s' /\ q = (N.of_nat (length run) + m)%N /\ match rest with [] => True | y :: _ => keqf cb (f_pid (fst s)) (nkey y) k = false end)
    (fun kd s' => kd = KEq /\ raised kd /\ exists run rest, RunOk r s l k ch run rest s').
Proof.
  induction ch as [|x ch IH]; intros pre s l m n I Ec Nn; destruct s as [t h]; pose proof (si_t _ _ _ _ I) as T; cbn [fst] in *; cbn [erase_run].
  - rewrite bind_ret, get_t_eq. rewrite app_nil_r in *. assert (exists y, In y (chainat (f_b t) p)) as (y & Jy) by (rewrite Ec; destruct pre; [contradiction|eexists; left; reflexivity]).
    pose proof (TInv_wfc t l y p T Jy) as (o & W & _). pose proof (chain_lt _ _ _ _ _ W Jy) as Lp. rewrite (chain_at _ _ o) by (try exact W; lia). cbn [of_option]. rewrite bind_ret, Ec. destruct pre; [contradiction|]. cbn [is_nil]. rewrite bind_ret. cbn [outcome ret].
    exists [], []. split; [apply (RunOk_nil r (t, h) l k [] I)|]. split; [reflexivity|exact Logic.I].
  - rewrite bind_bind. apply outcome_tick; [intros R; split; [reflexivity|]; split; [exact R|]; exists [], (x :: ch); apply RunOk_nil; exact I|]. intros n1. destruct (keqf cb (f_pid t) (nkey x) k) eqn:Ek.
    + assert (In x (chainat (f_b t) p)) as Jx by (rewrite Ec; apply in_elt). pose proof (TInv_wfc t l x p T Jx) as W. pose proof (ci_ids _ _ _ (ti_c _ _ _ T)) as ND. pose proof (in_CInv c t l x p (ti_c _ _ _ T) Jx) as Ix.
      destruct (extract_set (f_b t) l p pre x ch W ND Ec) as (b1 & Es & Ch1 & Gr & Ex). destruct (take_tab t l p x T Jx) as (b' & l1 & l2 & Eb & El & T' & BC & X1 & X2 & c1 & c2 & Ec1 & Ec2). rewrite Ex in Eb.
      assert (filter (kept [x]) l = l1 ++ l2) as FL by (subst l; apply kept_one; exact ND).
      assert (Forall (fun y => keqf cb (f_pid t) (nkey y) k = true) [x]) as F1 by (constructor; [exact Ek|constructor]).
      assert (forall s', s' = (dec_size (set_b b' t), Hp (Nat.pred (live h)) (next h)) -> RunOk r (t, h) l k (x :: ch) [x] ch s') as R1.
      { intros s' ->. split; [reflexivity|]. split; [exact F1|]. rewrite FL. split; [subst l; apply (SI_del r t h l1 x l2 b' I T')|]. split; [repeat split; exact BC|]. intros y jt Jy. cbn [fst dec_size set_size set_b f_b]. apply X1. subst l. apply (nodup_ids_mid t l1 x l2 y T Jy). }
      rewrite bind_bind, (on_b_eq _ b1) by exact Es. rewrite bind_bind, delete_eq by (try apply (live_pos r t h l x I Ix); cbn [set_b f_al]; apply (al_in t l x T Ix)). rewrite bind_bind, mod_t_eq, bind_bind.
      destruct (is_nil (pre ++ ch)) eqn:En.
      * assert (pre = [] /\ ch = []) as [-> ->] by (destruct pre; [destruct ch; [auto|discriminate]|discriminate]). cbn [erase_run]. rewrite !bind_ret, get_t_eq. cbn [dec_size set_size set_b f_b]. rewrite Ch1. cbn [of_option]. rewrite bind_ret. cbn [app is_nil].
        rewrite (on_b_eq _ b') by exact Eb. cbn [outcome ret]. exists [x], []. split; [apply R1; reflexivity|]. split; [cbn [length]; lia|exact Logic.I].
      * assert (b1 = b') as -> by congruence.
        assert (c1 = pre /\ c2 = ch) as [-> ->]. { pose proof W as (o & Wo & Eo). apply (split_nodup x c1 c2 pre ch); [|congruence]. rewrite <- Ec. apply (NoDup_map_inv nd_id). apply (chain_nodup _ (ne (f_b t)) o p Wo). rewrite <- Eo. exact ND. }
        set (s1 := (dec_size (set_b b' t), Hp (Nat.pred (live h)) (next h))). destruct (R1 s1 eq_refl) as (_ & _ & I1 & SB1 & V1).
        pose proof (IH pre s1 _ (m + 1)%N n1 I1 Ec2 ltac:(intros X; rewrite X in En; discriminate)) as Hr. cbn [fst] in Hr.
        assert (forall run rest s', RunOk r s1 (filter (kept [x]) l) k ch run rest s' -> RunOk r (t, h) l k (x :: ch) (x :: run) rest s') as RC.
        { intros run rest s' (E1 & F & I' & SB & Vl). split; [rewrite E1; reflexivity|]. split; [constructor; [exact Ek|exact F]|]. rewrite kept_filter_cons in *. split; [exact I'|]. split; [apply (SameB_trans _ s1); assumption|].
          intros y jt Jy Ny. apply Vl; [exact Jy|]. apply V1; [|exact Ny]. rewrite <- kept_filter_cons in Jy. apply filter_In in Jy. apply Jy. }
        match goal with |- outcome (bind (erase_run c _ k _ pre ch) ?F s1 n1) _ _ => match type of Hr with outcome (bind _ ?G s1 n1) _ _ => assert (outcome (bind (erase_run c (f_pid t) k (BI p (Some (p / 64))) pre ch) F s1 n1) (fun q s' => exists run rest, RunOk r s1 (filter (kept [x]) l) k ch run rest s' /\ q = (N.of_nat (length run) + (m + 1))%N /\ match rest with [] => True | y :: _ => keqf cb (f_pid t) (nkey y) k = false end) (fun kd s' => kd = KEq /\ raised kd /\ exists run rest, RunOk r s1 (filter (kept [x]) l) k ch run rest s')) as Hr2 end end.
        { clear -Hr. unfold bind in *. change (f_pid (fst s1)) with (f_pid t) in Hr. destruct (erase_run c (f_pid t) k (BI p (Some (p / 64))) pre ch s1 n1) as [q s2 n2|kd s2 n2|]; try exact Hr. cbn [ret] in *.
          destruct (get_t s2 n2) as [t2 s3 n3|kd s3 n3|]; try exact Hr. destruct (of_option (chain (f_b t2) (BI p (Some (p / 64)))) s3 n3) as [l4 s4 n4|kd s4 n4|]; try exact Hr.
          destruct ((if is_nil l4 then on_b (fun b : barray => b_unlink b (BI p (Some (p / 64)))) else ret tt) s4 n4) as [u s5 n5|kd s5 n5|]; try exact Hr. cbn [outcome ret] in *. destruct Hr as (run & rest & A & B & C). exists run, rest. split; [exact A|]. split; [lia|exact C]. }
        eapply outcome_weaken; [exact Hr2| |].
        -- intros q s' (run & rest & R & Eq & Hd). exists (x :: run), rest. split; [apply RC; exact R|]. split; [cbn [length]; lia|exact Hd].
        -- intros kd s' (-> & Rk & run & rest & R). split; [reflexivity|]. split; [exact Rk|]. exists (x :: run), rest. apply RC. exact R.
    + rewrite bind_ret, get_t_eq. assert (In x (chainat (f_b t) p)) as Jx by (rewrite Ec; apply in_elt).
      pose proof (TInv_wfc t l x p T Jx) as (o & W & _). pose proof (chain_lt _ _ _ _ _ W Jx) as Lp. rewrite (chain_at _ _ o) by (try exact W; lia). cbn [of_option]. rewrite bind_ret, Ec. destruct (pre ++ x :: ch); [contradiction|]. cbn [is_nil]. rewrite bind_ret. cbn [outcome ret].
      exists [], (x :: ch). split; [apply (RunOk_nil r (t, h) l k _ I)|]. split; [reflexivity|exact Ek].
Qed.
Lemma NoDup_app_intro {A} (l1 l2 : list A) : NoDup l1 -> NoDup l2 -> (forall a, In a l1 -> In a l2 -> False) -> NoDup (l1 ++ l2).
Proof.
  intros N1 N2 D. induction l1 as [|a l1 IH]; [exact N2|]. inversion N1. cbn [app]. constructor; [|apply IH; [assumption|intros z A1 A2; apply (D z); [right; exact A1|exact A2]]].
  intros X. apply in_app_or in X as [X|X]; [contradiction|]. apply (D a); [left; reflexivity|exact X].
Qed.
(** all the elements with key k leave, in one run *)
Lemma erase_key_equiv_ok r s l k n : SI r s l -> multi c = true ->
  outcome (erase_key_equiv c k s n) (fun m s' => let keep y := negb (keqf cb (f_pid (fst s)) k (nkey y)) in
     SI r s' (filter keep l) /\ SameB s s' /\ Valid s s' (filter keep l) /\ (m + N.of_nat (length (filter keep l)) = N.of_nat (length l))%N)
    (fun kd s' => raised kd /\ (s' = s \/ exists run, SI r s' (filter (kept run) l) /\ SameB s s' /\ Forall (fun y => In y l /\ keqf cb (f_pid (fst s)) k (nkey y) = true) run)).
Proof.
  intros I Mu. destruct s as [t h]. pose proof (si_t _ _ _ _ I) as T. pose proof (ti_c _ _ _ T) as H. cbn [fst] in *. unfold erase_key_equiv. rewrite get_t_eq.
  apply outcome_hash; [intros R; split; auto|]. intros n1. destruct (at_hash_ok c t l k H) as (itb & A). rewrite A. cbn [of_option]. rewrite bind_ret.
  eapply outcome_bind; [eapply outcome_weaken; [apply (find_prev_ok r (t, h) l k itb n1 I A)|intros a s' X; exact X|intros kd s' (-> & _ & R); split; auto]|]. cbn beta. intros o s' n2 [-> ->]. cbn [fst].
  destruct (lookup (f_pid t) k l) as [x|] eqn:L; cbn [option_map].
  - destruct (lookup_it c t l k x H L) as (itb' & A' & Ni). assert (itb' = itb) as -> by congruence. pose proof L as L0. apply lookup_some in L0 as [Ix Ekx]. pose proof (TInv_wf t l x T Ix) as W.
    pose proof Ni as (p & J & Ei). assert (itb = BI p (Some (p / 64))) as -> by congruence. clear Ei A'. pose proof W as (o & Wo & Eo). pose proof (chain_lt _ _ _ _ _ Wo J) as Lp. pose proof (ci_ids _ _ _ H) as ND.
    assert (NoDup (map nd_id (chainat (f_b t) p))) as Nc by (apply (chain_nodup _ (ne (f_b t)) o p Wo); rewrite <- Eo; exact ND).
    rewrite (chain_at _ _ o) by (try exact Wo; lia). cbn [bindo]. assert (exists pre suf, chainat (f_b t) p = pre ++ x :: suf) as (pre & suf & Ec) by (apply in_split in J; exact J).
    destruct (remove_id_split (nd_id x) _ Nc pre x suf Ec eq_refl) as (_ & _ & _ & Es & _). rewrite Es. cbn [of_option]. rewrite bind_ret. cbn [fst snd].
    (* where the key is *)
    destruct (at_hash_wf _ _ _ W (hash_lt c (f_hid t) k)) as (p' & Lp' & Pp & A'). assert (p' = p) as -> by congruence.
    assert (forall y, In y pre -> keqf cb (f_pid t) k (nkey y) = false) as Hpre.
    { rewrite (lookup_chain c t l k p H W Lp Pp), Ec in L. unfold FcaTab.lookup in L. rewrite find_app in L. intros y Iy. destruct (keqf cb (f_pid t) k (nkey y)) eqn:Ey; [|reflexivity]. exfalso.
      destruct (List.find (fun x => keqf cb (f_pid t) k (nkey x)) pre) as [z|] eqn:Fz; [|rewrite (find_none _ _ Fz y Iy) in Ey; discriminate]. apply find_some in Fz as [Iz _]. injection L as ->.
      rewrite Ec, map_app in Nc. cbn [map] in Nc. apply NoDup_remove_2 in Nc. apply Nc. apply in_or_app. left. apply in_map. exact Iz. }
    assert (forall y, keqf cb (f_pid t) (nkey y) k = keqf cb (f_pid t) k (nkey y)) as Sy by (intros y; destruct (ci_agree _ _ _ H) as [(_ & Sy & _) _]; apply Sy).
    assert (forall ch run rest s', ch = x :: suf -> RunOk r (t, h) l k ch run rest s' -> (forall y, In y run -> In y l /\ keqf cb (f_pid t) k (nkey y) = true)) as RI.
    { intros ch run rest s' -> (Er & F & _) y Iy. split; [|rewrite <- Sy; rewrite Forall_forall in F; apply F; exact Iy]. apply (in_CInv c t l y p H). rewrite Ec, Er. apply in_or_app. right. apply in_or_app. left. exact Iy. }
    eapply outcome_weaken.
    + pose proof (erase_run_ok r p k (x :: suf) pre (t, h) l 0%N n2 I Ec ltac:(destruct pre; discriminate)) as Hr. cbn [fst] in Hr.
      match goal with |- outcome (bind ?m ?F ?s ?n) _ _ => assert (forall Q E, outcome (bind m (fun q => t <- get_t ;; l <- of_option (chain (f_b t) (BI p (Some (p / 64)))) ;; (if is_nil l then on_b (fun b => b_unlink b (BI p (Some (p / 64)))) else ret tt) ;;; ret (q + 0)%N) s n) Q E -> outcome (bind m F s n) Q E) as Conv end.
      { clear. intros Q E Hr. unfold bind in *. destruct (erase_run c (f_pid t) k (BI p (Some (p / 64))) pre (x :: suf) (t, h) n2) as [q s2 n3|kd s2 n3|]; try exact Hr.
        destruct (get_t s2 n3) as [t2 s3 n4|kd s3 n4|]; try exact Hr. destruct (of_option (chain (f_b t2) (BI p (Some (p / 64)))) s3 n4) as [l4 s4 n5|kd s4 n5|]; try exact Hr.
        destruct ((if is_nil l4 then on_b (fun b : barray => b_unlink b (BI p (Some (p / 64)))) else ret tt) s4 n5) as [u s5 n6|kd s5 n6|]; try exact Hr. cbn [outcome ret] in *. rewrite N.add_0_r in Hr. exact Hr. }
      apply Conv. exact Hr.
    + cbn beta. intros q s' (run & rest & R & -> & Hd). pose proof (RI _ _ _ _ eq_refl R) as HR. destruct R as (Er & Fr0 & I' & SB & Vl).
      assert (exists run', run = x :: run') as (run' & Erun).
      { destruct run as [|z run']; [|exists run'; cbn [app] in Er; congruence]. cbn [app] in Er. subst rest. cbn [fst] in Hd. rewrite Sy, Ekx in Hd. discriminate. }
      assert (forall y, In y l -> kept run y = negb (keqf cb (f_pid t) k (nkey y))) as KE.
      { intros y Iy. unfold kept. f_equal. destruct (keqf cb (f_pid t) k (nkey y)) eqn:Ey.
        - destruct (CInv_in c t l y H Iy) as (q & Jq). destruct (Nat.eq_dec q p) as [->|Nq]; [|rewrite (not_here c t l k p y q H Pp Jq Nq) in Ey; discriminate].
          apply existsb_exists. exists y. split; [|apply Nat.eqb_refl]. rewrite Ec in Jq. apply in_app_or in Jq as [Jq|Jq]; [rewrite (Hpre y Jq) in Ey; discriminate|]. rewrite Er in Jq. apply in_app_or in Jq as [Jq|Jq]; [exact Jq|exfalso].
          destruct rest as [|z rest]; [destruct Jq|]. cbn [fst] in Hd. destruct Jq as [->|Jq]; [rewrite Sy, Ey in Hd; discriminate|].
          pose proof (ci_keys _ _ _ H p) as G. unfold KeysOk in G. rewrite Mu, Ec, Er, Erun in G. apply in_split in Jq as (r1 & r2 & ->).
          assert (forall w, In w l -> keqf cb (f_pid t) k (nkey w) = true -> keq (f_pid t) x w = true) as TX.
          { intros w Iw Ew. apply (keq_trans c t l H x (Nd 0 0 (k, snd (nd_kv x))) w); unfold FcaTab.keq; cbn [nkey nd_kv fst]; [|exact Ew]. rewrite Sy. exact Ekx. }
          pose proof (G pre x (run' ++ z :: r1) y r2) as G1. rewrite Forall_forall in G1. assert (keq (f_pid t) x z = true) as Exz. { apply G1; [cbn [app]; rewrite <- !app_assoc; reflexivity|apply TX; assumption|apply in_elt]. }
          rewrite Sy in Hd. assert (keqf cb (f_pid t) k (nkey z) = true) as X; [|congruence].
          apply (keq_trans c t l H (Nd 0 0 (k, snd (nd_kv x))) x z); [unfold FcaTab.keq; cbn [nkey nd_kv fst]; exact Ekx|exact Exz].
        - destruct (existsb (fun x0 => nd_id x0 =? nd_id y) run) eqn:Ex; [|reflexivity]. apply existsb_exists in Ex as (z & Iz & Ez). apply Nat.eqb_eq in Ez. destruct (HR z Iz) as [Jz Kz].
          assert (z = y) as -> by (pose proof (lookup_id_total c t l z H Jz) as L1; pose proof (lookup_id_total c t l y H Iy) as L2; rewrite Ez, L2 in L1; congruence). congruence. }
      assert (filter (kept run) l = filter (fun y => negb (keqf cb (f_pid t) k (nkey y))) l) as FE by (apply filter_ext_in; exact KE).
      cbn [fst] in *. rewrite <- FE. split; [exact I'|]. split; [exact SB|]. split; [exact Vl|].
      assert (length run + length (filter (kept run) l) = length l) as LE; [|lia].
      assert (Permutation l (run ++ filter (kept run) l)) as PM; [|apply Permutation_length in PM; rewrite app_length in PM; lia].
      assert (NoDup run) as NR. { apply NoDup_map_inv in Nc. rewrite Ec, Er in Nc. clear -Nc. induction pre as [|a pre IHp]; cbn [app] in Nc; [|inversion Nc; auto]. induction run as [|a run IHr]; [constructor|]. cbn [app] in Nc. inversion Nc. constructor; [|auto]. intros X. apply H1. apply in_or_app. left. exact X. }
      apply NoDup_Permutation; [apply (NoDup_map_inv nd_id); exact ND| |].
      * apply NoDup_app_intro; [exact NR|apply NoDup_filter; apply (NoDup_map_inv nd_id); exact ND|]. intros z Iz Jz. apply filter_In in Jz as [_ Kz]. unfold kept in Kz. apply negb_true_iff in Kz. rewrite <- Bool.not_true_iff_false in Kz. apply Kz. apply existsb_exists. exists z. split; [exact Iz|apply Nat.eqb_refl].
      * intros z. split.
        -- intros Iz. apply in_or_app. destruct (kept run z) eqn:Kz; [right; apply filter_In; auto|left]. unfold kept in Kz. apply negb_false_iff in Kz. apply existsb_exists in Kz as (w & Iw & Ew). apply Nat.eqb_eq in Ew. destruct (HR w Iw) as [Jw _].
           assert (w = z) as <- by (pose proof (lookup_id_total c t l w H Jw) as L1; pose proof (lookup_id_total c t l z H Iz) as L2; rewrite Ew, L2 in L1; congruence). exact Iw.
        -- intros Iz. apply in_app_or in Iz as [Iz|Iz]; [apply (HR z Iz)|apply filter_In in Iz; apply Iz].
    + cbn beta. intros kd s' (-> & R & run & rest & Hrun). split; [exact R|]. right. exists run. pose proof (RI _ _ _ _ eq_refl Hrun) as HR. destruct Hrun as (Er & Fr0 & I' & SB & Vl). split; [exact I'|]. split; [exact SB|]. apply Forall_forall. exact HR.
  - cbn [outcome ret fst]. assert (filter (fun y => negb (keqf cb (f_pid t) k (nkey y))) l = l) as ->. { apply filter_all. intros y Iy. rewrite (proj1 (lookup_none c _ _ _) L y Iy). reflexivity. }
    split; [exact I|]. split; [apply SameB_refl|]. split; [apply Valid_refl|lia].
Qed.
End Erase.
