(** Move construction, move assignment and swap of the closed-addressing containers. *)
From Coq Require Import NArith ZArith Bool List Arith Lia Permutation.
From Verif Require Import FloatModel HashArithModel HashArithProofs FoaModel FoaGroup FoaBase FcaLinks FcaLinksProofs FcaModel FcaInv FcaIter FcaTab FcaRehash FcaOps FcaIns FcaIns2 FcaHandle FcaErase FcaErase2 FcaCopy.
Import ListNotations.
Local Open Scope m_scope.
Local Open Scope nat_scope.

Section Move.
Context {K V : Type} (c : FCfg K V).
Notation node := (node K V).
Notation barray := (barray K V).
Notation table := (FcaModel.table K V).
Notation cb := (base c).
Notation St := (table * heap)%type.
Notation St2 := ((table * table) * heap)%type.
Notation CInv := (CInv c). Notation TInv := (TInv c). Notation raised := (raised c). Notation keq := (keq c). Notation lookup := (lookup c).
Notation SI := (SI c). Notation OpExn := (OpExn c). Notation may_add := (may_add c). Notation CopyPost := (CopyPost c). Notation CopyExn := (CopyExn c).
Implicit Types (b nb : barray) (t x : table) (y z : node) (s : St) (e : K * V).

(** *** the buckets change hands *)
Lemma emptied_ok x lx : TInv x lx -> TInv (emptied x) [].
Proof.
  intros [[C1 C2 C3 C4 C5 C6 C7 C8 C9] Sz Rm]. unfold emptied. constructor; [|reflexivity|reflexivity]. constructor; cbn [f_b f_al f_pid f_hid f_ml f_mlf b_null b_own b_size b_idx]; auto; try constructor.
  - split; reflexivity.
  - intros q. unfold chainat. cbn [b_null b_chains]. destruct q; apply keysok_nil.
  - intros q y. unfold chainat. cbn [b_null b_chains]. destruct q; intros [].
Qed.
Lemma emptied_ml x : MLok (emptied x). Proof. reflexivity. Qed.
(** the same buckets in a table with an equal allocator *)
Lemma TInv_retag x lx t : TInv x lx -> f_al t = f_al x -> f_hid t = f_hid x -> f_pid t = f_pid x -> f_size t = f_size x -> f_mlf t = f_mlf x -> f_ml t = f_ml x -> f_b t = f_b x -> TInv t lx.
Proof. intros H E1 E2 E3 E4 E5 E6 E7. assert (t = x) as -> by (destruct t as [a1 a2 a3 a4 a5 a6 a7], x as [b1 b2 b3 b4 b5 b6 b7]; cbn in *; congruence). exact H. Qed.

Lemma bind_on1 {A B} (m : M St A) (f : A -> M St2 B) t x h n Q1 Q E : outcome (m (t, h) n) Q1 (fun k s' => E k ((fst s', x), snd s')) ->
  (forall a t' h' n', Q1 a (t', h') -> outcome (f a ((t', x), h') n') Q E) -> outcome (bind (on1 m) f ((t, x), h) n) Q E.
Proof. intros H1 H2. unfold bind, on1, lens. cbn [fst snd]. destruct (m (t, h) n) as [a [t' h'] n'|k s' n'|]; cbn [outcome fst snd] in *; auto. Qed.
Lemma bind_on2 {A B} (m : M St A) (f : A -> M St2 B) t x h n Q1 Q E : outcome (m (x, h) n) Q1 (fun k s' => E k ((t, fst s'), snd s')) ->
  (forall a x' h' n', Q1 a (x', h') -> outcome (f a ((t, x'), h') n') Q E) -> outcome (bind (on2 m) f ((t, x), h) n) Q E.
Proof. intros H1 H2. unfold bind, on2, lens. cbn [fst snd]. destruct (m (x, h) n) as [a [t' h'] n'|k s' n'|]; cbn [outcome fst snd] in *; auto. Qed.
Lemma get2_eq {A} (f : table * table -> M St2 A) p h n : bind get2 f (p, h) n = f p (p, h) n. Proof. reflexivity. Qed.

(** *** moving from the elements of a table that stays in place *)
Definition keeps : Prop := forall e, fst (leftover c e) = fst e.
Definition left_of (y : node) : node := Nd (nd_id y) (nd_al y) (leftover c (nd_kv y)).
Lemma left_key y : keeps -> nkey (left_of y) = nkey y. Proof. intros H. apply H. Qed.
Lemma left_value y : keeps -> left_of y = with_value y (snd (leftover c (nd_kv y))).
Proof. intros H. unfold left_of, with_value, nkey. rewrite <- (H (nd_kv y)), <- surjective_pairing. reflexivity. Qed.
Lemma leave_ok {A} x h l1 y l2 pos (f : unit -> M St A) n Q E : keeps -> TInv x (l1 ++ y :: l2) -> Pos (f_b x) (l1 ++ y :: l2) (length l1) pos ->
  (forall b', TInv (set_b b' x) (l1 ++ left_of y :: l2) -> Pos b' (l1 ++ left_of y :: l2) (length l1) pos -> bucket_count b' = bucket_count (f_b x) -> outcome (f tt (set_b b' x, h) n) Q E) ->
  outcome (bind (leave c (e_b pos) y) f (x, h) n) Q E.
Proof.
  intros Kp T PO H. assert (NIt (f_b x) y pos) as Ny by (apply (pos_node _ _ _ _ y PO); rewrite nth_error_app2, Nat.sub_diag by lia; reflexivity).
  destruct (set_value_ok c x _ y pos (snd (leftover c (nd_kv y))) T (in_elt _ _ _) Ny) as (b' & m1 & m2 & Eb & El & T' & N' & BC). rewrite <- left_value in * by exact Kp.
  assert (m1 = l1 /\ m2 = l2) as [-> ->] by (apply (split_nodup y m1 m2 l1 l2); [apply (NoDup_map_inv nd_id); apply (ci_ids _ _ _ (ti_c _ _ _ T))|exact El]).
  unfold leave. rewrite (on_b_eq _ b'); [|exact Eb]. apply H; [exact T'| |exact BC]. apply (pos_nth b' _ l1 (left_of y) l2); [reflexivity|exact N'].
Qed.

(** insertion at the head of a bucket whose elements are grouped *)
Lemma insert_head_ok t l z p itb : multi c = true -> TInv t l -> 0 < b_size (f_b t) -> at_hash (f_b t) (hash_of cb (f_hid t) (nkey z)) = Some itb -> nd_al z = f_al t -> ~ In (nd_id z) (map nd_id l) ->
  room l 1 -> fca_position (hash_of cb (f_hid t) (nkey z)) (b_idx (f_b t)) = Some (N.of_nat p) -> HeadOk c (f_pid t) z (chainat (f_b t) p) ->
  exists b' l', insert_node (f_b t) itb z = Some b' /\ TInv (inc_size (set_b b' t)) l' /\ Permutation l' (z :: l) /\ bucket_count b' = bucket_count (f_b t) /\ chainat b' p = z :: chainat (f_b t) p.
Proof.
  intros Mu [H Sz Rm] Ps A Al Ni Rm' Ep Hd. pose proof (BOk_pos _ _ (ci_b _ _ _ H) Ps) as W. pose proof (Eqv_of c t l H) as EV.
  destruct (at_hash_wf _ _ _ W (hash_lt c (f_hid t) (nkey z))) as (p' & Lp & Pp & A'). assert (p' = p) as -> by (rewrite Ep in Pp; assert (N.of_nat p = N.of_nat p') as X by congruence; lia). assert (BI p (Some (p / 64)) = itb) as <- by congruence. clear A'.
  destruct (insert_node_hint_ok (f_b t) l p z None W Lp) as (b' & l' & E & W' & IA & X1 & X2 & X3 & X4 & X5); [discriminate|].
  exists b', l'. split; [exact E|]. pose proof (Inserted_perm _ _ _ (InsAt_ins _ _ _ _ IA)) as PM.
  split; [|split; [exact PM|split; [unfold bucket_count; rewrite X2; reflexivity|exact X5]]].
  constructor.
  - destruct H as [C1 C2 C3 C4 C5 C6 C7 C8 C9]. constructor; cbn [inc_size set_size set_b f_b f_al f_pid f_hid f_ml f_mlf]; auto.
    + right. exact W'.
    + congruence.
    + rewrite PM. constructor; assumption.
    + apply (Permutation_NoDup (Permutation_map nd_id (Permutation_sym PM))). cbn [map]. constructor; assumption.
    + intros q. destruct (Nat.eq_dec q p) as [->|Nq]; [|rewrite X4 by exact Nq; apply C5]. rewrite X5. specialize (C5 p). unfold KeysOk in *. rewrite Mu in *. apply grouped_iff; [exact EV|]. auto.
    + intros q y I. rewrite X1. destruct (Nat.eq_dec q p) as [->|Nq]; [|rewrite X4 in I by exact Nq; apply C6; exact I]. rewrite X5 in I. destruct I as [<-|I]; [exact Ep|apply C6; exact I].
    + rewrite X2. exact C7.
  - cbn [inc_size set_size set_b f_size]. rewrite Sz. rewrite (Permutation_length PM). cbn [length]. apply uadd_1. unfold room in Rm'. pose proof max_elems_lt. lia.
  - rewrite (Permutation_length PM). unfold room in Rm'. cbn [length]. lia.
Qed.
Definition SameX x x' : Prop := SameT x x' /\ f_ml x' = f_ml x /\ bucket_count (f_b x') = bucket_count (f_b x).
Lemma SameX_refl x : SameX x x. Proof. repeat split. Qed.
Lemma SameX_trans x1 x2 x3 : SameX x1 x2 -> SameX x2 x3 -> SameX x1 x3.
Proof. intros ((A1 & A2 & A3 & A4) & A5 & A6) ((B1 & B2 & B3 & B4) & B5 & B6). repeat split; congruence. Qed.
(** A: the elements that arrived; A': those moved from; B: those not yet *)
Definition MoveSt (r base : nat) (t0 x0 : table) (h0 : heap) (A A' B : list node) (s : St2) : Prop :=
  exists l, SI (length (A' ++ B) + r) (fst (fst s), snd s) l /\ Permutation (map nd_kv l) (map nd_kv A) /\ Forall (fun y => base <= nd_id y) l /\
    TInv (snd (fst s)) (map left_of A' ++ B) /\ Forall (fun y => nd_id y < next (snd s)) (A' ++ B) /\ SameX x0 (snd (fst s)) /\ Fr (t0, h0) (fst (fst s), snd s).
Definition MoveExn (r base : nat) (t0 x0 : table) (h0 : heap) (all : list node) (kd : kind) (s : St2) : Prop :=
  raised kd /\ exists A A' B, all = A' ++ B /\ (A' = A \/ exists y, A' = A ++ [y]) /\ MoveSt r base t0 x0 h0 A A' B s.
Definition LastHead (t : table) (A : list node) : Prop := A = [] \/ exists A0 a z q r0, A = A0 ++ [a] /\ nd_kv z = nd_kv a /\ chainat (f_b t) q = z :: r0.
Lemma kv_in (l A : list node) z : Permutation (map nd_kv l) (map nd_kv A) -> In z l -> exists a : node, In a A /\ nd_kv a = nd_kv z.
Proof. intros P I. apply (in_map nd_kv) in I. apply (Permutation_in _ P) in I. apply in_map_iff in I as (a & E & J). eauto. Qed.
Lemma keq_kv p a a' z z' : nd_kv a = nd_kv a' -> nd_kv z = nd_kv z' -> keq p a z = keq p a' z'.
Proof. unfold FcaTab.keq, nkey. intros -> ->. reflexivity. Qed.
Lemma last_head t l A y rest z0 p : TInv t l -> Permutation (map nd_kv l) (map nd_kv A) -> Grouped c (f_pid t) (A ++ y :: rest) -> LastHead t A -> nd_kv z0 = nd_kv y ->
  fca_position (hash_of cb (f_hid t) (nkey z0)) (b_idx (f_b t)) = Some (N.of_nat p) -> HeadOk c (f_pid t) z0 (chainat (f_b t) p).
Proof.
  intros T P G LH Ez Ep (w & Jw & Ek). pose proof (ti_c _ _ _ T) as H. pose proof (Eqv_of c t l H) as [Sy Tr]. assert (In w l) as Iw by (apply (in_CInv c t l w p H Jw)).
  destruct (kv_in l A w P Iw) as (a' & Ia & Ea). destruct LH as [->|(A0 & a & z & q & r0 & -> & Eza & Ech)]; [destruct Ia|].
  assert (keq (f_pid t) z0 z = true) as Kz.
  { apply in_app_or in Ia as [Ia|[->|[]]].
    - apply in_split in Ia as (u & v & ->). rewrite <- !app_assoc in G. cbn [app] in G. assert (keq (f_pid t) a' y = true) as K1 by (rewrite Sy, (keq_kv _ y z0 a' w); auto).
      specialize (G u a' (v ++ [a]) y rest). rewrite <- app_assoc in G. specialize (G eq_refl K1). apply Forall_app in G as [_ G]. inversion G as [|? ? K2 _]. subst. apply (Tr z0 w z); [exact Ek|]. rewrite (keq_kv _ w a' z a); auto.
    - rewrite (keq_kv _ z0 z0 z w); auto. congruence. }
  assert (In z (chainat (f_b t) q)) as Jz by (rewrite Ech; left; reflexivity). pose proof (ci_placed _ _ _ H q z Jz) as Pq. rewrite (same_pos c t l (nkey z0) z H Kz), Ep in Pq. assert (q = p) as -> by (assert (N.of_nat p = N.of_nat q) by congruence; lia). eauto.
Qed.
Lemma uniq_look t l A y rest z0 : TInv t l -> Permutation (map nd_kv l) (map nd_kv A) -> Uniq c (f_pid t) (A ++ y :: rest) -> nd_kv z0 = nd_kv y -> lookup (f_pid t) (nkey z0) l = None.
Proof.
  intros T P U Ez. apply lookup_none. intros w Iw. destruct (kv_in l A w P Iw) as (a & Ia & Ea). apply uniq_app in U as (_ & _ & D). specialize (D a y Ia (or_introl eq_refl)).
  change (keq (f_pid t) z0 w = false). rewrite (keq_kv _ z0 y w a) by auto. pose proof (Eqv_of c t l (ti_c _ _ _ T)) as [Sy _]. rewrite Sy. exact D.
Qed.
(** the destination takes one more element *)
Definition put_plain (z : node) (t : table) : M St unit :=
  h <- hash_for cb (f_hid t) (nkey z) ;; itb <- of_option (at_hash (f_b t) h) ;; on_b (fun b => insert_node b itb z) ;;; mod_t inc_size.
Lemma put_plain_ok r t h l A y rest z n : SI (S r) (t, h) l -> InHand (t, h) l z -> 0 < b_size (f_b t) -> room l 1 -> Permutation (map nd_kv l) (map nd_kv A) -> KeysOk c (f_pid t) (A ++ y :: rest) -> (multi c = true -> LastHead t A) -> nd_kv z = nd_kv y ->
  outcome (put_plain z t (t, h) n)
    (fun _ s' => exists t' l', s' = (t', h) /\ SI r (t', h) l' /\ Permutation l' (z :: l) /\ Fr (t, h) (t', h) /\ 0 < b_size (f_b t') /\ (multi c = true -> LastHead t' (A ++ [y])))
    (fun kd s' => raised kd /\ s' = (t, h)).
Proof.
  intros I Hz Z Rm P KO LH Ez. pose proof (si_t _ _ _ _ I) as T. pose proof (ti_c _ _ _ T) as H. cbn [fst] in *. unfold put_plain. apply outcome_hash; [intros R; auto|]. intros n1. destruct (at_hash_ok c t l (nkey z) H) as (itb & Ah). rewrite Ah. cbn [of_option]. rewrite bind_ret.
  destruct Hz as (Al & Ni & Nx). cbn [fst snd] in *. pose proof I as [_ Lv Fn]. cbn [fst snd] in *.
  assert (exists b' l', insert_node (f_b t) itb z = Some b' /\ TInv (inc_size (set_b b' t)) l' /\ Permutation l' (z :: l) /\ bucket_count b' = bucket_count (f_b t) /\ (multi c = true -> LastHead (set_b b' t) (A ++ [y]))) as (b' & l' & Eb & T' & PM & BC & LH').
  { unfold KeysOk in KO. destruct (multi c) eqn:M.
    - pose proof (BOk_pos _ _ (ci_b _ _ _ H) Z) as W. destruct (at_hash_wf _ _ _ W (hash_lt c (f_hid t) (nkey z))) as (p & Lp & Pp & _).
      destruct (insert_head_ok t l z p itb M T Z Ah Al Ni Rm Pp) as (b' & l' & Eb & T' & PM & BC & Ch); [apply (last_head t l A y rest z p T P KO (LH eq_refl) Ez Pp)|].
      exists b', l'. split; [exact Eb|]. split; [exact T'|]. split; [exact PM|]. split; [exact BC|]. intros _. right. exists A, y, z, p, (chainat (f_b t) p). auto.
    - destruct (insert_ok c t l z (f_pid t) itb None T Z Ah Al Ni) as (b' & l' & Eb & T' & IA & _ & BC); [unfold room in Rm; lia|apply (uniq_look t l A y rest z T P KO Ez)|reflexivity|].
      exists b', l'. split; [exact Eb|]. split; [exact T'|]. split; [apply (Inserted_perm _ _ _ (InsAt_ins _ _ _ _ IA))|]. split; [exact BC|discriminate]. }
  rewrite (on_b_eq _ b') by exact Eb. unfold mod_t, modify. cbn [outcome fst snd]. exists (inc_size (set_b b' t)), l'. split; [reflexivity|]. split; [|split; [exact PM|split; [|split]]].
  - constructor; cbn [fst snd]; [exact T'|rewrite (Permutation_length PM); cbn [length]; lia|]. rewrite PM. constructor; assumption.
  - split; [repeat split|]. split; [left; split; [reflexivity|exact BC]|cbn; lia].
  - cbn [inc_size set_size set_b f_b]. unfold bucket_count in BC. lia.
  - exact LH'.
Qed.
Lemma move_nodes_from_ok r base x0 : keeps -> forall rest A t x h l0 h0 t0 pos fuel n, length rest < fuel ->
  MoveSt r base t0 x0 h0 A A rest ((t, x), h) -> SI (length (A ++ rest) + r) (t, h) l0 -> Pos (f_b x) (map left_of A ++ rest) (length A) pos -> 0 < b_size (f_b t) -> room l0 (length rest) -> base <= next h -> f_pid t = f_pid x0 ->
  KeysOk c (f_pid t) (A ++ rest) -> (multi c = true -> LastHead t A) ->
  outcome (move_nodes_from c fuel pos ((t, x), h) n) (fun _ (s' : St2) => MoveSt r base t0 x0 h0 (A ++ rest) (A ++ rest) [] s') (MoveExn r base t0 x0 h0 (A ++ rest)).
Proof.
  intros Kp. induction rest as [|y rest IH]; intros A t x h l0 h0 t0 pos fuel n Lf MS I PO Z Rm Bn Ep KO LH; (destruct fuel as [|fuel]; [lia|]); cbn [move_nodes_from].
  - rewrite (e_end_pos (f_b x) (map left_of A ++ []) (length A) pos); [|rewrite app_nil_r, map_length; lia|exact PO]. rewrite !app_nil_r, map_length, Nat.eqb_refl. cbn [outcome ret]. exact MS.
  - destruct MS as (l & I' & Pk & Fb & Tx & Fx & SX & Frs). cbn [fst snd] in *. assert (l = l0) as -> by (apply (SI_fun c (length (A ++ y :: rest) + r) (t, h)); assumption).
    rewrite (e_end_pos (f_b x) (map left_of A ++ y :: rest) (length A) pos); [|rewrite app_length, map_length; cbn [length]; lia|exact PO]. rewrite app_length, map_length. cbn [length]. replace (length A =? length A + S (length rest)) with false by (symmetry; apply Nat.eqb_neq; lia).
    assert (length (map left_of A) = length A) as LA by apply map_length. rewrite <- LA in PO.
    assert (NIt (f_b x) y pos) as Ny by (apply (pos_node _ _ _ _ y PO); rewrite nth_error_app2, Nat.sub_diag by lia; reflexivity).
    unfold get2 at 1. rewrite bind_bind, bind_get, bind_ret. cbn [fst snd]. rewrite (e_node_ok _ _ y pos (TInv_wf c x _ y Tx (in_elt _ _ _)) (ci_ids _ _ _ (ti_c _ _ _ Tx)) Ny). cbn [of_option]. rewrite bind_ret.
    cbn [length] in Lf, Rm.
    eapply bind_on1; [eapply outcome_weaken; [apply (new_node_ok c KTransfer (nd_kv y) t h n)|intros a s' X; exact X|]|].
    { cbn beta. intros kd s' (_ & R & Y). split; [exact R|]. exists A, A, (y :: rest). split; [reflexivity|]. split; [auto|]. assert (Kept (t, h) s') as Kp' by (destruct Y as [->| ->]; [apply Kept_refl|apply (kept_minus_plus (t, h))]).
      exists l0. cbn [fst snd]. rewrite <- surjective_pairing. split; [apply (Kept_SI c _ (t, h)); assumption|]. split; [exact Pk|]. split; [exact Fb|]. split; [exact Tx|]. destruct Kp' as (K1 & K2 & K3). cbn [snd] in K3. split; [eapply Forall_impl; [|exact Fx]; cbn beta; intros a La; lia|]. split; [exact SX|].
      apply (Fr_trans _ (t, h)); [exact Frs|]. apply Kept_Fr. split; [exact K1|]. split; [exact K2|exact K3]. }
    cbn beta. intros z t1 h1 n1 [Es ->]. injection Es as -> ->. set (z := Nd (next h) (f_al t) (nd_kv y)). pose proof (plus_SI c _ (t, h) l0 I) as I1. unfold plus in I1. cbn [fst snd] in I1. pose proof (fresh_hand c _ (t, h) l0 (nd_kv y) I) as Hz. unfold plus in Hz. cbn [fst snd] in Hz. fold z in Hz. set (h1 := Hp (S (live h)) (S (next h))) in *.
    eapply (bind_on2 _ _ _ _ _ _ (fun _ s' => exists b', s' = (set_b b' x, h1) /\ TInv (set_b b' x) (map left_of A ++ left_of y :: rest) /\ Pos b' (map left_of A ++ left_of y :: rest) (length (map left_of A)) pos /\ bucket_count b' = bucket_count (f_b x))).
    { rewrite <- (bind_ret_r (leave c (e_b pos) y)). apply (leave_ok x h1 (map left_of A) y rest pos); [exact Kp|exact Tx|exact PO|]. intros b' T1 P1 B1. cbn [outcome ret]. eauto. }
    cbn beta. intros [] x1 h2 n2 (b1 & Es & Tx1 & PO1 & BC1). injection Es as -> ->. rewrite get2_eq. cbn [fst snd]. set (x1 := set_b b1 x) in *.
    assert (map left_of (A ++ [y]) ++ rest = map left_of A ++ left_of y :: rest) as EM by (rewrite map_app, <- app_assoc; reflexivity).
    assert (Forall (fun a => nd_id a < next h1) ((A ++ [y]) ++ rest)) as Fx1 by (rewrite <- app_assoc; eapply Forall_impl; [|exact Fx]; cbn beta; intros a La; cbn; lia).
    assert (SameX x0 x1) as SX1 by (apply (SameX_trans _ x); [exact SX|repeat split; exact BC1]).
    assert (length ((A ++ [y]) ++ rest) = length (A ++ y :: rest)) as LL by (rewrite <- app_assoc; reflexivity).
    fold (put_plain z t).
    eapply (bind_on1 _ _ _ _ _ _ (fun _ s' => exists t' l', s' = (t', h1) /\ SI (length (A ++ y :: rest) + r) (t', h1) l' /\ Permutation l' (z :: l0) /\ Fr (t, h1) (t', h1) /\ 0 < b_size (f_b t') /\ (multi c = true -> LastHead t' (A ++ [y])))).
    { pose proof (put_plain_ok _ t h1 l0 A y rest z n2 I1 Hz Z ltac:(unfold room in *; lia) Pk KO LH eq_refl) as Q. unfold on_exn. cbn [fst snd]. match goal with |- outcome (match ?m with _ => _ end) _ _ => destruct m as [u s' n'|kd s' n'|]; cbn [outcome] in *; [exact Q| |exact Q] end.
      destruct Q as [R ->]. rewrite delete_node_ok by (try reflexivity; cbn; lia). cbn [outcome fst snd]. split; [exact R|]. exists A, (A ++ [y]), rest. split; [rewrite <- app_assoc; reflexivity|]. split; [eauto|]. exists l0. cbn [fst snd]. rewrite LL. split; [apply (Kept_SI c _ (t, h)); [apply (kept_minus_plus (t, h))|exact I]|].
      split; [exact Pk|]. split; [exact Fb|]. rewrite EM. split; [exact Tx1|]. split; [exact Fx1|]. split; [exact SX1|]. apply (Fr_trans _ (t, h)); [exact Frs|apply Kept_Fr; apply (kept_minus_plus (t, h))]. }
    cbn beta. intros [] t2 h3 n3 (t' & l' & Es & I2 & PM & F2 & Z2 & LH2). injection Es as -> ->.
    destruct (e_next_ok b1 _ (length (map left_of A)) pos (TInv_wf c x1 _ (left_of y) Tx1 (in_elt _ _ _)) (ci_ids _ _ _ (ti_c _ _ _ Tx1)) ltac:(rewrite app_length; cbn [length]; lia) PO1) as (nx & En & Pn).
    change (f_b x1) with b1. rewrite En. cbn [of_option]. rewrite bind_ret.
    replace (A ++ y :: rest) with ((A ++ [y]) ++ rest) by (rewrite <- app_assoc; reflexivity).
    assert (Fr (t, h) (t', h1)) as F3. { destruct F2 as (Fa & Fb' & Fc). split; [exact Fa|]. split; [exact Fb'|cbn; lia]. }
    apply (IH (A ++ [y]) t' x1 h1 l').
    + lia.
    + exists l'. cbn [fst snd]. rewrite LL. split; [exact I2|]. split; [|split; [|split; [rewrite EM; exact Tx1|split; [exact Fx1|split; [exact SX1|apply (Fr_trans _ (t, h)); assumption]]]]].
      * rewrite PM. cbn [map]. rewrite map_app. cbn [map]. change (nd_kv z) with (nd_kv y). rewrite Pk. apply Permutation_cons_append.
      * rewrite PM. constructor; [cbn; lia|exact Fb].
    + rewrite LL. exact I2.
    + rewrite EM. change (f_b x1) with b1. rewrite app_length. cbn [length]. rewrite LA in Pn. rewrite Nat.add_1_r. exact Pn.
    + exact Z2.
    + unfold room in *. rewrite (Permutation_length PM). cbn [length]. lia.
    + cbn. lia.
    + destruct F3 as ((_ & X & _) & _). cbn [fst] in X. congruence.
    + destruct F3 as ((_ & X & _) & _). cbn [fst] in X. rewrite X, <- app_assoc. exact KO.
    + exact LH2.
Qed.
(** *** move construction *)
Lemma move_construct_ok x lx n E : TInv x lx -> outcome (move_construct x n) (fun t x' => t = x /\ x' = emptied x /\ TInv x' [] /\ MLok x') E.
Proof. intros T. cbn. split; [reflexivity|]. split; [reflexivity|]. split; [apply (emptied_ok x lx T)|apply emptied_ml]. Qed.
(** destroying a table under construction: the other table is not touched *)
Definition LeftBy (r : nat) (x : table) (h : heap) (lx : list node) (s : St) : Prop := SI r s lx /\ SameX x (fst s) /\ next h <= next (snd s).
Definition MCPost (r : nat) (x : table) (h : heap) (lx : list node) (al : N) (t : table) (s' : St) : Prop :=
  exists l lx', SI (length l + r) s' lx' /\ SI (length lx' + r) (t, snd s') l /\ Permutation (map nd_kv l) (map nd_kv lx) /\
    f_hid t = f_hid x /\ f_pid t = f_pid x /\ f_al t = al /\ f_mlf t = f_mlf x /\ (MLok x -> MLok t) /\ SameT x (fst s') /\ (MLok x -> MLok (fst s')) /\ next h <= next (snd s') /\
    (al = f_al x -> l = lx /\ lx' = [] /\ t = x) /\
    (al <> f_al x -> lx' = map left_of lx /\ Forall (fun y => next h <= nd_id y) l).
Definition MCExn (r : nat) (x : table) (h : heap) (lx : list node) (kd : kind) (s' : St) : Prop :=
  raised kd /\ exists A B, lx = A ++ B /\ LeftBy r x h (map left_of A ++ B) s'.
Lemma SameX_ml x x' : SameX x x' -> MLok x -> MLok x'.
Proof. intros ((_ & _ & _ & A) & B & C) M. unfold MLok in *. congruence. Qed.
Lemma move_construct_al_ok r x h lx al n : SI r (x, h) lx -> al = f_al x \/ keeps ->
  outcome (move_construct_al c al (x, h) n) (MCPost r x h lx al) (MCExn r x h lx).
Proof.
  intros I Kp. pose proof (si_t _ _ _ _ I) as T. pose proof (si_live _ _ _ _ I) as Lv. pose proof (si_next _ _ _ _ I) as Fn. cbn [fst snd] in *. unfold move_construct_al. cbn [fst snd].
  assert (MCExn r x h lx KAlloc (x, h) \/ True) as _ by auto.
  assert (forall kd, raised kd -> MCExn r x h lx kd (x, h)) as EX0 by (intros kd R; split; [exact R|]; exists [], lx; split; [reflexivity|]; split; [exact I|]; split; [apply SameX_refl|cbn; lia]).
  pose proof (new_barray_ok c al (bucket_count (f_b x)) (x, h) n) as NB. unfold bind. destruct (new_barray c al (bucket_count (f_b x)) (x, h) n) as [nb s1 n1|kd s1 n1|]; cbn [outcome] in NB; [|destruct NB as (-> & R & ->); apply EX0; exact R|destruct NB].
  destruct NB as (-> & O & B & BC & _ & _ & Ch). cbn [ret fst snd]. set (t := recalc (FT (f_hid x) (f_pid x) al 0 (f_mlf x) 0 nb)).
  assert (TInv t []) as Tt by (apply fresh_tab; auto; [apply (ci_agree _ _ _ (ti_c _ _ _ T))|apply (ci_mlf _ _ _ (ti_c _ _ _ T))]).
  assert (SI (length lx + r) (t, h) []) as It by (constructor; cbn [fst snd length]; [exact Tt|lia|constructor]).
  assert (MLok t) as MLt by apply MLok_recalc.
  assert (f_hid t = f_hid x /\ f_pid t = f_pid x /\ f_al t = al /\ f_mlf t = f_mlf x) as (T1 & T2 & T3 & T4) by (repeat split).
  (* an exception: the new table is destroyed *)
  assert (forall kd (s2 : St2) n2, raised kd -> MoveExn r (next h) t x h lx kd s2 -> outcome (match destroy_table (fst (fst s2), snd s2) n2 with Ret _ s3 n3 => Exn kd (snd (fst s2), snd s3) n3 | _ => Undef end) (MCPost r x h lx al) (MCExn r x h lx)) as FX.
  { intros kd s2 n2 R (_ & A & A' & B' & El & _ & l & Il & Pl & Fl & Tx & Fx & SX & Frx). pose proof (destroy_ok c _ (fst (fst s2), snd s2) l n2 (fun _ _ => False) Il) as D. destruct (destroy_table (fst (fst s2), snd s2) n2) as [u s3 n3| |]; cbn [outcome] in D; [|destruct D|destruct D]. subst s3. cbn [outcome].
    split; [exact R|]. exists A', B'. split; [exact El|]. split; [|split; [exact SX|destruct Frx as (_ & _ & Z); exact Z]]. pose proof (si_live _ _ _ _ Il) as L2. cbn [snd] in L2. constructor; cbn [fst snd no_buckets live next]; [exact Tx| |].
    - rewrite app_length, map_length. rewrite app_length in L2. lia.
    - apply Forall_app in Fx as [F1 F2]. apply Forall_app. split; [|exact F2]. rewrite Forall_map. eapply Forall_impl; [|exact F1]. auto. }
  destruct (N.eqb_spec al (f_al x)) as [EA|EA].
  - assert (b_dealloc al (f_b t) = Some tt) as ->.
    { cbn [t recalc set_ml f_b]. destruct B as [[-> _]|(o & W & El)]; [reflexivity|]. rewrite <- O. apply (b_dealloc_ok _ _ o W). symmetry. exact El. }
    cbn [of_option ret fst snd]. unfold put2, modify. cbn [fst snd outcome].
    set (t' := FT (f_hid t) (f_pid t) al (f_size x) (f_mlf t) (f_ml x) (f_b x)). assert (t' = x) as Et by (unfold t'; rewrite T1, T2, T4, EA; destruct x; reflexivity). rewrite Et. pose proof (emptied_ok x lx T) as Te.
    exists lx, []. cbn [fst snd length]. split; [constructor; cbn [fst snd length]; [exact Te|lia|constructor]|]. split; [constructor; cbn [fst snd length]; [exact T|lia|exact Fn]|]. split; [reflexivity|]. do 5 (split; [first [reflexivity | congruence | auto]|]). split; [repeat split|]. split; [intros _; apply emptied_ml|]. split; [lia|]. split; [auto|contradiction].
  - destruct Kp as [X|Kp]; [contradiction|]. destruct (N.eqb_spec (f_size x) 0) as [E0|E0].
    + cbn [ret fst snd outcome]. assert (lx = []) as -> by (destruct lx; [reflexivity|rewrite (ti_size _ _ _ T) in E0; cbn in E0; lia]). exists [], []. cbn [fst snd]. split; [exact I|]. split; [exact It|]. split; [reflexivity|]. do 5 (split; [first [assumption|auto]|]). split; [apply SameT_refl|]. split; [auto|]. split; [lia|]. split; [contradiction|]. intros _. split; [reflexivity|constructor].
    + fold (@bind St2). match goal with |- outcome (match ?m with _ => _ end) _ _ => enough (outcome m (fun _ (s' : St2) => MoveSt r (next h) t x h lx lx [] s') (MoveExn r (next h) t x h lx)) as G end.
      * match goal with |- outcome (match ?m with _ => _ end) _ _ => destruct m as [u s2 n2|kd s2 n2|]; cbn [outcome] in G; [|apply FX; [apply G|exact G]|destruct G] end. cbn [outcome].
        destruct G as (l & Il & Pl & Fl & Tx & Fx & SX & Frx). rewrite app_nil_r in *. exists l, (map left_of lx). rewrite map_length in *. cbn [fst snd].
        assert (length l + (length lx + r) = live (snd s2)) as Lv2 by (symmetry; exact (si_live _ _ _ _ Il)).
        split; [constructor; cbn [fst snd]; [exact Tx|rewrite map_length; lia|rewrite Forall_map; eapply Forall_impl; [|exact Fx]; auto]|]. split; [exact Il|]. split; [exact Pl|].
        pose proof (Fr_ok _ _ Frx MLt) as MLt'. destruct Frx as ((F1 & F2 & F3 & F4) & F5 & F6). cbn [fst snd] in *.
        do 5 (split; [first [congruence | auto]|]). split; [apply SX|]. split; [apply (SameX_ml _ _ SX)|]. split; [lia|]. split; [contradiction|]. auto.
      * assert (forall s1 : St, SI (length lx + r) s1 [] -> Fr (t, h) s1 -> MoveSt r (next h) t x h [] [] lx ((fst s1, x), snd s1)) as MS0.
        { intros s1 I1 F1. exists []. cbn [fst snd app map length]. rewrite <- surjective_pairing. split; [exact I1|]. split; [constructor|]. split; [constructor|]. split; [exact T|]. destruct F1 as (F1 & F2 & F3). split; [eapply Forall_impl; [|exact Fn]; cbn beta; cbn [snd] in F3; intros a La; lia|]. split; [apply SameX_refl|]. split; [exact F1|]. split; assumption. }
        change (outcome (bind (on1 (reserve c (f_size x))) (fun _ => bind (of_option (e_begin x)) (fun it => move_nodes_from c (fuel_of x) it)) ((t, x), h) n1) (fun _ (s' : St2) => MoveSt r (next h) t x h lx lx [] s') (MoveExn r (next h) t x h lx)).
        eapply bind_on1; [eapply outcome_weaken; [apply (reserve_ok c t h [] (f_size x) n1 Tt ltac:(cbn; lia))|intros a s' X; exact X|]|].
        { cbn beta. intros kd s' X. split; [apply X|]. exists [], [], lx. split; [reflexivity|]. split; [auto|]. destruct (RehashExn_SI c _ t h [] kd s' It X) as (R & [[-> ->]|(-> & l' & lost & I' & P & F)]).
          - apply (MS0 (t, h)); [exact It|apply Fr_refl].
          - apply Permutation_nil, app_eq_nil in P as [_ ->]. apply MS0; assumption. }
        cbn beta. intros _ t2 h2 n2 (Rh & _ & Zb). destruct (Rehashed_SI c _ t h [] (t2, h2) It Rh) as (l1 & I2 & P & F). apply Permutation_nil in P. subst l1.
        destruct (table_begin x lx (ci_b _ _ _ (ti_c _ _ _ T)) (ti_size _ _ _ T)) as (it & Eb & PO). rewrite Eb. cbn [of_option]. rewrite bind_ret. pose proof F as ((F1 & F2 & _) & _ & F6). cbn [fst snd] in *.
        apply (move_nodes_from_ok r (next h) x Kp lx [] t2 x h2 [] h t it (fuel_of x) n2).
        -- unfold fuel_of. rewrite (ti_size _ _ _ T), Nnat.Nat2N.id. lia.
        -- apply (MS0 (t2, h2)); assumption.
        -- exact I2.
        -- exact PO.
        -- apply Zb. lia.
        -- unfold room. cbn [length]. pose proof (ti_room _ _ _ T). lia.
        -- lia.
        -- congruence.
        -- cbn [app]. rewrite F2, T2. apply (keysok_all c x lx T).
        -- left. reflexivity.
Qed.
(** *** move assignment *)
Definition take_one (t : table) (y : node) : M St unit :=
  h <- hash_for cb (f_hid t) (nkey y) ;; itb <- of_option (at_hash (f_b t) h) ;; hint <- (if multi c then find_node_impl c t (nkey y) itb else ret None) ;;
  x <- new_node c KTransfer (nd_kv y) ;; on_b (fun b => insert_node_hint b itb x hint) ;;; mod_t inc_size.
Lemma take_one_ok r t h l y n : SI r (t, h) l -> 0 < b_size (f_b t) -> room l 1 -> may_add (f_pid t) l y ->
  outcome (take_one t y (t, h) n) (fun _ s' => CopyPost r (t, h) l [nd_kv y] s' /\ 0 < b_size (f_b (fst s'))) (fun kd s' => raised kd /\ Kept (t, h) s').
Proof.
  intros I Z Rm MA. pose proof (si_t _ _ _ _ I) as T. pose proof (ti_c _ _ _ T) as H. cbn [fst] in *. unfold take_one.
  apply outcome_hash; [intros R; split; [exact R|apply Kept_refl]|]. intros n1. destruct (at_hash_ok c t l (nkey y) H) as (itb & A). rewrite A. cbn [of_option]. rewrite bind_ret.
  assert (outcome ((if multi c then find_node_impl c t (nkey y) itb else ret None) (t, h) n1) (fun ho s' => s' = (t, h) /\ HintOk c t l (nkey y) ho) (fun kd s' => raised kd /\ Kept (t, h) s')) as FN.
  { destruct (multi c) eqn:M.
    - eapply outcome_weaken; [apply (find_node_impl_ok c t l (nkey y) itb (t, h) n1 H A)| |intros kd s' X; apply RO_kept; exact X]. cbn beta. intros ri s' [-> ->]. split; [reflexivity|]. apply (lookup_hint c t l (nkey y) M).
    - cbn [outcome ret]. split; [reflexivity|]. destruct MA as [X|X]; [congruence|exact X]. }
  eapply outcome_bind; [exact FN|]. cbn beta. intros ho s' n2 [-> Hh].
  eapply outcome_bind; [eapply outcome_weaken; [apply (new_node_ok c KTransfer (nd_kv y) t h n2)|intros a s' X; exact X|]|].
  { cbn beta. intros kd s' (_ & R & Y). split; [exact R|]. destruct Y as [->| ->]; [apply Kept_refl|apply (kept_minus_plus (t, h))]. }
  cbn beta. intros x s' n3 [-> ->]. set (x := Nd (next h) (f_al t) (nd_kv y)). pose proof (plus_SI c r (t, h) l I) as I'. unfold plus in I'. cbn [fst snd] in I'. set (h1 := Hp (S (live h)) (S (next h))) in *.
  pose proof (fresh_hand c r (t, h) l (nd_kv y) I) as Hx. unfold plus in Hx. cbn [fst snd] in Hx. fold h1 x in Hx.
  apply (on_b_insert_ok c r t h1 l x itb ho); [exact I'|exact Hx|exact Z|exact A|exact Hh|exact Rm|]. intros t' l' I2 IA NI S ML BC. unfold mod_t, modify. cbn [outcome fst snd inc_size set_size f_b]. split; [|unfold bucket_count in BC; lia].
  change [nd_kv y] with [nd_kv x]. apply (InsPost_copy c r (t, h) l ho x (EI (Some (nd_id x)) itb)); [|cbn; lia].
  exists l, l'. split; [reflexivity|]. split; [exact IA|]. split; [exact I2|]. split; [|split; [exact NI|auto]]. split; [exact S|]. split; [left; auto|cbn; lia].
Qed.
Lemma move_assign_nodes_ok r base x0 : keeps -> forall rest A t x h l0 h0 t0 pos fuel n, length rest < fuel ->
  MoveSt r base t0 x0 h0 A A rest ((t, x), h) -> SI (length (A ++ rest) + r) (t, h) l0 -> Pos (f_b x) (map left_of A ++ rest) (length A) pos -> (rest <> [] -> 0 < b_size (f_b t)) -> room l0 (length rest) -> base <= next h ->
  (multi c = false -> Uniq c (f_pid t) (A ++ rest)) ->
  outcome (move_assign_nodes c fuel pos ((t, x), h) n) (fun _ (s' : St2) => MoveSt r base t0 x0 h0 (A ++ rest) (A ++ rest) [] s') (MoveExn r base t0 x0 h0 (A ++ rest)).
Proof.
  intros Kp. induction rest as [|y rest IH]; intros A t x h l0 h0 t0 pos fuel n Lf MS I PO Z Rm Bn KO; (destruct fuel as [|fuel]; [lia|]); cbn [move_assign_nodes].
  - rewrite (e_end_pos (f_b x) (map left_of A ++ []) (length A) pos); [|rewrite app_nil_r, map_length; lia|exact PO]. rewrite !app_nil_r, map_length, Nat.eqb_refl. cbn [outcome ret]. exact MS.
  - destruct MS as (l & I' & Pk & Fb & Tx & Fx & SX & Frs). cbn [fst snd] in *. assert (l = l0) as -> by (apply (SI_fun c (length (A ++ y :: rest) + r) (t, h)); assumption).
    rewrite (e_end_pos (f_b x) (map left_of A ++ y :: rest) (length A) pos); [|rewrite app_length, map_length; cbn [length]; lia|exact PO]. rewrite app_length, map_length. cbn [length]. replace (length A =? length A + S (length rest)) with false by (symmetry; apply Nat.eqb_neq; lia).
    assert (length (map left_of A) = length A) as LA by apply map_length. rewrite <- LA in PO.
    assert (NIt (f_b x) y pos) as Ny by (apply (pos_node _ _ _ _ y PO); rewrite nth_error_app2, Nat.sub_diag by lia; reflexivity).
    rewrite get2_eq. cbn [fst snd]. rewrite (e_node_ok _ _ y pos (TInv_wf c x _ y Tx (in_elt _ _ _)) (ci_ids _ _ _ (ti_c _ _ _ Tx)) Ny). cbn [of_option]. rewrite bind_ret.
    cbn [length] in Lf, Rm. specialize (Z ltac:(discriminate)).
    eapply (bind_on2 _ _ _ _ _ _ (fun _ s' => exists b', s' = (set_b b' x, h) /\ TInv (set_b b' x) (map left_of A ++ left_of y :: rest) /\ Pos b' (map left_of A ++ left_of y :: rest) (length (map left_of A)) pos /\ bucket_count b' = bucket_count (f_b x))).
    { apply outcome_tick.
      - intros R. cbn [fst snd]. split; [exact R|]. exists A, A, (y :: rest). split; [reflexivity|]. split; [auto|]. exists l0. cbn [fst snd]. auto 10.
      - intros n'. rewrite <- (bind_ret_r (leave c (e_b pos) y)). apply (leave_ok x h (map left_of A) y rest pos); [exact Kp|exact Tx|exact PO|]. intros b' T1 P1 B1. cbn [outcome ret]. eauto. }
    cbn beta. intros [] x1 h2 n2 (b1 & Es & Tx1 & PO1 & BC1). injection Es as -> ->. set (x1 := set_b b1 x) in *.
    assert (map left_of (A ++ [y]) ++ rest = map left_of A ++ left_of y :: rest) as EM by (rewrite map_app, <- app_assoc; reflexivity).
    assert (Forall (fun a => nd_id a < next h) ((A ++ [y]) ++ rest)) as Fx1 by (rewrite <- app_assoc; exact Fx).
    assert (SameX x0 x1) as SX1 by (apply (SameX_trans _ x); [exact SX|repeat split; exact BC1]).
    assert (length ((A ++ [y]) ++ rest) = length (A ++ y :: rest)) as LL by (rewrite <- app_assoc; reflexivity).
    fold (take_one t y).
    assert (may_add (f_pid t) l0 y) as MA. { unfold FcaCopy.may_add. destruct (multi c) eqn:M; [auto|]. right. apply (uniq_look t l0 A y rest y (si_t _ _ _ _ I) Pk (KO eq_refl) eq_refl). }
    eapply bind_on1; [eapply outcome_weaken; [apply (take_one_ok _ t h l0 y n2 I Z ltac:(unfold room in *; lia) MA)|intros a s' X; exact X|]|].
    { cbn beta. intros kd s' (R & Kp'). split; [exact R|]. exists A, (A ++ [y]), rest. split; [rewrite <- app_assoc; reflexivity|]. split; [eauto|]. exists l0. cbn [fst snd]. rewrite <- surjective_pairing, LL. split; [apply (Kept_SI c _ (t, h)); assumption|].
      split; [exact Pk|]. split; [exact Fb|]. rewrite EM. split; [exact Tx1|]. split; [destruct Kp' as (_ & _ & K3); cbn [snd] in K3; eapply Forall_impl; [|exact Fx1]; cbn beta; intros a La; lia|]. split; [exact SX1|]. apply (Fr_trans _ (t, h)); [exact Frs|apply Kept_Fr; exact Kp']. }
    cbn beta. intros [] t2 h3 n3 ((xs & l' & Ex & Fxs & I2 & PM & F2) & Z2). cbn [fst snd] in *. rewrite get2_eq. cbn [fst snd].
    destruct (e_next_ok b1 _ (length (map left_of A)) pos (TInv_wf c x1 _ (left_of y) Tx1 (in_elt _ _ _)) (ci_ids _ _ _ (ti_c _ _ _ Tx1)) ltac:(rewrite app_length; cbn [length]; lia) PO1) as (nx & En & Pn).
    change (f_b x1) with b1. rewrite En. cbn [of_option]. rewrite bind_ret.
    replace (A ++ y :: rest) with ((A ++ [y]) ++ rest) by (rewrite <- app_assoc; reflexivity).
    pose proof F2 as ((_ & Fp & _) & _ & Fnx). cbn [fst snd] in Fp, Fnx.
    apply (IH (A ++ [y]) t2 x1 h3 l').
    + lia.
    + exists l'. cbn [fst snd]. rewrite LL. split; [exact I2|]. split; [|split; [|split; [rewrite EM; exact Tx1|split; [|split; [exact SX1|apply (Fr_trans _ (t, h)); assumption]]]]].
      * rewrite PM, !map_app, Ex, Pk. cbn [map]. apply Permutation_app_comm.
      * rewrite PM. apply Forall_app. split; [|exact Fb]. eapply Forall_impl; [|exact Fxs]. cbn beta. intros a La. lia.
      * eapply Forall_impl; [|exact Fx1]. cbn beta. intros a La. lia.
    + rewrite LL. exact I2.
    + rewrite EM. change (f_b x1) with b1. rewrite app_length. cbn [length]. rewrite LA in Pn. rewrite Nat.add_1_r. exact Pn.
    + intros _. exact Z2.
    + unfold room in *. rewrite (Permutation_length PM), app_length. apply Permutation_length in Ex. rewrite map_length in Ex. cbn [length] in Ex. lia.
    + lia.
    + intros M. rewrite Fp, <- app_assoc. apply KO. exact M.
Qed.
(** both tables: r nodes exist outside them *)
Definition SI2 (r : nat) (s : St2) (l lx : list node) : Prop := SI (length lx + r) (fst (fst s), snd s) l /\ SI (length l + r) (snd (fst s), snd s) lx.
Lemma SI2_intro r t x h l lx : TInv t l -> TInv x lx -> live h = length l + length lx + r -> Forall (fun y => nd_id y < next h) l -> Forall (fun y => nd_id y < next h) lx -> SI2 r ((t, x), h) l lx.
Proof. intros A B C D E. split; constructor; cbn [fst snd]; auto; lia. Qed.
Definition steals (t x : table) : bool := pocma cb || N.eqb (f_al t) (f_al x).
(** the buckets of x become those of this *)
Definition MAPost (r : nat) (t x : table) (h : heap) (l lx : list node) (s' : St2) : Prop :=
  exists l' lx', SI2 r s' l' lx' /\ Permutation (map nd_kv l') (map nd_kv lx) /\ next h <= next (snd s') /\
    f_hid (fst (fst s')) = f_hid x /\ f_pid (fst (fst s')) = f_pid x /\ f_al (fst (fst s')) = (if pocma cb then f_al x else f_al t) /\ f_mlf (fst (fst s')) = f_mlf x /\ (MLok x -> MLok (fst (fst s'))) /\
    SameT x (snd (fst s')) /\ (MLok x -> MLok (snd (fst s'))) /\
    (steals t x = true -> l' = lx /\ lx' = [] /\ f_b (fst (fst s')) = f_b x) /\
    (steals t x = false -> lx' = map left_of lx /\ Forall (fun y => next h <= nd_id y) l').
Definition MAExn (r : nat) (t x : table) (h : heap) (l lx : list node) (kd : kind) (s' : St2) : Prop :=
  raised kd /\ steals t x = false /\ exists l' A B, lx = A ++ B /\ SI2 r s' l' (map left_of A ++ B) /\ next h <= next (snd s') /\ f_al (fst (fst s')) = f_al t /\ MLok (fst (fst s')) /\ SameX x (snd (fst s')) /\
    ((exists lost, Permutation l (lost ++ l') /\ (kd <> KHash -> lost = []) /\ A = [] /\ f_hid (fst (fst s')) = f_hid t /\ f_pid (fst (fst s')) = f_pid t) \/
     (exists A0, (A = A0 \/ exists y, A = A0 ++ [y]) /\ Permutation (map nd_kv l') (map nd_kv A0) /\ Forall (fun y => next h <= nd_id y) l' /\ f_hid (fst (fst s')) = f_hid x /\ f_pid (fst (fst s')) = f_pid x)).
Lemma move_assign_ok r t x h l lx n : SI2 r ((t, x), h) l lx -> steals t x = true \/ keeps ->
  outcome (move_assign c ((t, x), h) n) (fun _ (s' : St2) => MAPost r t x h l lx s') (MAExn r t x h l lx).
Proof.
  intros [I Ix] Kp. cbn [fst snd] in *. pose proof (si_t _ _ _ _ I) as T. pose proof (si_t _ _ _ _ Ix) as Tx. pose proof (si_live _ _ _ _ I) as Lv. pose proof (si_next _ _ _ _ Ix) as Fx. cbn [fst snd] in *.
  unfold move_assign. rewrite get2_eq. fold (steals t x). destruct (steals t x) eqn:ST.
  - eapply (bind_on1 _ _ _ _ _ _ (fun _ s' => s' = no_buckets (set_hp (f_hid x) (f_pid x) t, h) l)).
    { rewrite mod_t_eq. pose proof (com_delete_buckets (f_hid x) (f_pid x) (t, h) n) as DB. unfold hps in DB at 1. cbn [fst snd] in DB. rewrite DB.
      pose proof (destroy_ok c _ (t, h) l n (fun _ _ => False) I) as DO. unfold destroy_table in DO. destruct (delete_buckets (t, h) n) as [u s1 n2| |]; cbn [outcome] in DO; [|destruct DO|destruct DO]. subst s1. reflexivity. }
    cbn beta. intros [] t1 h1 n1 Es. unfold no_buckets in Es. cbn [fst snd] in Es. assert (h1 = Hp (live h - length l) (next h)) as -> by congruence. assert (t1 = set_b (b_null (f_al t)) (set_size 0 (set_hp (f_hid x) (f_pid x) t))) as -> by (cbn [set_hp f_al] in Es; congruence). clear Es.
    eapply (bind_on1 _ _ _ _ _ _ (fun _ s' => s' = (FT (f_hid x) (f_pid x) (if pocma cb then f_al x else f_al t) (f_size x) (f_mlf x) (f_ml x) (f_b x), Hp (live h - length l) (next h)))); [reflexivity|].
    cbn beta. intros [] t2 h2 n2 Es. injection Es as -> ->. cbn [outcome on2 lens mod_t modify fst snd].
    set (t2 := FT _ _ _ _ _ _ _). assert (t2 = x) as E2. { unfold t2, steals in *. destruct (pocma cb); cbn [orb] in ST; [destruct x; reflexivity|]. apply N.eqb_eq in ST. rewrite ST. destruct x; reflexivity. }
    rewrite E2. pose proof (emptied_ok x lx Tx) as Te. exists lx, []. cbn [fst snd length]. split; [apply SI2_intro; [exact Tx|exact Te|cbn [live length]; lia|exact Fx|constructor]|]. split; [reflexivity|]. cbn [next]. split; [lia|]. split; [reflexivity|]. split; [reflexivity|]. split; [rewrite <- E2 at 1; reflexivity|]. split; [reflexivity|]. split; [auto|]. split; [repeat split|]. split; [intros _; apply emptied_ml|]. split; [auto|intros X; congruence].
  - destruct Kp as [X|Kp]; [congruence|].
    set (t1 := recalc (set_mlf (f_mlf x) t)). assert (SI (length lx + r) (t1, h) l) as I1. { destruct I as [_ I2 I3]. constructor; [apply TInv_recalc_mlf; [exact T|apply (ci_mlf _ _ _ (ti_c _ _ _ Tx))]|exact I2|exact I3]. }
    assert (MLok t1) as ML1 by apply MLok_recalc.
    assert (f_hid t1 = f_hid t /\ f_pid t1 = f_pid t /\ f_al t1 = f_al t /\ f_mlf t1 = f_mlf x) as (T1a & T1b & T1c & T1d) by (repeat split). pose proof (si_t _ _ _ _ I1) as Tt1. cbn [fst] in Tt1.
    assert (forall s : St, fst s = t -> bind (mod_t (fun t => recalc (set_mlf (f_mlf x) t))) (fun _ => ret tt) s n = Ret tt (t1, snd s) n) as _ by (intros s <-; reflexivity).
    assert (forall kd s' l' lost, raised kd -> SI (length lx + r) s' l' -> Permutation l (lost ++ l') -> (kd <> KHash -> lost = []) -> Fr (t1, h) s' -> MAExn r t x h l lx kd ((fst s', x), snd s')) as EX.
    { intros kd s' l' lost R I' P Hl F. pose proof (Fr_ok _ _ F ML1) as ML'. destruct F as ((F1 & F2 & F3 & F4) & F5 & F6). cbn [fst snd] in *. split; [exact R|]. split; [exact ST|]. exists l', [], lx. split; [reflexivity|]. split; [|cbn [fst snd]; split; [lia|split; [congruence|split; [exact ML'|split; [apply SameX_refl|left; exists lost; split; [exact P|]; split; [exact Hl|]; split; [reflexivity|]; split; congruence]]]]].
      cbn [app map]. apply SI2_intro; [apply (si_t _ _ _ _ I')|exact Tx|pose proof (si_live _ _ _ _ I'); lia|apply (si_next _ _ _ _ I')|eapply Forall_impl; [|exact Fx]; cbn beta; intros a La; lia]. }
    eapply (bind_on1 _ _ _ _ _ _ (fun _ s' => SI (length lx + r) s' [] /\ f_hid (fst s') = f_hid x /\ f_pid (fst s') = f_pid x /\ f_al (fst s') = f_al t /\ f_mlf (fst s') = f_mlf x /\ MLok (fst s') /\ next h <= next (snd s') /\ (lx <> [] -> 0 < b_size (f_b (fst s'))))).
    { rewrite mod_t_eq. fold t1. clearbody t1.
      assert (outcome ((if (0 <? f_size x)%N then reserve_for_insert c (f_size x) else ret tt) (t1, h) n) (fun _ s' => exists l1, SI (length lx + r) s' l1 /\ Fr (t1, h) s' /\ (lx <> [] -> 0 < b_size (f_b (fst s')))) (fun kd s' => MAExn r t x h l lx kd ((fst s', x), snd s'))) as RFI.
      { destruct (N.ltb_spec 0 (f_size x)) as [E0|E0].
        - eapply outcome_weaken; [apply (reserve_for_insert_ok c t1 h l (f_size x) n Tt1)| |]; [lia|lia|rewrite (ti_size _ _ _ Tx); pose proof (ti_room _ _ _ Tx); lia| |].
          + cbn beta. intros _ s' (Rh & Zb & _). destruct (Rehashed_SI c _ t1 h l s' I1 Rh) as (l1 & A & B & C). eauto.
          + cbn beta. intros kd s' (X & _). destruct (RehashExn_SI c _ t1 h l kd s' I1 X) as (R & [[-> ->]|(-> & l' & lost & I' & P & F)]).
            * apply (EX KAlloc (t1, h) l []); auto. apply Fr_refl.
            * apply (EX KHash s' l' lost); auto. congruence.
        - cbn [outcome ret]. exists l. split; [exact I1|]. split; [apply Fr_refl|]. intros N. exfalso. apply N. rewrite (ti_size _ _ _ Tx) in E0. destruct lx; [reflexivity|cbn in E0; lia]. }
      eapply outcome_bind; [exact RFI|]. cbn beta. intros _ s1 n1 (l1 & I2 & F1 & Zb). pose proof (Fr_ok _ _ F1 ML1) as ML2.
      eapply outcome_bind; [apply (clear_ok c _ s1 l1 n1 _ I2)|]. cbn beta. intros _ [t2 h2] n2 (I3 & SB). pose proof (SameB_Fr _ _ SB) as F2. pose proof (Fr_trans _ _ _ F1 F2) as F12. pose proof (Fr_ok _ _ F2 ML2) as ML3. destruct SB as (SBc & _). cbn [fst] in ML3, SBc.
      unfold mod_t, modify. cbn [outcome fst snd]. destruct F12 as ((G1 & G2 & G3 & G4) & _ & G6). cbn [fst snd] in *. cbn [set_hp f_hid f_pid f_al f_mlf f_b f_ml].
      split; [|split; [reflexivity|split; [reflexivity|split; [congruence|split; [congruence|split; [exact ML3|split; [exact G6|]]]]]]].
      - destruct I3 as [J1 J2 J3]. constructor; [apply TInv_set_hp; [exact J1|apply (ci_agree _ _ _ (ti_c _ _ _ Tx))]|exact J2|exact J3].
      - intros N. specialize (Zb N). unfold bucket_count in SBc. lia. }
    cbn beta. intros [] t2 h2 n2 (I2 & E1 & E2 & E3 & E4 & ML2 & Nx & Zb). cbn [fst snd] in *.
    destruct (table_begin x lx (ci_b _ _ _ (ti_c _ _ _ Tx)) (ti_size _ _ _ Tx)) as (it & Eb & PO). rewrite Eb. cbn [of_option]. rewrite bind_ret.
    assert (forall A A' B (s' : St2), lx = A' ++ B -> MoveSt r (next h) t2 x h2 A A' B s' -> exists l', SI2 r s' l' (map left_of A' ++ B) /\ Permutation (map nd_kv l') (map nd_kv A) /\ next h <= next (snd s') /\ Forall (fun y => next h <= nd_id y) l' /\
       f_hid (fst (fst s')) = f_hid x /\ f_pid (fst (fst s')) = f_pid x /\ f_al (fst (fst s')) = f_al t /\ f_mlf (fst (fst s')) = f_mlf x /\ MLok (fst (fst s')) /\ SameX x (snd (fst s'))) as FIN.
    { intros A A' B [[t' x'] h'] El (l' & Il & Pl & Fl & Tx' & Fx' & SX & Frx). cbn [fst snd] in *. pose proof (Fr_ok _ _ Frx ML2) as ML3. destruct Frx as ((F1 & F2 & F3 & F4) & F5 & F6). cbn [fst snd] in *. exists l'.
      split; [|split; [exact Pl|split; [lia|split; [exact Fl|split; [congruence|split; [congruence|split; [congruence|split; [congruence|split; [exact ML3|exact SX]]]]]]]]].
      apply SI2_intro; [apply (si_t _ _ _ _ Il)|exact Tx'|pose proof (si_live _ _ _ _ Il) as L2; cbn [snd] in L2; rewrite app_length in *; rewrite map_length; lia|apply (si_next _ _ _ _ Il)|].
      apply Forall_app in Fx' as [F7 F8]. apply Forall_app. split; [|exact F8]. rewrite Forall_map. eapply Forall_impl; [|exact F7]. auto. }
    assert (MoveSt r (next h) t2 x h2 [] [] lx ((t2, x), h2)) as MS0.
    { exists []. cbn [fst snd app map]. split; [exact I2|]. split; [constructor|]. split; [constructor|]. split; [exact Tx|]. split; [eapply Forall_impl; [|exact Fx]; cbn beta; intros a La; lia|]. split; [apply SameX_refl|apply Fr_refl]. }
    assert (pocma cb = false) as PM by (unfold steals in ST; destruct (pocma cb); [discriminate|reflexivity]).
    eapply outcome_weaken; [apply (move_assign_nodes_ok r (next h) x Kp lx [] t2 x h2 [] h2 t2 it (fuel_of x) n2)| |].
    + unfold fuel_of. rewrite (ti_size _ _ _ Tx), Nnat.Nat2N.id. lia.
    + exact MS0.
    + exact I2.
    + exact PO.
    + exact Zb.
    + unfold room. cbn [length]. pose proof (ti_room _ _ _ Tx). lia.
    + lia.
    + intros M. cbn [app]. rewrite E2. pose proof (keysok_all c x lx Tx) as KO. unfold KeysOk in KO. rewrite M in KO. exact KO.
    + cbn beta. intros [] s' Q. cbn [app] in Q. destruct (FIN _ _ _ s' ltac:(symmetry; apply app_nil_r) Q) as (l' & S2 & Pl & Nl & Fl & X1 & X2 & X3 & X4 & X5 & X6). rewrite app_nil_r in S2.
      exists l', (map left_of lx). split; [exact S2|]. split; [exact Pl|]. split; [exact Nl|]. rewrite PM. do 4 (split; [assumption|]). split; [auto|]. split; [apply X6|]. split; [apply (SameX_ml _ _ X6)|]. rewrite ST. split; [discriminate|auto].
    + cbn beta. intros kd s' (R & A & A' & B & El & HA & Q). cbn [app] in El. destruct (FIN _ _ _ s' El Q) as (l' & S2 & Pl & Nl & Fl & X1 & X2 & X3 & X4 & X5 & X6).
      split; [exact R|]. split; [exact ST|]. exists l', A', B. split; [exact El|]. split; [exact S2|]. split; [exact Nl|]. split; [exact X3|]. split; [exact X5|]. split; [exact X6|]. right. exists A. split; [exact HA|]. auto.
Qed.

(** *** swap *)
Lemma swap_ok r t x h l lx n E : SI2 r ((t, x), h) l lx -> pocs cb = true \/ f_al t = f_al x ->
  outcome (swap_tables c ((t, x), h) n) (fun _ (s' : St2) => s' = ((x, t), h) /\ SI2 r s' lx l) E.
Proof.
  intros [I Ix] A. cbn [fst snd] in *. unfold swap_tables. rewrite get2_eq.
  assert (SI2 r ((x, t), h) lx l) as S2 by (split; assumption).
  destruct (pocs cb); [cbn; auto|]. destruct A as [A|A]; [discriminate|]. rewrite A, N.eqb_refl. cbn [outcome put2 modify fst snd].
  assert (FT (f_hid x) (f_pid x) (f_al x) (f_size x) (f_mlf x) (f_ml x) (f_b x) = x) as -> by (destruct x; reflexivity).
  assert (FT (f_hid t) (f_pid t) (f_al x) (f_size t) (f_mlf t) (f_ml t) (f_b t) = t) as -> by (rewrite <- A; destruct t; reflexivity). auto.
Qed.
End Move.
