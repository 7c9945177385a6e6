(** Insertion in the closed-addressing containers. *)
From Coq Require Import NArith ZArith Bool List Arith Lia Permutation.
From Verif Require Import FloatModel HashArithModel HashArithProofs FoaModel FoaGroup FoaBase FcaLinks FcaLinksProofs FcaModel FcaInv FcaIter FcaTab FcaRehash.
Import ListNotations.
Local Open Scope m_scope.
Local Open Scope nat_scope.

Section Ops.
Context {K V : Type} (c : FCfg K V).
Notation node := (node K V).
Notation barray := (barray K V).
Notation table := (FcaModel.table K V).
Notation cb := (base c).
Notation St := (table * heap)%type.
Notation CInv := (CInv c). Notation TInv := (TInv c). Notation raised := (raised c). Notation keq := (keq c). Notation lookup := (lookup c).
Implicit Types (b nb : barray) (t : table) (x y : node) (s : St).

(** r nodes exist outside the table *)
Record SI (r : nat) (s : St) (l : list node) : Prop := {
  si_t : TInv (fst s) l;
  si_live : live (snd s) = length l + r;
  si_next : Forall (fun x => nd_id x < next (snd s)) l
}.
Definition Fr (s s' : St) : Prop := SameT (fst s) (fst s') /\ MLstep (fst s) (fst s') /\ next (snd s) <= next (snd s').
Definition Kept (s s' : St) : Prop := fst s' = fst s /\ live (snd s') = live (snd s) /\ next (snd s) <= next (snd s').
Lemma Fr_refl s : Fr s s. Proof. split; [apply SameT_refl|]. split; [apply MLstep_refl|lia]. Qed.
Lemma Fr_trans s1 s2 s3 : Fr s1 s2 -> Fr s2 s3 -> Fr s1 s3.
Proof.
  intros ((A1 & A2 & A3 & A4) & B & C) ((A1' & A2' & A3' & A4') & B' & C'). split; [repeat split; congruence|]. split; [apply (MLstep_trans _ (fst s2)); assumption|lia].
Qed.
Lemma Kept_refl s : Kept s s. Proof. split; [reflexivity|]. split; [reflexivity|lia]. Qed.
Lemma Kept_trans s1 s2 s3 : Kept s1 s2 -> Kept s2 s3 -> Kept s1 s3.
Proof. intros (A & B & C) (A' & B' & C'). split; [congruence|]. split; [congruence|lia]. Qed.
Lemma Kept_Fr s s' : Kept s s' -> Fr s s'.
Proof. intros (A & B & C). split; [rewrite A; apply SameT_refl|]. split; [rewrite A; apply MLstep_refl|lia]. Qed.
Lemma Kept_SI r s s' l : Kept s s' -> SI r s l -> SI r s' l.
Proof. intros (A & B & C) [I1 I2 I3]. constructor; [rewrite A; exact I1|congruence|]. eapply Forall_impl; [|exact I3]. cbn beta. intros x L. lia. Qed.

(** an exception: strong guarantee, unless the hash function throws while the table grows *)
Definition OpExn (r : nat) (s : St) (l : list node) (kd : kind) (s' : St) : Prop :=
  raised kd /\ exists l' lost, SI r s' l' /\ Permutation l (lost ++ l') /\ Fr s s' /\
    ((kd <> KHash \/ (f_size (fst s) + 1 <= f_ml (fst s))%N) -> Kept s s' /\ lost = [] /\ l' = l).
Lemma OpExn_kept r s l kd s' : raised kd -> Kept s s' -> SI r s l -> OpExn r s l kd s'.
Proof. intros R Kp I. split; [exact R|]. exists l, []. split; [apply (Kept_SI r s); assumption|]. split; [reflexivity|]. split; [apply Kept_Fr; exact Kp|auto]. Qed.
Lemma RO_kept (s : St) kd (s' : St) : RO c s kd s' -> raised kd /\ Kept s s'.
Proof. intros (-> & _ & R). split; [exact R|apply Kept_refl]. Qed.
Lemma RO_OpExn r s l kd s' : SI r s l -> RO c s kd s' -> OpExn r s l kd s'.
Proof. intros I H. apply RO_kept in H as [A B]. apply OpExn_kept; assumption. Qed.

Lemma SI_perm_rehash r t h l t' l' : SI r (t, h) l -> TInv t' l' -> Permutation l l' -> SI r (t', h) l'.
Proof. intros [I1 I2 I3] T P. constructor; [exact T|cbn in *; rewrite <- (Permutation_length P); exact I2|]. cbn [snd] in *. rewrite <- P. exact I3. Qed.
Lemma RehashExn_SI r t h l kd s' : SI r (t, h) l -> RehashExn c t h l kd s' ->
  raised kd /\ ((kd = KAlloc /\ s' = (t, h)) \/ (kd = KHash /\ exists l' lost, SI r s' l' /\ Permutation l (lost ++ l') /\ Fr (t, h) s')).
Proof.
  intros [I1 I2 I3] (R & [[-> ->]|(-> & t' & l' & lost & -> & T & P & S & M & B)]); (split; [exact R|]); [left; auto|]. right. split; [reflexivity|]. exists l', lost. split; [|split; [exact P|]].
  - cbn [fst snd] in *. constructor; cbn [fst snd live next]; [exact T| |].
    + apply Permutation_length in P. rewrite app_length in P. lia.
    + rewrite P in I3. apply Forall_app in I3. apply I3.
  - split; [exact S|]. split; [left; auto|]. cbn. lia.
Qed.
Lemma RehashExn_OpExn r t h l kd s' : SI r (t, h) l -> (f_ml t < f_size t + 1)%N -> RehashExn c t h l kd s' -> OpExn r (t, h) l kd s'.
Proof.
  intros I L H. destruct (RehashExn_SI r t h l kd s' I H) as (R & [[-> ->]|(-> & l' & lost & I' & P & F)]).
  - apply OpExn_kept; [exact R|apply Kept_refl|exact I].
  - split; [exact R|]. exists l', lost. split; [exact I'|]. split; [exact P|]. split; [exact F|]. cbn [fst]. intros [X|X]; [contradiction|lia].
Qed.

(** *** one insertion *)
Definition HintOk (t : table) (l : list node) (k : K) (hint : option nat) : Prop :=
  match hint with
  | None => lookup (f_pid t) k l = None
  | Some i => multi c = true /\ exists y, In y l /\ nd_id y = i /\ keqf cb (f_pid t) k (nkey y) = true
  end.
Lemma lookup_none_perm p k l l' : Permutation l l' -> lookup p k l = None -> lookup p k l' = None.
Proof. intros P E. apply lookup_none. intros x I. apply (proj1 (lookup_none c p k l) E). apply (Permutation_in _ (Permutation_sym P)). exact I. Qed.
Lemma HintOk_perm t t' l l' k hint : SameT t t' -> Permutation l l' -> HintOk t l k hint -> HintOk t' l' k hint.
Proof.
  intros (_ & E & _) P. unfold HintOk. rewrite E. destruct hint as [i|].
  - intros (M & y & I & X). split; [exact M|]. exists y. split; [apply (Permutation_in _ P); exact I|exact X].
  - apply lookup_none_perm. exact P.
Qed.
Definition Eqv (p : N) : Prop := (forall x y, keq p x y = keq p y x) /\ (forall x y z, keq p x y = true -> keq p y z = true -> keq p x z = true).
Lemma Eqv_of t l : CInv t l -> Eqv (f_pid t). Proof. intros H. split; [apply (keq_sym c t l H)|apply (keq_trans c t l H)]. Qed.
Definition HeadOk (p : N) (a : node) (l : list node) : Prop := (exists y, In y l /\ keq p a y = true) -> exists z r, l = z :: r /\ keq p a z = true.
Lemma grouped_iff p a l : Eqv p -> (Grouped c p (a :: l) <-> Grouped c p l /\ HeadOk p a l).
Proof.
  intros [Sy Tr]. split.
  - intros G. split; [intros l1 x l2 y l3 E Ek; apply (G (a :: l1) x l2 y l3); [rewrite E; reflexivity|exact Ek]|].
    intros (y & I & Ek). apply in_split in I as (l2 & l3 & ->). destruct l2 as [|z l2]; [exists y, l3; auto|]. exists z, (l2 ++ y :: l3). split; [reflexivity|].
    pose proof (G [] a (z :: l2) y l3 eq_refl Ek) as F. inversion F. assumption.
  - intros [G Hd]. apply grouped_cons; assumption.
Qed.
Lemma grouped_after p (l1 : list node) y x l2 : Eqv p -> Grouped c p (l1 ++ y :: l2) -> keq p x y = true -> Grouped c p (l1 ++ y :: x :: l2).
Proof.
  intros E G Exy. pose proof E as [Sy Tr]. induction l1 as [|a l1 IH]; cbn [app] in *.
  - apply grouped_iff in G as [G Hd]; [|exact E]. apply grouped_iff; [exact E|]. split.
    + apply grouped_iff; [exact E|]. split; [exact G|]. intros (z & I & Ez). destruct Hd as (w & r & -> & Ew); [exists z; split; [exact I|]; apply (Tr _ x); [rewrite Sy; exact Exy|exact Ez]|]. exists w, r. split; [reflexivity|]. apply (Tr _ y); assumption.
    + intros _. exists x, l2. split; [reflexivity|]. rewrite Sy. exact Exy.
  - apply grouped_iff in G as [G Hd]; [|exact E]. apply grouped_iff; [exact E|]. split; [apply IH; exact G|].
    intros (z & I & Ez). assert (exists w r, l1 ++ y :: l2 = w :: r /\ keq p a w = true) as (w & r & Ew & Ek).
    { apply Hd. apply in_app_or in I as [I|[->|[->|I]]].
      - exists z. split; [apply in_or_app; left; exact I|exact Ez].
      - exists z. split; [apply in_elt|exact Ez].
      - exists y. split; [apply in_elt|]. apply (Tr _ z); assumption.
      - exists z. split; [apply in_or_app; right; right; exact I|exact Ez]. }
    destruct l1 as [|b l1]; cbn [app] in *; injection Ew as <- _; eauto.
Qed.
Lemma grouped_remove p (l1 : list node) x l2 : Eqv p -> Grouped c p (l1 ++ x :: l2) -> Grouped c p (l1 ++ l2).
Proof.
  intros E G. pose proof E as [Sy Tr]. induction l1 as [|a l1 IH]; cbn [app] in *; [apply grouped_iff in G as [G _]; assumption|].
  apply grouped_iff in G as [G Hd]; [|exact E]. apply grouped_iff; [exact E|]. split; [apply IH; exact G|].
  intros (z & I & Ez). destruct Hd as (w & r & Ew & Ek); [exists z; split; [|exact Ez]; apply in_app_or in I as [I|I]; apply in_or_app; [left|right; right]; exact I|].
  destruct l1 as [|b l1]; cbn [app] in *.
  - injection Ew as <- _. apply grouped_iff in G as [_ Hw]; [|exact E]. destruct Hw as (v & q & -> & Ev); [exists z; split; [exact I|]; apply (Tr _ a); [rewrite Sy; exact Ek|exact Ez]|]. exists v, q. split; [reflexivity|]. apply (Tr _ x); assumption.
  - injection Ew as <- _. eauto.
Qed.
Lemma keysok_remove p (l1 : list node) x l2 : Eqv p -> KeysOk c p (l1 ++ x :: l2) -> KeysOk c p (l1 ++ l2).
Proof.
  intros E. unfold KeysOk. destruct (multi c); [apply grouped_remove; exact E|]. intros U. apply uniq_app in U as (A & B & C). inversion B. subst. apply uniq_app. split; [exact A|]. split; [assumption|]. intros y z I J. apply C; [exact I|right; exact J].
Qed.
Lemma insert_ok t l x p itb hint : TInv t l -> 0 < b_size (f_b t) -> at_hash (f_b t) (hash_of cb (f_hid t) (nkey x)) = Some itb -> nd_al x = f_al t -> ~ In (nd_id x) (map nd_id l) ->
  (N.of_nat (length l) + 1 < max_elems)%N -> HintOk t l (nkey x) hint -> p = f_pid t ->
  exists b' l', insert_node_hint (f_b t) itb x hint = Some b' /\ TInv (inc_size (set_b b' t)) l' /\ InsAt hint x l l' /\ NIt b' x (EI (Some (nd_id x)) itb) /\ bucket_count b' = bucket_count (f_b t).
Proof.
  intros [H Sz Rm] Ps A Al Ni Rm' Hh ->. pose proof (BOk_pos _ _ (ci_b _ _ _ H) Ps) as W. pose proof (Eqv_of t l H) as EV.
  destruct (at_hash_wf _ _ _ W (hash_lt c (f_hid t) (nkey x))) as (p & Lp & Pp & A'). assert (BI p (Some (p / 64)) = itb) as <- by congruence. clear A'.
  assert (forall i, hint = Some i -> exists y, In y (chainat (f_b t) p) /\ nd_id y = i /\ keqf cb (f_pid t) (nkey x) (nkey y) = true /\ multi c = true) as HH.
  { intros i ->. destruct Hh as (M & y & Iy & Ei & Ek). exists y. split; [|auto]. destruct (CInv_in c t l y H Iy) as (q & Iq). destruct (Nat.eq_dec q p) as [->|Nq]; [exact Iq|]. rewrite (not_here c t l (nkey x) p y q H Pp Iq Nq) in Ek. discriminate. }
  destruct (insert_node_hint_ok (f_b t) l p x hint W Lp) as (b' & l' & E & W' & IA & X1 & X2 & X3 & X4 & X5).
  { intros i Ei. destruct (HH i Ei) as (y & Iy & <- & _). apply in_map. exact Iy. }
  exists b', l'. split; [exact E|]. pose proof (Inserted_perm _ _ _ (InsAt_ins _ _ _ _ IA)) as PM.
  assert (In x (chainat b' p)) as Ix by (destruct hint; [destruct X5 as (l1 & y & l2 & _ & _ & ->); apply in_or_app; right; right; left; reflexivity|rewrite X5; left; reflexivity]).
  assert (forall q y, In y (chainat b' q) -> (q = p /\ y = x) \/ In y (chainat (f_b t) q)) as CI.
  { intros q y I. destruct (Nat.eq_dec q p) as [->|Nq]; [|rewrite X4 in I by exact Nq; auto]. destruct hint.
    - destruct X5 as (l1 & z & l2 & -> & _ & R). rewrite R in I. apply in_app_or in I as [I|[I|[I|I]]]; [right|right|left|right]; auto using in_elt; try (apply in_or_app; left; exact I); [subst; apply in_elt|apply in_or_app; right; right; exact I].
    - rewrite X5 in I. destruct I as [I|I]; auto. }
  split; [|split; [exact IA|split; [exists p; auto|unfold bucket_count; rewrite X2; reflexivity]]].
  constructor.
  - destruct H as [C1 C2 C3 C4 C5 C6 C7 C8 C9]. constructor; cbn [inc_size set_size set_b f_b f_al f_pid f_hid f_ml f_mlf]; auto.
    + right. exact W'.
    + congruence.
    + rewrite PM. constructor; assumption.
    + apply (Permutation_NoDup (Permutation_map nd_id (Permutation_sym PM))). cbn [map]. constructor; assumption.
    + intros q. destruct (Nat.eq_dec q p) as [->|Nq]; [|rewrite X4 by exact Nq; apply C5]. specialize (C5 p). unfold KeysOk in *. destruct hint as [i|].
      * destruct X5 as (l1 & y & l2 & E1 & Ey & ->). destruct (HH i eq_refl) as (y' & Iy' & Ei & Ek & M). rewrite M in *. rewrite E1 in C5, Iy'.
        assert (y' = y) as ->.
        { assert (NoDup (map nd_id (l1 ++ y :: l2))) as ND by (rewrite <- E1; destruct W as (o & W & Wl); apply (chain_nodup _ _ o p W); rewrite <- Wl; exact C4).
          apply in_split in Iy' as (u & v & Eu). rewrite Eu in ND. assert (In y (u ++ y' :: v)) as Iy by (rewrite <- Eu; apply in_elt). apply in_elt_inv in Iy as [Iy|Iy]; [congruence|]. exfalso. rewrite map_app in ND. cbn [map] in ND. apply NoDup_remove_2 in ND. apply ND. rewrite <- map_app, Ei, <- Ey. apply in_map. exact Iy. }
        apply grouped_after; [exact EV|exact C5|exact Ek].
      * rewrite X5. cbn [HintOk] in Hh. assert (forall y, In y (chainat (f_b t) p) -> keq (f_pid t) x y = false) as NE.
        { intros y Iy. apply (proj1 (lookup_none c _ _ l) Hh). destruct W as (o & W & ->). apply (in_seqn _ _ o y W). eauto. }
        destruct (multi c).
        -- apply grouped_iff; [exact EV|]. split; [exact C5|]. intros (y & Iy & Ek). rewrite (NE y Iy) in Ek. discriminate.
        -- constructor; [|exact C5]. apply Forall_forall. exact NE.
    + intros q y I. rewrite X1. destruct (CI q y I) as [[-> ->]|I2]; [exact Pp|apply C6; exact I2].
    + rewrite X2. exact C7.
  - cbn [inc_size set_size set_b f_size]. rewrite Sz. rewrite (Permutation_length PM). cbn [length]. apply uadd_1. pose proof max_elems_lt. lia.
  - rewrite (Permutation_length PM). cbn [length]. lia.
Qed.

(** growth for one more element *)
Lemma grow_for_one_ok t hp l k itb n : TInv t l -> length l <= live hp -> at_hash (f_b t) (hash_of cb (f_hid t) k) = Some itb ->
  outcome (grow_for_one c (hash_of cb (f_hid t) k) itb (t, hp) n)
    (fun itb' s' => Rehashed c t hp l s' /\ 0 < b_size (f_b (fst s')) /\ at_hash (f_b (fst s')) (hash_of cb (f_hid t) k) = Some itb' /\ ((f_size t + 1 <= f_ml t)%N -> s' = (t, hp)) /\ ((f_ml t < f_size t + 1)%N -> bucket_count_for (N.max (min_buckets (f_size t) (f_mlf t)) (min_buckets (f_size t + 1) (f_mlf t))) = Some (bucket_count (f_b (fst s')))))
    (fun kd s' => RehashExn c t hp l kd s' /\ (f_ml t < f_size t + 1)%N).
Proof.
  intros H Lv A. unfold grow_for_one, get_t. rewrite bind_bind, bind_get, bind_ret. cbn [fst].
  assert (uadd (f_size t) 1 = (f_size t + 1)%N) as U by (pose proof max_elems_lt; pose proof (ti_room _ _ _ H); unfold uadd; apply N.mod_small; rewrite (ti_size _ _ _ H); lia).
  rewrite U. destruct (N.ltb_spec (f_ml t) (f_size t + 1)) as [L|L].
  - eapply outcome_bind; [eapply outcome_weaken; [apply (reserve_ok c t hp l (f_size t + 1)%N n H Lv)|intros a s' X; exact X|intros kd s' X; split; [exact X|exact L]]|].
    cbn beta. intros _ s' n' (R & BCF & Z). destruct R as (t' & l' & -> & T & P & S & M). cbn [fst] in *. rewrite bind_bind, bind_get, bind_ret. cbn [fst].
    destruct (at_hash_ok c t' l' k (ti_c _ _ _ T)) as (itb' & E). destruct S as (S1 & S2 & S3 & S4). rewrite S1 in E. rewrite E. cbn [of_option outcome ret fst]. split; [|split; [apply Z; lia|split; [exact E|split; [lia|]]]]; [|intros _; exact BCF].
    exists t', l'. split; [reflexivity|]. split; [exact T|]. split; [exact P|]. split; [repeat split; assumption|exact M].
  - cbn [outcome ret fst]. split; [|split; [|split; [exact A|split; [reflexivity|lia]]]].
    + exists t, l. split; [reflexivity|]. split; [exact H|]. split; [reflexivity|]. split; [apply SameT_refl|apply MLstep_refl].
    + destruct (Nat.eq_dec (b_size (f_b t)) 0) as [Z|Z]; [|lia]. rewrite (ci_null _ _ _ (ti_c _ _ _ H) Z) in L. lia.
Qed.

(** the new node is in; the other nodes may have been rearranged by a rehash *)
Definition InsPost (r : nat) (s : St) (l : list node) (hint : option nat) (x : node) (it : eit) (s' : St) : Prop :=
  exists l0 l', Permutation l l0 /\ InsAt hint x l0 l' /\ SI r s' l' /\ Fr s s' /\ NIt (f_b (fst s')) x it /\
    ((f_size (fst s) + 1 <= f_ml (fst s))%N -> l0 = l /\ bucket_count (f_b (fst s')) = bucket_count (f_b (fst s)) /\ f_ml (fst s') = f_ml (fst s)).
(** the table was below its maximum load, or has grown enough *)
Definition Grew (s s' : St) : Prop := (f_size (fst s) + 1 <= f_ml (fst s))%N \/
  bucket_count_for (N.max (min_buckets (f_size (fst s)) (f_mlf (fst s))) (min_buckets (f_size (fst s) + 1) (f_mlf (fst s)))) = Some (bucket_count (f_b (fst s'))).
Definition InsPostG (r : nat) (s : St) (l : list node) (hint : option nat) (x : node) (it : eit) (s' : St) : Prop := InsPost r s l hint x it s' /\ Grew s s'.
(** a node in hand that belongs to the table's allocator *)
Definition InHand (s : St) (l : list node) (x : node) : Prop := nd_al x = f_al (fst s) /\ ~ In (nd_id x) (map nd_id l) /\ nd_id x < next (snd s).

Lemma put_ok r t hp l x itb hint n : SI (S r) (t, hp) l -> InHand (t, hp) l x -> at_hash (f_b t) (hash_of cb (f_hid t) (nkey x)) = Some itb -> HintOk t l (nkey x) hint -> (N.of_nat (length l) + 1 < max_elems)%N ->
  outcome ((itb' <- grow_for_one c (hash_of cb (f_hid t) (nkey x)) itb ;; on_b (fun b => insert_node_hint b itb' x hint) ;;; mod_t inc_size ;;; ret (EI (Some (nd_id x)) itb')) (t, hp) n)
    (InsPostG r (t, hp) l hint x)
    (fun kd s' => OpExn (S r) (t, hp) l kd s').
Proof.
  intros I (Al & Ni & Nx) A Hh Rm. pose proof I as [H Lv Fn]. cbn [fst snd] in *.
  eapply outcome_bind; [eapply outcome_weaken; [apply (grow_for_one_ok t hp l (nkey x) itb n H ltac:(lia) A)|intros a s' X; exact X|]|].
  { cbn beta. intros kd s' (X & L). apply RehashExn_OpExn; assumption. }
  cbn beta. intros itb' s' n' ((t' & l0 & -> & T & P & S & M) & Z & A' & NR & GR). cbn [fst] in *. destruct S as (S1 & S2 & S3 & S4).
  destruct (insert_ok t' l0 x (f_pid t') itb' hint T Z) as (b' & l' & E & T' & IA & NI & BC).
  - rewrite S1. exact A'.
  - congruence.
  - intros X. apply Ni. apply (Permutation_in _ (Permutation_map nd_id (Permutation_sym P))). exact X.
  - rewrite <- (Permutation_length P). exact Rm.
  - apply (HintOk_perm t t' l l0); [repeat split; assumption|exact P|exact Hh].
  - reflexivity.
  - unfold on_b, get_t. rewrite !bind_bind, bind_get, bind_ret. cbn [fst]. rewrite bind_bind, E. cbn [of_option]. rewrite bind_ret. unfold mod_t. rewrite !bind_modify. cbn [fst snd ret outcome].
    split; [|unfold Grew; cbn [fst inc_size set_size set_b f_b]; rewrite BC; destruct (N.le_gt_cases (f_size t + 1) (f_ml t)) as [LE|GT]; [left; exact LE|right; apply GR; exact GT]].
    exists l0, l'. split; [exact P|]. split; [exact IA|]. pose proof (Inserted_perm _ _ _ (InsAt_ins _ _ _ _ IA)) as PM. split; [|split; [|split; [exact NI|]]].
    + constructor; cbn [fst snd]; [exact T'| |].
      * rewrite (Permutation_length PM). cbn [length]. rewrite <- (Permutation_length P). lia.
      * rewrite PM. constructor; [exact Nx|]. rewrite <- P. exact Fn.
    + split; [repeat split; assumption|]. split; [|cbn; lia]. unfold MLstep in *. cbn [fst inc_size set_size set_b f_ml f_mlf f_b]. rewrite BC. exact M.
    + cbn [fst]. intros L. assert ((t', hp) = (t, hp)) as X by (apply NR; exact L). injection X as ->. cbn [inc_size set_size set_b f_ml f_b]. split; [|auto].
      (* the same table has the same sequence *)
      pose proof (elements_ok t l (ci_b _ _ _ (ti_c _ _ _ H)) (ci_ids _ _ _ (ti_c _ _ _ H)) (ti_size _ _ _ H)) as E1. pose proof (elements_ok t l0 (ci_b _ _ _ (ti_c _ _ _ T)) (ci_ids _ _ _ (ti_c _ _ _ T)) (ti_size _ _ _ T)) as E2. congruence.
Qed.
End Ops.
