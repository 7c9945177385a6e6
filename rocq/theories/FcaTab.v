(** Table invariant of the closed-addressing containers; lookup. *)
From Coq Require Import NArith ZArith Bool List Arith Lia Permutation.
From Verif Require Import FloatModel HashArithModel HashArithProofs FoaModel FoaGroup FoaBase FcaLinks FcaLinksProofs FcaModel FcaInv FcaIter.
From Verif Require FoaWorld.
Import ListNotations.
Local Open Scope nat_scope.

Notation agree := FoaWorld.agree.

Section Tab.
Context {K V : Type} (c : FCfg K V).
Notation node := (node K V).
Notation barray := (barray K V).
Notation table := (FcaModel.table K V).
Notation cb := (base c).
Notation St := (table * heap)%type.
Implicit Types (b : barray) (t : table) (x : node) (l : list node).

Definition keq (p : N) (x y : node) : bool := keqf cb p (nkey x) (nkey y).
Definition Uniq (p : N) (l : list node) : Prop := ForallOrdPairs (fun x y => keq p x y = false) l.
Definition Grouped (p : N) (l : list node) : Prop := forall l1 x l2 y l3, l = l1 ++ x :: l2 ++ y :: l3 -> keq p x y = true -> Forall (fun z => keq p x z = true) l2.
Definition KeysOk (p : N) (l : list node) : Prop := if multi c then Grouped p l else Uniq p l.

Record CInv (t : table) (l : list node) : Prop := {
  ci_b : BOk (f_b t) l;
  ci_own : b_own (f_b t) = f_al t;
  ci_al : Forall (fun x => nd_al x = f_al t) l;
  ci_ids : NoDup (map nd_id l);
  ci_keys : forall q, KeysOk (f_pid t) (chainat (f_b t) q);
  ci_placed : forall q x, In x (chainat (f_b t) q) -> fca_position (hash_of cb (f_hid t) (nkey x)) (b_idx (f_b t)) = Some (N.of_nat q);
  ci_null : b_size (f_b t) = 0 -> f_ml t = 0%N;
  ci_mlf : match f_mlf t with None => True | Some m => (min_mlf <= m)%Z end;
  ci_agree : agree cb (f_hid t) (f_pid t)
}.
(** more elements than any 64-bit machine can address *)
Definition max_elems : N := 2 ^ 53.
Record TInv (t : table) (l : list node) : Prop := {
  ti_c : CInv t l;
  ti_size : f_size t = N.of_nat (length l);
  ti_room : (N.of_nat (length l) < max_elems)%N
}.
Definition raised (k : kind) : Prop := exists n, throws cb k n = true.

(** *** The equivalence *)
Lemma keq_sym t l : CInv t l -> forall x y, keq (f_pid t) x y = keq (f_pid t) y x.
Proof. intros H x y. destruct (ci_agree _ _ H) as [(_ & S & _) _]. apply S. Qed.
Lemma keq_trans t l : CInv t l -> forall x y z, keq (f_pid t) x y = true -> keq (f_pid t) y z = true -> keq (f_pid t) x z = true.
Proof. intros H x y z. destruct (ci_agree _ _ H) as [(_ & _ & T) _]. apply T. Qed.

(** *** positions *)
Lemma hash_lt (h : N) k : (hash_of cb h k < 2 ^ 64)%N.
Proof. apply N.mod_lt. discriminate. Qed.
Lemma pos_ok idx (sz : nat) h : fca_size idx = Some (N.of_nat sz) -> (h < 2 ^ 64)%N -> exists p, p < sz /\ fca_position h idx = Some (N.of_nat p).
Proof.
  intros E L. unfold fca_size in E. pose proof (sizes_pos idx _ E) as Z.
  pose proof (fca_position_ok get_remainder (fun _ _ _ _ => eq_refl) h idx _ L E) as X. unfold fca_position. rewrite X. clear X.
  eexists. split; [|rewrite <- N2Nat.id at 1; reflexivity].
  enough ((if Nat.ltb idx 29 then ((h mod 2 ^ 32 + h / 2 ^ 32) mod 2 ^ 32) mod N.of_nat sz else h mod N.of_nat sz) < N.of_nat sz)%N as Lr by lia.
  destruct (Nat.ltb idx 29); apply N.mod_lt; lia.
Qed.
Lemma at_hash_null b h : b = b_null (b_own b) -> (h < 2 ^ 64)%N -> at_hash b h = Some (BI 0 None).
Proof.
  intros E L. unfold at_hash. rewrite E. cbn [b_null b_idx]. destruct (pos_ok 0 13 h eq_refl L) as (p & _ & X). rewrite X. reflexivity.
Qed.
Lemma at_hash_wf b l h : Wf b l -> (h < 2 ^ 64)%N -> exists p, p < b_size b /\ fca_position h (b_idx b) = Some (N.of_nat p) /\ at_hash b h = Some (BI p (Some (p / 64))).
Proof.
  intros (o & H & _) L. destruct (pos_ok (b_idx b) (b_size b) h (wb_size _ _ _ H) L) as (p & Lp & E). exists p. split; [exact Lp|]. split; [exact E|].
  unfold at_hash, b_at. rewrite E. cbn [bindo]. pose proof (wb_pos _ _ _ H) as Z. apply Nat.ltb_lt in Z. rewrite Z, Nat2N.id. reflexivity.
Qed.
(** equivalent keys are in the same bucket *)
Lemma same_pos t l k x : CInv t l -> keqf cb (f_pid t) k (nkey x) = true -> hash_of cb (f_hid t) (nkey x) = hash_of cb (f_hid t) k.
Proof. intros H E. destruct (ci_agree _ _ H) as [_ A]. unfold hash_of. rewrite (A _ _ E). reflexivity. Qed.

(** *** lookup *)
Definition lookup (p : N) (k : K) (l : list node) : option node := List.find (fun x => keqf cb p k (nkey x)) l.
Lemma find_app {A} (f : A -> bool) (l1 l2 : list A) : List.find f (l1 ++ l2) = match List.find f l1 with Some x => Some x | None => List.find f l2 end.
Proof. induction l1 as [|x l1 IH]; [reflexivity|]. cbn [app List.find]. destruct (f x); [reflexivity|exact IH]. Qed.
Lemma find_none_all {A} (f : A -> bool) (l : list A) : (forall x : A, In x l -> f x = false) -> List.find f l = None.
Proof. induction l as [|x l IH]; intros H; [reflexivity|]. cbn [List.find]. rewrite H by (left; reflexivity). apply IH. intros y I. apply H. right. exact I. Qed.
Lemma lookup_none p k l : lookup p k l = None <-> forall x, In x l -> keqf cb p k (nkey x) = false.
Proof. split; [intros E x I; apply (List.find_none _ _ E x I)|apply find_none_all]. Qed.
Lemma lookup_some p k l x : lookup p k l = Some x -> In x l /\ keqf cb p k (nkey x) = true.
Proof. intros E. apply List.find_some in E. exact E. Qed.
Lemma seq_chain b l p : Wf b l -> p < b_size b -> exists A C, l = A ++ chainat b p ++ C /\ forall x, In x A \/ In x C -> exists q, q <> p /\ In x (chainat b q).
Proof.
  intros (o & H & ->) L. destruct (chainat b p) as [|y r] eqn:E.
  - exists (seqn b (ne b) o), []. cbn [app]. rewrite app_nil_r. split; [reflexivity|]. intros x [I|[]]. apply (in_seqn b _ o x H) in I as (q & I). exists q. split; [|exact I]. intros ->. rewrite E in I. destruct I.
  - assert (ne b p = true) as N by (apply ne_true; rewrite E; discriminate). destruct (seqn_split b _ o p H L N) as (A & C & S & _ & D). rewrite E in S. eauto.
Qed.
Lemma not_here t l k p x q : CInv t l -> fca_position (hash_of cb (f_hid t) k) (b_idx (f_b t)) = Some (N.of_nat p) -> In x (chainat (f_b t) q) -> q <> p -> keqf cb (f_pid t) k (nkey x) = false.
Proof.
  intros H E I N. destruct (keqf cb (f_pid t) k (nkey x)) eqn:Ek; [|reflexivity]. exfalso. apply N. pose proof (ci_placed _ _ H q x I) as P. rewrite (same_pos t l k x H Ek), E in P. injection P as P. lia.
Qed.
Lemma lookup_chain t l k p : CInv t l -> Wf (f_b t) l -> p < b_size (f_b t) -> fca_position (hash_of cb (f_hid t) k) (b_idx (f_b t)) = Some (N.of_nat p) ->
  lookup (f_pid t) k l = lookup (f_pid t) k (chainat (f_b t) p).
Proof.
  intros H W L E. destruct (seq_chain _ _ p W L) as (A & C & -> & D). unfold lookup. rewrite !find_app.
  assert (forall y, In y A \/ In y C -> keqf cb (f_pid t) k (nkey y) = false) as F.
  { intros y I. destruct (D y I) as (q & N & J). apply (not_here t _ k p y q H E J N). }
  rewrite (find_none_all _ A) by auto. rewrite (find_none_all _ C) by auto. destruct (List.find _ _); reflexivity.
Qed.
Definition RO {X} (s : X) (kd : kind) (s' : X) : Prop := s' = s /\ (kd = KHash \/ kd = KEq) /\ raised kd.
Lemma outcome_tick {X A} kd (f : unit -> M X A) (s : X) n Q (E : kind -> X -> Prop) : (raised kd -> E kd s) -> (forall n', outcome (f tt s n') Q E) -> outcome (bind (tick cb kd) f s n) Q E.
Proof. intros H1 H2. unfold bind, tick. destruct (throws cb kd n) eqn:T; cbn; [apply H1; exists n; exact T|apply H2]. Qed.
Lemma outcome_hash {X A} h k (f : N -> M X A) (s : X) n Q (E : kind -> X -> Prop) : (raised KHash -> E KHash s) -> (forall n', outcome (f (hash_of cb h k) s n') Q E) -> outcome (bind (hash_for cb h k) f s n) Q E.
Proof. intros H1 H2. unfold hash_for. rewrite bind_bind. apply outcome_tick; [exact H1|]. intros n'. rewrite bind_ret. apply H2. Qed.

Lemma find_in_chain_ok {X} p k l (s : X) n : outcome (find_in_chain c p k l s n) (fun r s' => s' = s /\ r = option_map nd_id (lookup p k l)) (RO s).
Proof.
  revert n. induction l as [|x l IH]; intros n; cbn [find_in_chain]; [split; reflexivity|]. apply outcome_tick; [intros R; split; [reflexivity|auto]|]. intros n'. unfold lookup. cbn [List.find].
  destruct (keqf cb p k (nkey x)); [split; reflexivity|]. apply IH.
Qed.
(** the bucket of a key and lookup in it *)
Lemma find_node_impl_ok {X} t l k itb (s : X) n : CInv t l -> at_hash (f_b t) (hash_of cb (f_hid t) k) = Some itb ->
  outcome (find_node_impl c t k itb s n) (fun r s' => s' = s /\ r = option_map nd_id (lookup (f_pid t) k l)) (RO s).
Proof.
  intros H E. unfold find_node_impl. destruct (ci_b _ _ H) as [[B ->]|W].
  - rewrite (at_hash_null _ _ B (hash_lt _ _)) in E. injection E as <-. rewrite B. cbn. split; reflexivity.
  - destruct (at_hash_wf _ _ _ W (hash_lt (f_hid t) k)) as (p & L & P & A). assert (BI p (Some (p / 64)) = itb) as <- by congruence.
    unfold bi_eqb, b_end. cbn [bi_p]. destruct (Nat.eqb_spec p (b_size (f_b t))) as [X1|_]; [lia|].
    assert (chain (f_b t) (BI p (Some (p / 64))) = Some (chainat (f_b t) p)) as -> by (destruct W as (o & W & _); apply (chain_at _ (ne (f_b t)) o); [exact W|lia]).
    cbn [of_option]. rewrite bind_ret. rewrite (lookup_chain t l k p H W L P). apply find_in_chain_ok.
Qed.
Lemma at_hash_ok t l k : CInv t l -> exists itb, at_hash (f_b t) (hash_of cb (f_hid t) k) = Some itb.
Proof. intros H. destruct (ci_b _ _ H) as [[B _]|W]; [rewrite (at_hash_null _ _ B (hash_lt _ _)); eauto|]. destruct (at_hash_wf _ _ _ W (hash_lt (f_hid t) k)) as (p & _ & _ & A). eauto. Qed.
Lemma lookup_it t l k x : CInv t l -> lookup (f_pid t) k l = Some x -> exists itb, at_hash (f_b t) (hash_of cb (f_hid t) k) = Some itb /\ NIt (f_b t) x (EI (Some (nd_id x)) itb).
Proof.
  intros H E. pose proof E as E0. apply lookup_some in E as [I Ek]. assert (Wf (f_b t) l) as W by (apply BOk_cons; [apply H|intros ->; destruct I]).
  destruct (at_hash_wf _ _ _ W (hash_lt (f_hid t) k)) as (p & L & P & A). exists (BI p (Some (p / 64))). split; [exact A|]. exists p. split; [|reflexivity].
  rewrite (lookup_chain t l k p H W L P) in E0. apply lookup_some in E0. apply E0.
Qed.
Lemma find_node_ok {X} t l k (s : X) n : CInv t l ->
  outcome (find_node c t k s n) (fun r s' => s' = s /\ fst r = option_map nd_id (lookup (f_pid t) k l) /\ (forall x, lookup (f_pid t) k l = Some x -> NIt (f_b t) x (EI (Some (nd_id x)) (snd r)))) (RO s).
Proof.
  intros H. unfold find_node. apply outcome_hash; [intros R; split; [reflexivity|auto]|]. intros n1. destruct (at_hash_ok t l k H) as (itb & E). rewrite E. cbn [of_option]. rewrite bind_ret.
  eapply outcome_bind; [apply (find_node_impl_ok t l k itb s n1 H E)|]. cbn beta. intros r s' n2 [-> ->]. split; [reflexivity|]. split; [reflexivity|]. intros x Ex.
  destruct (lookup_it t l k x H Ex) as (itb' & E' & N). rewrite E in E'. injection E' as <-. exact N.
Qed.
Definition opt_it t (o : option node) (it : eit) : Prop := match o with Some x => NIt (f_b t) x it | None => e_p it = None end.
Lemma find_ok {X} t l k (s : X) n : TInv t l -> outcome (find c t k s n) (fun it s' => s' = s /\ opt_it t (lookup (f_pid t) k l) it) (RO s).
Proof.
  intros [H Sz _]. unfold find. destruct (N.ltb_spec 0 (f_size t)) as [L|L].
  - assert (l <> []) as Nl by (intros ->; cbn in Sz; lia). pose proof (BOk_cons _ _ (ci_b _ _ H) Nl) as W.
    apply outcome_hash; [intros R; split; [reflexivity|auto]|]. intros n1. destruct (at_hash_wf _ _ _ W (hash_lt (f_hid t) k)) as (p & Lp & P & A). rewrite A. cbn [of_option]. rewrite bind_ret.
    assert (chain (f_b t) (BI p (Some (p / 64))) = Some (chainat (f_b t) p)) as -> by (destruct W as (o & W & _); apply (chain_at _ (ne (f_b t)) o); [exact W|lia]).
    cbn [of_option]. rewrite bind_ret. rewrite (lookup_chain t l k p H W Lp P).
    eapply outcome_bind; [apply find_in_chain_ok|]. cbn beta. intros r s' n2 [-> ->]. destruct (lookup (f_pid t) k (chainat (f_b t) p)) as [x|] eqn:E; cbn; [|split; reflexivity].
    split; [reflexivity|]. exists p. split; [apply lookup_some in E; apply E|reflexivity].
  - assert (l = []) as -> by (destruct l; [reflexivity|cbn in Sz; lia]). split; reflexivity.
Qed.

(** *** nodes *)
Lemma new_node_ok kd e t h n : outcome (new_node c kd e (t, h) n)
  (fun x s' => s' = (t, Hp (S (live h)) (S (next h))) /\ x = Nd (next h) (f_al t) e)
  (fun kd' s' => (kd' = KAlloc \/ kd' = kd) /\ raised kd' /\ (s' = (t, h) \/ s' = (t, Hp (live h) (S (next h))))).
Proof.
  unfold new_node, get_t. rewrite bind_bind, bind_get, bind_ret. apply outcome_tick; [intros R; auto|]. intros n1. rewrite bind_get. unfold mod_h. rewrite bind_modify. cbn [fst snd live next].
  unfold bind, on_exn, tick. destruct (throws cb kd n1) eqn:T; cbn.
  - split; [auto|]. split; [exists n1; exact T|]. auto.
  - split; reflexivity.
Qed.
Lemma delete_node_ok x t h n : nd_al x = f_al t -> 0 < live h -> delete_node x (t, h) n = Ret tt (t, Hp (Nat.pred (live h)) (next h)) n.
Proof. intros E L. unfold delete_node. rewrite bind_get. cbn [fst snd]. rewrite E, N.eqb_refl. apply Nat.ltb_lt in L. rewrite L. reflexivity. Qed.

Lemma usub_1 n : (N.of_nat (S n) < 2 ^ 64)%N -> usub (N.of_nat (S n)) 1 = N.of_nat n.
Proof. intros L. unfold usub. replace (N.of_nat (S n) + (2 ^ 64 - 1))%N with (N.of_nat n + 1 * 2 ^ 64)%N by lia. rewrite N.mod_add by discriminate. apply N.mod_small. lia. Qed.
Lemma uadd_1 n : (N.of_nat n + 1 < 2 ^ 64)%N -> uadd (N.of_nat n) 1 = N.of_nat (S n).
Proof. intros L. unfold uadd. rewrite N.mod_small by exact L. lia. Qed.
Lemma max_elems_lt : (max_elems < 2 ^ 64)%N. Proof. reflexivity. Qed.

(** all nodes of the array *)
Lemma CInv_in t l x : CInv t l -> In x l -> exists q, In x (chainat (f_b t) q).
Proof. intros H I. destruct (BOk_cons _ _ (ci_b _ _ H)) as (o & W & E); [intros ->; destruct I|]. subst l. apply (in_seqn _ _ o x W). exact I. Qed.
Lemma in_CInv t l x q : CInv t l -> In x (chainat (f_b t) q) -> In x l.
Proof.
  intros H I. destruct (ci_b _ _ H) as [[B _]|(o & W & ->)]; [rewrite B in I; destruct q; destruct I|]. apply (in_seqn _ _ o x W). eauto.
Qed.
Lemma nodes_total t l : CInv t l -> Permutation (concat (b_chains (f_b t))) l.
Proof.
  intros H. destruct (ci_b _ _ H) as [[B ->]|(o & W & ->)]; [rewrite B; constructor|].
  assert (concat (b_chains (f_b t)) = flat_map (chainat (f_b t)) (seq 0 (b_size (f_b t) + 1))) as ->.
  { rewrite <- (wb_len _ _ _ W). unfold chainat. clear. induction (b_chains (f_b t)) as [|a r IH]; [reflexivity|]. cbn [length seq concat flat_map nth]. f_equal. rewrite IH, <- seq_shift, flat_map_concat_map, flat_map_concat_map, map_map. reflexivity. }
  unfold seqn. symmetry.
  (* the non-empty buckets, in another order *)
  assert (Permutation (bseq (b_size (f_b t)) (ne (f_b t)) o) (filter (marked (b_size (f_b t)) (ne (f_b t))) (seq 0 (b_size (f_b t) + 1)))) as P.
  { apply NoDup_Permutation; [apply (bseq_nodup _ _ _ _ (wb_links _ _ _ W))|apply NoDup_filter, seq_NoDup|]. intros i. rewrite (in_bseq _ _ _ _ (wb_links _ _ _ W)), filter_In, in_seq. split; [|tauto].
    intros M. split; [|exact M]. unfold marked in M. apply orb_true_iff in M as [M|M]; [apply andb_true_iff in M as [_ M]; apply Nat.ltb_lt in M; lia|apply Nat.eqb_eq in M; lia]. }
  rewrite (flat_map_concat_map _ (bseq _ _ _)), (Permutation_map (chainat (f_b t)) P), <- flat_map_concat_map.
  rewrite flat_map_skip; [reflexivity|]. intros i I F. apply in_seq in I. unfold marked in F. apply orb_false_iff in F as [F1 F2]. apply Nat.eqb_neq in F2. assert (i < b_size (f_b t)) as L by lia. apply Nat.ltb_lt in L. rewrite L, andb_true_r in F1.
  unfold ne in F1. destruct (chainat (f_b t) i); [reflexivity|discriminate].
Qed.
End Tab.
