(** Rehashing of the closed-addressing containers. *)
From Coq Require Import NArith ZArith Bool List Arith Lia Permutation.
From Verif Require Import FloatModel FloatProofs HashArithModel HashArithProofs FoaModel FoaGroup FoaBase FcaLinks FcaLinksProofs FcaModel FcaInv FcaIter FcaTab.
Import ListNotations.
Local Open Scope nat_scope.

Section Rehash.
Context {K V : Type} (c : FCfg K V).
Notation node := (node K V).
Notation barray := (barray K V).
Notation table := (FcaModel.table K V).
Notation cb := (base c).
Notation St := (table * heap)%type.
Notation RSt := (St * barray)%type.
Notation CInv := (CInv c). Notation TInv := (TInv c). Notation raised := (raised c). Notation keq := (keq c).
Implicit Types (b nb : barray) (t : table) (x y : node).

(** *** new arrays *)
Lemma size_index_ok n : exists s, fca_size (fca_size_index n) = Some s /\ (13 <= s)%N /\ ((n <= 1649267441651)%N -> (n <= s)%N).
Proof.
  destruct (size_index_from_spec sizes 0 n ltac:(discriminate)) as (d & E & _ & H & _). rewrite Nat.sub_0_r in E. exists d. split; [exact E|]. split; [apply (sizes_pos _ _ E)|exact H].
Qed.
Lemma bcf_ok n : exists s, bucket_count_for n = Some s /\ (n = 0%N -> s = 0%N) /\ (n <> 0%N -> (13 <= s)%N) /\ ((n <= 1649267441651)%N -> (n <= s)%N).
Proof.
  unfold bucket_count_for. destruct (N.eqb_spec n 0) as [Z|Nz].
  - exists 0%N. split; [reflexivity|]. split; [auto|]. split; [contradiction|]. intros _. subst n. apply N.le_refl.
  - destruct (size_index_ok n) as (s & E & L & H). exists s. split; [exact E|]. split; [contradiction|]. auto.
Qed.
Lemma repeat_nth {A} (a d : A) n q : q < n -> nth q (repeat a n) d = a.
Proof. revert q. induction n as [|n IH]; intros q L; [lia|]. destruct q as [|q]; [reflexivity|]. cbn. apply IH. lia. Qed.
Lemma chain_repeat idx sz gs al q : chainat (BA idx sz (repeat (@nil node) (sz + 1)) gs al) q = [].
Proof. unfold chainat. cbn [b_chains]. destruct (Nat.lt_ge_cases q (sz + 1)) as [L|L]; [apply repeat_nth; exact L|apply nth_overflow; rewrite repeat_length; exact L]. Qed.
Lemma flat_map_nil {A B} (f : A -> list B) l : (forall a, In a l -> f a = []) -> flat_map f l = [].
Proof. induction l as [|a l IH]; intros H; [reflexivity|]. cbn [flat_map]. rewrite H by (left; reflexivity). apply IH. intros y I. apply H. right. exact I. Qed.
Lemma new_barray_ok {X} al n (s : X) m : outcome (new_barray c al n s m)
  (fun b s' => s' = s /\ b_own b = al /\ BOk b [] /\ bucket_count_for n = Some (bucket_count b) /\ (n = 0%N -> b = b_null al) /\ (n <> 0%N -> 0 < b_size b) /\ forall q, chainat b q = [])
  (fun kd s' => kd = KAlloc /\ raised kd /\ s' = s).
Proof.
  unfold new_barray, bucket_count_for. destruct (N.eqb_spec n 0) as [->|N].
  - cbn. split; [reflexivity|]. split; [reflexivity|]. split; [left; split; reflexivity|]. split; [reflexivity|]. split; [reflexivity|]. split; [lia|]. intros q. destruct q; reflexivity.
  - destruct (size_index_ok n) as (sz & E & L & _). rewrite E. cbn [of_option]. rewrite bind_ret. cbv zeta.
    apply outcome_tick; [auto|]. intros n1. apply outcome_tick; [auto|]. intros n2.
    destruct (new_groups_ok (N.to_nat sz)) as (gs & G & LI). rewrite G. cbn [of_option]. rewrite bind_ret. unfold outcome, ret.
    set (b := BA (fca_size_index n) (N.to_nat sz) (repeat [] (N.to_nat sz + 1)) gs al).
    assert (forall q, chainat b q = []) as CA by (intros q; apply chain_repeat).
    split; [reflexivity|]. split; [reflexivity|]. split; [|split; [|split; [|split]]].
    + right. exists []. assert (WB b (ne b) []) as W.
      { constructor.
        - cbn. lia.
        - cbn [b b_idx b_size]. rewrite N2Nat.id. exact E.
        - cbn [b b_chains b_size]. apply repeat_length.
        - apply CA.
        - apply (LInv_ext _ _ (fun _ => false)); [exact LI|]. intros i _. unfold ne. rewrite CA. reflexivity.
        - auto. }
      split; [exact W|]. symmetry. unfold seqn. apply flat_map_nil. intros q _. apply CA.
    + unfold bucket_count. cbn [b b_size]. rewrite N2Nat.id. reflexivity.
    + contradiction.
    + intros _. cbn. lia.
    + exact CA.
Qed.

(** the sequence is a rearrangement of the buckets' contents *)
Lemma seqn_perm b P o : WB b P o -> Permutation (seqn b P o) (flat_map (chainat b) (seq 0 (b_size b))).
Proof.
  intros W. unfold seqn.
  assert (Permutation (bseq (b_size b) P o) (filter (marked (b_size b) P) (seq 0 (b_size b + 1)))) as PM.
  { apply NoDup_Permutation; [apply (bseq_nodup _ _ _ _ (wb_links _ _ _ W))|apply NoDup_filter, seq_NoDup|]. intros i. rewrite (in_bseq _ _ _ _ (wb_links _ _ _ W)), filter_In, in_seq. split; [|tauto].
    intros M. split; [|exact M]. unfold marked in M. apply orb_true_iff in M as [M|M]; [apply andb_true_iff in M as [_ M]; apply Nat.ltb_lt in M; lia|apply Nat.eqb_eq in M; lia]. }
  rewrite (flat_map_concat_map _ (bseq _ _ _)), (Permutation_map (chainat b) PM), <- flat_map_concat_map.
  rewrite flat_map_skip.
  - rewrite seq_app, flat_map_app. cbn [seq flat_map Nat.add]. rewrite (wb_last _ _ _ W), !app_nil_r. reflexivity.
  - intros i I F. apply in_seq in I. unfold marked in F. apply orb_false_iff in F as [F1 F2]. apply Nat.eqb_neq in F2. assert (i < b_size b) as L by lia.
    destruct (chainat b i) as [|x r] eqn:E; [reflexivity|]. exfalso. assert (In x (chainat b i)) as I2 by (rewrite E; left; reflexivity).
    rewrite (wb_ne _ _ _ W i L (ne_in _ _ _ I2)) in F1. apply Nat.ltb_lt in L. rewrite L in F1. discriminate.
Qed.

(** *** keys of a chain that grows at the front *)
Lemma grouped_cons p x l : (forall y z, keq p y z = keq p z y) -> (forall y z w, keq p y z = true -> keq p z w = true -> keq p y w = true) ->
  Grouped c p l -> ((exists y, In y l /\ keq p x y = true) -> exists z r, l = z :: r /\ keq p x z = true) -> Grouped c p (x :: l).
Proof.
  intros Sy Tr G Hd l1 a l2 y l3 E Ek. destruct l1 as [|b1 l1]; cbn [app] in E; injection E as -> E.
  - subst l. destruct Hd as (z & r & E & Ez); [exists y; split; [apply in_elt|exact Ek]|]. destruct l2 as [|z' l2]; [constructor|]. cbn [app] in E. injection E as <- E.
    constructor; [exact Ez|]. assert (keq p z' y = true) as Ezy by (apply (Tr _ a); [rewrite Sy|]; assumption). pose proof (G [] z' l2 y l3 eq_refl Ezy) as F.
    rewrite Forall_forall in *. intros w I. apply (Tr _ z'); [exact Ez|apply F; exact I].
  - exact (G l1 a l2 y l3 E Ek).
Qed.
Lemma grouped_nil p : Grouped c p []. Proof. intros l1 x l2 y l3 E. destruct l1; discriminate. Qed.
Lemma keysok_nil p : KeysOk c p []. Proof. unfold KeysOk. destruct (multi c); [apply grouped_nil|constructor]. Qed.

Section Transfer.
Variables (t0 : table) (l0 : list node) (h0 : heap) (o0 : list nat) (sz0 : nat).
Notation b0 := (f_b t0).
Hypothesis H0 : TInv t0 l0.
Hypothesis W0 : WB b0 (ne b0) o0.
Hypothesis L0 : l0 = seqn b0 (ne b0) o0.
Hypothesis Z0 : l0 <> [] -> 0 < sz0.

Definition prevs (p : nat) : list node := flat_map (chainat b0) (seq 0 p).
Record TR (p : nat) (done rest : list node) (s : RSt) : Prop := {
  tr_h : snd (fst s) = h0;
  tr_t : exists b, fst (fst s) = set_b b t0 /\ WB b (ne b0) o0 /\ b_size b = b_size b0 /\ b_idx b = b_idx b0 /\ b_own b = b_own b0 /\
    forall q, chainat b q = if q <? p then [] else if q =? p then rest else chainat b0 q;
  tr_p : chainat b0 p = done ++ rest;
  tr_nb : exists l2, BOk (snd s) l2 /\ Permutation l2 (prevs p ++ done);
  tr_own : b_own (snd s) = f_al t0;
  tr_keys : forall q, KeysOk c (f_pid t0) (chainat (snd s) q);
  tr_placed : forall q x, In x (chainat (snd s) q) -> fca_position (hash_of cb (f_hid t0) (nkey x)) (b_idx (snd s)) = Some (N.of_nat q);
  tr_head : forall d z, done = d ++ [z] -> exists q r, chainat (snd s) q = z :: r;
  tr_pos : b_size (snd s) = sz0
}.
Let Eq : forall y z, keq (f_pid t0) y z = keq (f_pid t0) z y. Proof. apply (keq_sym c t0 l0), H0. Qed.
Let Et : forall y z w, keq (f_pid t0) y z = true -> keq (f_pid t0) z w = true -> keq (f_pid t0) y w = true. Proof. apply (keq_trans c t0 l0), H0. Qed.

Lemma in_prevs p x : In x (prevs p) <-> exists q, q < p /\ In x (chainat b0 q).
Proof. unfold prevs. rewrite in_flat_map. split; intros (q & A & B); exists q; (split; [|exact B]); [apply in_seq in A; lia|apply in_seq; lia]. Qed.
(** a node equivalent to one still to be transferred comes from the same bucket *)
Lemma eq_in_done p done x rest y : chainat b0 p = done ++ x :: rest -> In y (prevs p ++ done) -> keq (f_pid t0) x y = true -> In y done.
Proof.
  intros E I Ek. apply in_app_or in I as [I|I]; [|exact I]. exfalso. apply in_prevs in I as (q & L & I).
  assert (In x (chainat b0 p)) as Ix by (rewrite E; apply in_elt). pose proof (ci_placed c _ _ (ti_c _ _ _ H0) p x Ix) as P.
  unfold FcaTab.keq in Ek. rewrite (not_here c t0 l0 (nkey x) p y q (ti_c _ _ _ H0) P I) in Ek; [discriminate|lia].
Qed.
Lemma bok_in nb l2 q y : BOk nb l2 -> In y (chainat nb q) -> In y l2.
Proof. intros [[B _]|(o & W & ->)] I; [rewrite B in I; destruct q; destruct I|]. apply (in_seqn _ _ o y W). eauto. Qed.

Lemma transfer_chain_ok p (Lp : p < b_size b0) : forall rest done s n, TR p done rest s ->
  outcome (transfer_chain c p rest s n) (fun _ s' => TR p (done ++ rest) [] s') (fun kd s' => kd = KHash /\ raised kd /\ exists done' x rest', TR p done' (x :: rest') s').
Proof.
  induction rest as [|x rest IH]; intros done s n T; cbn [transfer_chain]; [unfold outcome, ret; rewrite app_nil_r; exact T|].
  destruct T as [Th (b & Tt & Wb & Sb & Ib & Ob & Cb) Tp (l2 & B2 & P2) To Tk Tpl Thd Tps]. destruct s as [[t h] nb]. cbn [fst snd] in *.
  assert (f_hid t = f_hid t0) as Hh by (rewrite Tt; reflexivity).
  rewrite bind_get. cbn [fst snd]. apply outcome_hash.
  { intros R. split; [reflexivity|]. split; [exact R|]. exists done, x, rest. constructor; cbn [fst snd]; eauto 10. }
  intros n1. rewrite Hh.
  assert (In x (chainat b0 p)) as Ix by (rewrite Tp; apply in_elt).
  assert (In x l0) as Ixl by (apply (in_CInv c t0 l0 x p); [apply H0|exact Ix]).
  assert (Wf nb l2) as W2 by (apply (BOk_pos _ _ B2); rewrite Tps; apply Z0; intros ->; destruct Ixl).
  destruct (at_hash_wf nb l2 _ W2 (hash_lt c (f_hid t0) (nkey x))) as (q & Lq & Pq & A). rewrite A. cbn [of_option]. rewrite bind_ret.
  rewrite insert_node_eq. destruct (insert_node_hint_ok nb l2 q x None W2 Lq) as (nb' & l2' & EI & W' & IN & X1 & X2 & X3 & X4 & X5); [discriminate|]. rewrite EI. cbn [of_option]. rewrite bind_ret.
  rewrite bind_modify. cbn [fst snd].
  (* the old chain loses x *)
  assert (chainat b p = x :: rest) as Cp by (rewrite Cb, Nat.ltb_irrefl, Nat.eqb_refl; reflexivity).
  assert (on_st (on_b (fun b1 => set_chain b1 (BI p None) rest)) ((t, h), nb') n1 = Ret tt ((set_b (setc b p rest) t0, h), nb') n1) as OS.
  { unfold on_st, on_b, lens, get_t. cbn. unfold bind, get, ret. cbn. rewrite Tt. cbn [set_b f_b fst]. rewrite (set_chain_at b (ne b0) o0) by (try exact Wb; lia). reflexivity. }
  unfold bind. rewrite OS. specialize (IH (done ++ [x]) ((set_b (setc b p rest) t0, h), nb') n1). rewrite <- app_assoc in IH. cbn [app] in IH. apply IH.
  constructor; cbn [fst snd].
  - exact Th.
  - exists (setc b p rest). split; [reflexivity|]. split; [apply WB_setc; [exact Wb|lia|]; intros _; apply (ne_in _ _ x); exact Ix|]. cbn [setc b_size b_idx b_own]. split; [exact Sb|]. split; [exact Ib|]. split; [exact Ob|].
    intros r. rewrite (chainat_setc b (ne b0) o0) by (try exact Wb; lia). rewrite Cb. destruct (Nat.eqb_spec r p) as [->|]; [rewrite Nat.ltb_irrefl; reflexivity|reflexivity].
  - rewrite <- app_assoc. exact Tp.
  - exists l2'. split; [right; exact W'|]. rewrite (Inserted_perm _ _ _ (InsAt_ins _ _ _ _ IN)), P2, app_assoc. apply Permutation_cons_append.
  - rewrite X3. exact To.
  - intros r. destruct (Nat.eq_dec r q) as [->|Nr]; [|rewrite X4 by exact Nr; apply Tk]. rewrite X5. specialize (Tk q). unfold KeysOk in *.
    assert (forall y, In y (chainat nb q) -> keq (f_pid t0) x y = true -> In y done) as ED.
    { intros y Iy Ek. apply (eq_in_done p done x rest y Tp); [|exact Ek]. apply (Permutation_in _ P2). apply (bok_in nb l2 q y B2 Iy). }
    pose proof (ci_keys c _ _ (ti_c _ _ _ H0) p) as Kp. rewrite Tp in Kp. unfold KeysOk in Kp. destruct (multi c).
    + apply grouped_cons; [exact Eq|exact Et|exact Tk|]. intros (y & Iy & Ek). pose proof (ED y Iy Ek) as Iyd.
      (* the last transferred node is equivalent and at the front of its bucket *)
      destruct (@exists_last _ done) as (d & z & Ed); [intros ->; destruct Iyd|]. destruct (Thd d z Ed) as (qz & rz & Ez).
      assert (keq (f_pid t0) x z = true) as Exz.
      { rewrite Ed in Iyd. apply in_app_or in Iyd as [Iyd|[->|[]]]; [|exact Ek]. apply in_split in Iyd as (d1 & d2 & ->). rewrite Ed in Kp.
        assert (Forall (fun w => keq (f_pid t0) y w = true) (d2 ++ [z])) as F.
        { apply (Kp d1 y (d2 ++ [z]) x rest); [rewrite <- !app_assoc; cbn [app]; rewrite <- ?app_assoc; reflexivity|]. rewrite Eq. exact Ek. }
        rewrite Forall_forall in F. apply (Et _ y); [exact Ek|]. apply F. apply in_or_app. right. left. reflexivity. }
      assert (qz = q) as ->.
      { assert (In z (chainat nb qz)) as Iz by (rewrite Ez; left; reflexivity). pose proof (Tpl qz z Iz) as PZ. rewrite (same_pos c t0 l0 (nkey x) z (ti_c _ _ _ H0) Exz), Pq in PZ. injection PZ as PZ. lia. }
      exists z, rz. auto.
    + constructor; [|exact Tk]. apply Forall_forall. intros y Iy. destruct (keq (f_pid t0) x y) eqn:Ek; [|reflexivity]. exfalso. pose proof (ED y Iy Ek) as Iyd.
      apply in_split in Iyd as (d1 & d2 & Ed). rewrite Ed in Kp. clear - Kp Ek Eq. rewrite <- app_assoc in Kp. induction d1 as [|a d1 IH]; cbn [app] in Kp; inversion Kp; subst.
      * rewrite Forall_forall in H1. assert (In x (d2 ++ x :: rest)) as I by apply in_elt. specialize (H1 x I). rewrite Eq in H1. congruence.
      * apply IH. assumption.
  - intros r y Iy. rewrite X1. destruct (Nat.eq_dec r q) as [->|Nr]; [|rewrite X4 in Iy by exact Nr; apply Tpl; exact Iy]. rewrite X5 in Iy. destruct Iy as [<-|Iy]; [exact Pq|apply Tpl; exact Iy].
  - intros d z Ed. apply app_inj_tail in Ed as [_ <-]. exists q, (chainat nb q). exact X5.
  - rewrite X2. exact Tps.
Qed.

Lemma TR_next p s : p < b_size b0 -> TR p (chainat b0 p) [] s -> TR (S p) [] (chainat b0 (S p)) s.
Proof.
  intros Lp [Th (b & Tt & Wb & Sb & Ib & Ob & Cb) Tp (l2 & B2 & P2) To Tk Tpl Thd Tps]. constructor; auto.
  - exists b. do 5 (split; [assumption|]). intros q. rewrite Cb. destruct (Nat.ltb_spec q p), (Nat.ltb_spec q (S p)), (Nat.eqb_spec q p), (Nat.eqb_spec q (S p)); try reflexivity; try lia; subst; reflexivity.
  - exists l2. split; [exact B2|]. rewrite P2. unfold prevs. rewrite app_nil_r, seq_S, flat_map_app. cbn [flat_map Nat.add]. rewrite app_nil_r. reflexivity.
  - intros d z E. destruct d; discriminate.
Qed.
Lemma transfer_all_ok : forall k p s n, p + k = b_size b0 -> TR p [] (chainat b0 p) s ->
  outcome (transfer_all c (seq p k) s n) (fun _ s' => TR (b_size b0) [] [] s')
    (fun kd s' => kd = KHash /\ raised kd /\ exists p' done' x rest', p' < b_size b0 /\ TR p' done' (x :: rest') s').
Proof.
  induction k as [|k IH]; intros p s n E T.
  - cbn. rewrite Nat.add_0_r in E. rewrite E in T. rewrite (wb_last _ _ _ W0) in T. exact T.
  - cbn [seq transfer_all]. rewrite bind_get. destruct (tr_t _ _ _ _ T) as (b & Tt & Wb & Sb & Ib & Ob & Cb). rewrite Tt. cbn [set_b f_b].
    assert (nth_error (b_chains b) p = Some (chainat b0 p)) as ->.
    { pose proof (chain_at b _ o0 p None Wb ltac:(lia)) as X. unfold chain in X. cbn [bi_p] in X. rewrite X, Cb, Nat.ltb_irrefl, Nat.eqb_refl. reflexivity. }
    cbn [of_option]. rewrite bind_ret. eapply outcome_bind.
    + eapply outcome_weaken; [apply (transfer_chain_ok p ltac:(lia) (chainat b0 p) [] s n T)|intros a s' X; exact X|]. intros kd s' (A & B & d & x & r & X). split; [exact A|]. split; [exact B|].
      exists p, d, x, r. split; [lia|exact X].
    + cbn beta. intros _ s' n' T'. cbn [app] in T'. apply (IH (S p)); [lia|]. apply TR_next; [lia|exact T'].
Qed.
Lemma TR_start nb : BOk nb [] -> b_own nb = f_al t0 -> (forall q, chainat nb q = []) -> b_size nb = sz0 -> TR 0 [] (chainat b0 0) ((t0, h0), nb).
Proof.
  intros B O C P. constructor; cbn [fst snd]; auto.
  - exists b0. split; [destruct t0; reflexivity|]. split; [exact W0|]. do 3 (split; [reflexivity|]). intros q. cbn. destruct (Nat.eqb_spec q 0) as [->|]; reflexivity.
  - exists []. split; [exact B|]. constructor.
  - intros q. rewrite C. apply keysok_nil.
  - intros q x. rewrite C. intros [].
  - intros d z E. destruct d; discriminate.
Qed.
(** what is left in the old array *)
Lemma TR_left p done rest s : p <= b_size b0 -> TR p done rest s -> exists b l', fst (fst s) = set_b b t0 /\ WB b (ne b0) o0 /\ l' = seqn b (ne b0) o0 /\ Permutation l0 ((prevs p ++ done) ++ l').
Proof.
  intros Lp [Th (b & Tt & Wb & Sb & Ib & Ob & Cb) Tp _ _ _ _ _ _]. exists b, (seqn b (ne b0) o0). split; [exact Tt|]. split; [exact Wb|]. split; [reflexivity|].
  rewrite (seqn_perm b _ o0 Wb), Sb, L0, (seqn_perm b0 _ o0 W0). unfold prevs. replace (b_size b0) with (p + (b_size b0 - p)) by lia. rewrite seq_app, !flat_map_app. cbn [Nat.add].
  assert (flat_map (chainat b) (seq 0 p) = []) as ->.
  { apply flat_map_nil. intros q I. apply in_seq in I. rewrite Cb. assert (q < p) as L by lia. apply Nat.ltb_lt in L. rewrite L. reflexivity. }
  cbn [app]. rewrite <- app_assoc. apply Permutation_app_head. destruct (b_size b0 - p) as [|k] eqn:Ek.
  - cbn [seq flat_map]. assert (p = b_size b0) as -> by lia. rewrite (wb_last _ _ _ W0) in Tp. destruct done; [constructor|discriminate].
  - cbn [seq flat_map]. rewrite Tp, Cb, Nat.ltb_irrefl, Nat.eqb_refl, <- app_assoc. do 2 apply Permutation_app_head.
    rewrite (flat_map_ext_in (chainat b) (chainat b0)); [reflexivity|]. intros q I. apply in_seq in I. rewrite Cb. destruct (Nat.ltb_spec q p); [lia|]. destruct (Nat.eqb_spec q p); [lia|reflexivity].
Qed.
End Transfer.

(** *** the catch clause *)
Lemma delete_list_ok : forall l t h m n, Forall (fun x => nd_al x = f_al t) l -> length l <= live h -> f_size t = N.of_nat (m + length l) -> (f_size t < 2 ^ 64)%N ->
  delete_list l (t, h) n = Ret tt (set_size (N.of_nat m) t, Hp (live h - length l) (next h)) n.
Proof.
  induction l as [|x l IH]; intros t h m n F L Sz Lt; cbn [delete_list length] in *.
  - unfold ret. rewrite Nat.add_0_r in Sz. rewrite <- Sz, Nat.sub_0_r. destruct t, h; reflexivity.
  - inversion F as [|? ? Fx Fl]. subst. unfold bind at 1. rewrite delete_node_ok by (auto; lia). unfold mod_t. rewrite bind_modify. cbn [fst snd].
    rewrite <- plus_n_Sm in Sz. assert (usub (f_size t) 1 = N.of_nat (m + length l)) as U by (rewrite Sz in *; apply usub_1; exact Lt).
    rewrite (IH _ _ m); cbn [dec_size set_size f_al f_size live next]; auto; try lia. f_equal. f_equal. f_equal. lia.
Qed.
Lemma delete_transferred_ok P o : forall L dn nb t h m n fuel p r, L = p :: r -> WB nb P o -> bseq (b_size nb) P o = dn ++ L -> (forall q, In q dn -> chainat nb q = []) ->
  length L <= fuel -> Forall (fun x => nd_al x = f_al t) (flat_map (chainat nb) L) -> length (flat_map (chainat nb) L) <= live h -> f_size t = N.of_nat (m + length (flat_map (chainat nb) L)) -> (f_size t < 2 ^ 64)%N ->
  exists nb', delete_transferred fuel (BI p (Some (p / 64))) ((t, h), nb) n = Ret tt ((set_size (N.of_nat m) t, Hp (live h - length (flat_map (chainat nb) L)) (next h)), nb') n /\
    WB nb' P o /\ seqn nb' P o = [] /\ b_own nb' = b_own nb /\ b_size nb' = b_size nb.
Proof.
  induction L as [|p0 L IH]; intros dn nb t h m n fuel p r EL W EB D F Fa Lv Sz Lt; [discriminate|]. assert (p0 = p) as -> by congruence. assert (L = r) as -> by congruence. clear EL.
  destruct fuel as [|fuel]; [cbn in F; lia|]. cbn [delete_transferred]. rewrite bind_get. cbn [fst snd]. unfold bi_eqb, b_end. cbn [bi_p].
  pose proof (bseq_nodup _ _ _ _ (wb_links _ _ _ W)) as Nd. destruct (bseq_last _ _ _ _ (wb_links _ _ _ W)) as (bl & Ebl & _).
  destruct r as [|q r].
  - assert (p = b_size nb) as -> by (rewrite EB in Ebl; apply app_inj_tail in Ebl; apply Ebl). rewrite Nat.eqb_refl. cbn [flat_map] in *. rewrite (wb_last _ _ _ W) in *. cbn [app length] in *. rewrite Nat.add_0_r in Sz. exists nb.
    split; [unfold ret; rewrite <- Sz, Nat.sub_0_r; destruct t, h; reflexivity|]. split; [exact W|]. split; [|auto]. unfold seqn. rewrite EB. apply flat_map_nil. intros q I. apply in_app_or in I as [I|[<-|[]]]; [apply D; exact I|apply (wb_last _ _ _ W)].
  - assert (In p (bseq (b_size nb) P o)) as Ip by (rewrite EB; apply in_elt). assert (p <> b_size nb) as Np.
    { intros ->. rewrite EB in Nd, Ebl. assert (exists l', q :: r = l' ++ [b_size nb]) as (l' & El).
      { destruct (@exists_last _ (q :: r)) as (l' & z & El); [discriminate|]. exists l'. rewrite El in *. assert (dn ++ b_size nb :: l' ++ [z] = (dn ++ b_size nb :: l') ++ [z]) as R by (rewrite <- app_assoc; reflexivity). rewrite R in Ebl. apply app_inj_tail in Ebl as [_ ->]. reflexivity. }
      rewrite El in Nd. apply NoDup_remove_2 in Nd. apply Nd. apply in_or_app. right. apply in_elt. }
    destruct (Nat.eqb_spec p (b_size nb)) as [X|_]; [contradiction|].
    assert (p < b_size nb) as Lp. { apply (in_bseq _ _ _ _ (wb_links _ _ _ W)) in Ip. unfold marked in Ip. apply orb_true_iff in Ip as [M|M]; [apply andb_true_iff in M as [_ M]; apply Nat.ltb_lt in M; exact M|apply Nat.eqb_eq in M; contradiction]. }
    rewrite (chain_at nb P o) by (try exact W; lia). cbn [of_option]. rewrite bind_ret. cbn [flat_map] in Fa, Lv, Sz. change (chainat nb q ++ flat_map (chainat nb) r) with (flat_map (chainat nb) (q :: r)) in Fa, Lv, Sz.
    apply Forall_app in Fa as [Fp Fr]. rewrite app_length in Lv, Sz.
    unfold bind at 1. unfold on_st at 1, lens. cbn [fst snd]. rewrite (delete_list_ok _ t h (m + length (flat_map (chainat nb) (q :: r)))) by (auto; lia). cbn [fst snd].
    rewrite (set_chain_at nb P o) by (try exact W; lia). cbn [of_option]. rewrite bind_ret, bind_modify. cbn [fst snd].
    change (b_groups (setc nb p [])) with (b_groups nb).
    rewrite (increment_seq _ _ _ _ (wb_links _ _ _ W) (b_size nb :: dn) p q r) by (cbn [app]; rewrite EB; reflexivity). cbn [of_option]. rewrite bind_ret.
    assert (WB (setc nb p []) P o) as W2 by (apply WB_setc; [exact W|exact Lp|contradiction]).
    assert (~ In p (q :: r)) as Ni by (rewrite EB in Nd; apply NoDup_remove_2 in Nd; intros I; apply Nd; apply in_or_app; right; exact I).
    assert (flat_map (chainat (setc nb p [])) (q :: r) = flat_map (chainat nb) (q :: r)) as FE.
    { apply flat_map_ext_in. intros i I. rewrite (chainat_setc nb P o) by (try exact W; lia). destruct (Nat.eqb_spec i p) as [->|]; [contradiction|reflexivity]. }
    destruct (IH (dn ++ [p]) (setc nb p []) (set_size (N.of_nat (m + length (flat_map (chainat nb) (q :: r)))) t) (Hp (live h - length (chainat nb p)) (next h)) m n fuel q r) as (nb' & E & W' & S' & O' & Z'); auto.
    + cbn [setc b_size]. rewrite <- app_assoc. exact EB.
    + intros i I. rewrite (chainat_setc nb P o) by (try exact W; lia). destruct (Nat.eqb_spec i p) as [->|Nq]; [reflexivity|]. apply in_app_or in I as [I|[<-|[]]]; [apply D; exact I|contradiction].
    + cbn [length] in *. lia.
    + rewrite FE. exact Fr.
    + rewrite FE. cbn [live]. lia.
    + rewrite FE. reflexivity.
    + cbn [set_size f_size]. lia.
    + exists nb'. split; [|auto]. rewrite E, FE. cbn [live next set_size f_hid f_pid f_al f_size f_mlf f_ml f_b].
      change (flat_map (chainat nb) (p :: q :: r)) with (chainat nb p ++ flat_map (chainat nb) (q :: r)). rewrite app_length, <- Nat.sub_add_distr. reflexivity.
Qed.
Lemma chains_nil b P o : WB b P o -> seqn b P o = [] -> forallb is_nil (b_chains b) = true.
Proof.
  intros W E. apply forallb_forall. intros ch I. apply In_nth_error in I as (q & I). assert (chainat b q = ch) as <- by (unfold chainat; apply nth_error_nth; exact I).
  destruct (chainat b q) as [|y r] eqn:C; [reflexivity|]. exfalso. assert (In y (seqn b P o)) as X by (apply in_seqn; [exact W|]; exists q; rewrite C; left; reflexivity). rewrite E in X. destruct X.
Qed.
Lemma b_dealloc_ok b P o : WB b P o -> seqn b P o = [] -> b_dealloc (b_own b) b = Some tt.
Proof. intros W E. unfold b_dealloc. destruct (b_size b =? 0); [reflexivity|]. rewrite N.eqb_refl, (chains_nil b P o W E). reflexivity. Qed.
Lemma b_unlink_empty_ok b P o : WB b P o -> exists gs' o', b_unlink_empty b = Some (set_groups b gs') /\ WB (set_groups b gs') (ne b) o' /\ seqn b (ne b) o' = seqn b P o.
Proof.
  intros W. unfold b_unlink_empty.
  destruct (unlink_empty_buckets_ok (b_size b) (fun i => option_map (fun l => negb (is_nil l)) (nth_error (b_chains b) i)) P (ne b) (b_groups b) o) as (gs' & o' & E & LI & SH).
  - intros i L. unfold ne. pose proof (chain_at b P o i None W ltac:(lia)) as X. unfold chain in X. cbn [bi_p] in X. rewrite X. reflexivity.
  - apply (wb_ne _ _ _ W).
  - apply (wb_links _ _ _ W).
  - rewrite E. cbn [bindo]. exists gs', o'. split; [reflexivity|]. split; [apply (WB_groups b P (ne b) o' gs') with (o := o); auto|].
    assert (forall i, marked (b_size b) (ne b) i = true -> marked (b_size b) P i = true) as MM.
    { intros i. unfold marked. destruct (Nat.ltb_spec i (b_size b)) as [L|L]; [|rewrite !andb_false_r; auto]. pose proof (wb_ne _ _ _ W i L) as X. destruct (ne b i); [rewrite X by reflexivity; reflexivity|]. cbn [andb orb]. intros ->. apply orb_true_r. }
    apply seqn_marks; [exact MM|apply bseq_shrunk; assumption| |intros i I; apply (in_bseq _ _ _ _ (wb_links _ _ _ W)) in I; exact I].
    intros i M1 M2. unfold marked in M1, M2. apply orb_false_iff in M2 as [M2 M3]. rewrite M3, orb_false_r in M1. apply andb_true_iff in M1 as [_ Li]. rewrite Li, andb_true_r in M2. unfold ne in M2. destruct (chainat b i); [reflexivity|discriminate].
Qed.
Lemma grouped_seg p (l1 l2 l3 : list node) : Grouped c p (l1 ++ l2 ++ l3) -> Grouped c p l2.
Proof. intros G m1 x m2 y m3 E Ek. apply (G (l1 ++ m1) x m2 y (m3 ++ l3)); [|exact Ek]. rewrite E, <- !app_assoc. cbn [app]. rewrite <- !app_assoc. reflexivity. Qed.
Lemma uniq_app p (l1 l2 : list node) : Uniq c p (l1 ++ l2) <-> Uniq c p l1 /\ Uniq c p l2 /\ forall x y, In x l1 -> In y l2 -> keq p x y = false.
Proof.
  induction l1 as [|a l1 IH]; cbn [app].
  - split; [intros H; split; [constructor|split; [exact H|intros x y []]]|intros (_ & H & _); exact H].
  - split.
    + intros H. inversion H as [|? ? Fa Hl]. subst. apply IH in Hl as (A & B & C). rewrite Forall_app in Fa. destruct Fa as [F1 F2]. split; [constructor; assumption|]. split; [exact B|].
      intros x y [<-|I] J; [rewrite Forall_forall in F2; apply F2; exact J|apply C; assumption].
    + intros (A & B & C). inversion A as [|? ? Fa Hl]. subst. constructor; [apply Forall_app; split; [exact Fa|]|].
      * apply Forall_forall. intros y J. apply C; [left; reflexivity|exact J].
      * apply IH. split; [exact Hl|]. split; [exact B|]. intros x y I J. apply C; [right; exact I|exact J].
Qed.
Lemma keysok_seg p (l1 l2 l3 : list node) : KeysOk c p (l1 ++ l2 ++ l3) -> KeysOk c p l2.
Proof. unfold KeysOk. destruct (multi c); [apply grouped_seg|]. intros H. apply uniq_app in H as (_ & H & _). apply uniq_app in H as (H & _). exact H. Qed.

(** *** rehash_impl *)
Definition SameT (t t' : table) : Prop := f_hid t' = f_hid t /\ f_pid t' = f_pid t /\ f_al t' = f_al t /\ f_mlf t' = f_mlf t.
Lemma SameT_refl t : SameT t t. Proof. repeat split. Qed.
(** exceptions of rehashing: the allocation failed and nothing happened, or the hash function threw and the elements transferred so far are gone *)
Definition RehashExn (t : table) (h : heap) (l : list node) (kd : kind) (s' : St) : Prop :=
  raised kd /\ ((kd = KAlloc /\ s' = (t, h)) \/
    (kd = KHash /\ exists t' l' lost, s' = (t', Hp (live h - length lost) (next h)) /\ TInv t' l' /\ Permutation l (lost ++ l') /\ SameT t t' /\ f_ml t' = f_ml t /\ bucket_count (f_b t') = bucket_count (f_b t))).
Lemma rehash_impl_ok t h l n m : TInv t l -> length l <= live h -> (l <> [] -> n <> 0%N) ->
  outcome (rehash_impl c n (t, h) m)
    (fun _ s' => exists t' l', s' = (t', h) /\ TInv t' l' /\ Permutation l l' /\ bucket_count_for n = Some (bucket_count (f_b t')) /\ SameT t t' /\ f_ml t' = max_load_for (f_mlf t) (bucket_count (f_b t')))
    (RehashExn t h l).
Proof.
  intros H Lv Nz. unfold rehash_impl, get_t. rewrite bind_bind, bind_get, bind_ret. cbn [fst].
  eapply outcome_bind; [eapply outcome_weaken; [apply new_barray_ok|intros a s' X; exact X|]|].
  { intros kd s' (-> & R & ->). split; [exact R|]. left. auto. }
  cbn beta. intros nb s' n1 (-> & Onb & Bnb & BC & Nnull & Nsz & Cnb).
  assert (l <> [] -> 0 < b_size nb) as Ps by (intros X; apply Nsz, Nz, X).
  destruct (ci_b _ _ _ (ti_c _ _ _ H)) as [[B0 El]|(o0 & W0 & El)].
  - (* no bucket array: nothing to transfer *)
    subst l. assert (b_size (f_b t) = 0) as Z by (rewrite B0; reflexivity). rewrite Z. cbn [seq transfer_all]. unfold bind at 1, on_exn. cbn [ret]. rewrite bind_get. cbn [fst snd].
    unfold b_dealloc. rewrite Z. cbn [Nat.eqb of_option]. rewrite bind_ret. cbn [modify fst snd outcome].
    exists (recalc (set_b nb t)), []. split; [reflexivity|]. split; [|split; [constructor|split; [exact BC|split; [repeat split|reflexivity]]]].
    destruct H as [[C1 C2 C3 C4 C5 C6 C7 C8 C9] Sz Rm]. constructor; [|exact Sz|exact Rm]. constructor; cbn [recalc set_b set_ml f_b f_al f_pid f_hid f_ml f_mlf]; auto.
    + intros q. rewrite Cnb. apply keysok_nil.
    + intros q x. rewrite Cnb. intros [].
    + intros E. unfold bucket_count. rewrite E. reflexivity.
  - pose proof (transfer_all_ok t l h o0 (b_size nb) H W0 El Ps (b_size (f_b t)) 0 ((t, h), nb) n1 ltac:(lia) (TR_start t l h o0 (b_size nb) H W0 El nb Bnb Onb Cnb eq_refl)) as TA.
    unfold bind at 1, on_exn. destruct (transfer_all c (seq 0 (b_size (f_b t))) (t, h, nb) n1) as [[] s1 n2|kd s1 n2|]; [| |destruct TA]; cbn [outcome] in TA.
    + (* success *)
      destruct (TR_left t l h o0 (b_size nb) W0 El Ps _ [] [] s1 (le_n _) TA) as (b & l' & Tb & Wb & El' & Pm).
      assert (l' = []) as ->.
      { destruct (tr_t _ _ _ _ _ _ _ _ TA) as (b' & Tt' & _ & Sb & _ & _ & Cb). assert (b' = b) as -> by (rewrite Tb in Tt'; apply (f_equal f_b) in Tt'; cbn in Tt'; congruence). rewrite El'. unfold seqn. apply flat_map_nil. intros q I.
        apply (in_bseq _ _ _ _ (wb_links _ _ _ Wb)) in I. rewrite Cb. destruct (Nat.ltb_spec q (b_size (f_b t))) as [|L]; [reflexivity|]. destruct (Nat.eqb_spec q (b_size (f_b t))) as [|Nq]; [reflexivity|].
        unfold marked in I. rewrite Sb in I. assert ((q <? b_size (f_b t)) = false) as X by (apply Nat.ltb_ge; exact L). apply Nat.eqb_neq in Nq. rewrite X, Nq, andb_false_r in I. discriminate. }
      rewrite !app_nil_r in Pm. destruct (tr_nb _ _ _ _ _ _ _ _ TA) as (l2 & B2 & P2). rewrite app_nil_r in P2. rewrite <- Pm in P2.
      rewrite bind_get. destruct s1 as [[t1 h1] nb1]. cbn [fst snd] in *. subst t1. cbn [set_b f_b].
      assert (b_own b = f_al t) as Ob. { destruct (tr_t _ _ _ _ _ _ _ _ TA) as (b' & Tt' & _ & _ & _ & Ob & _). cbn [fst snd] in Tt'. apply (f_equal f_b) in Tt'. cbn in Tt'. rewrite Tt', Ob. apply (ci_own _ _ _ (ti_c _ _ _ H)). }
      rewrite <- Ob, (b_dealloc_ok b _ o0 Wb) by (symmetry; exact El'). cbn [of_option]. rewrite bind_ret. cbn [modify fst snd outcome].
      pose proof (tr_h _ _ _ _ _ _ _ _ TA) as Th. cbn [fst snd] in Th. subst h1.
      assert (bucket_count nb1 = bucket_count nb) as BCE by (pose proof (tr_pos _ _ _ _ _ _ _ _ TA) as X; cbn [snd] in X; unfold bucket_count; rewrite X; reflexivity).
      exists (recalc (set_b nb1 (set_b b t))), l2. split; [reflexivity|]. split; [|split; [symmetry; exact P2|split; [cbn [recalc set_ml set_b f_b]; rewrite BCE; exact BC|split; [repeat split|reflexivity]]]].
      assert (length l2 = length l) as Le by (apply Permutation_length; exact P2).
      destruct H as [[C1 C2 C3 C4 C5 C6 C7 C8 C9] Sz Rm]. destruct TA as [_ _ _ _ To Tk Tpl _ _]. cbn [fst snd] in *.
      constructor; [|cbn [recalc set_ml set_b f_size]; rewrite Le; exact Sz|rewrite Le; exact Rm]. constructor; cbn [recalc set_b set_ml f_b f_al f_pid f_hid f_ml f_mlf]; auto.
      * rewrite P2. exact C3.
      * rewrite P2. exact C4.
      * intros E. unfold bucket_count. rewrite E. reflexivity.
    + (* the hash function threw *)
      destruct TA as (-> & R & p & dn & x & rest & Lp & T).
      destruct (TR_left t l h o0 (b_size nb) W0 El Ps p dn _ s1 ltac:(lia) T) as (b & l' & Tb & Wb & El' & Pm).
      destruct T as [Th (b' & Tt' & _ & Sb & Ib & Ob & Cb) Tp (l2 & B2 & P2) To Tk Tpl _ Tps]. destruct s1 as [[t1 h1] nb1]. cbn [fst snd] in *.
      assert (b' = b) as -> by (rewrite Tb in Tt'; apply (f_equal f_b) in Tt'; cbn in Tt'; congruence). clear Tt'. subst t1 h1.
      assert (In x l) as Ixl by (apply (in_CInv c t l x p); [apply H|]; rewrite Tp; apply in_elt).
      assert (Wf nb1 l2) as W2 by (apply (BOk_pos _ _ B2); rewrite Tps; apply Ps; intros ->; destruct Ixl).
      destruct W2 as (o2 & W2 & El2). destruct (e_begin_ok nb1 o2 W2) as (q & l3 & Eb & EB & _). rewrite bind_get. cbn [fst snd]. rewrite EB. cbn [of_option]. rewrite bind_ret.
      pose proof (Permutation_length Pm) as LP. rewrite app_length in LP. pose proof (Permutation_length P2) as LP2.
      pose proof (max_elems_lt) as ME. destruct H as [[C1 C2 C3 C4 C5 C6 C7 C8 C9] Sz Rm].
      destruct (delete_transferred_ok (ne nb1) o2 (bseq (b_size nb1) (ne nb1) o2) [] nb1 (set_b b t) h (length l') n2 (S (b_size nb1)) q l3) as (nb2 & ED & W3 & S3 & O3 & Z3); auto.
      * intros q' [].
      * rewrite <- (seq_length (S (b_size nb1)) 0). apply NoDup_incl_length; [apply (bseq_nodup _ _ _ _ (wb_links _ _ _ W2))|]. intros i I. apply (in_bseq _ _ _ _ (wb_links _ _ _ W2)) in I. apply in_seq. unfold marked in I.
        apply orb_true_iff in I as [M|M]; [apply andb_true_iff in M as [_ M]; apply Nat.ltb_lt in M; lia|apply Nat.eqb_eq in M; lia].
      * change (flat_map (chainat nb1) (bseq (b_size nb1) (ne nb1) o2)) with (seqn nb1 (ne nb1) o2). rewrite <- El2, P2. rewrite Pm in C3. apply Forall_app in C3. apply C3.
      * change (flat_map (chainat nb1) (bseq (b_size nb1) (ne nb1) o2)) with (seqn nb1 (ne nb1) o2). rewrite <- El2. lia.
      * change (flat_map (chainat nb1) (bseq (b_size nb1) (ne nb1) o2)) with (seqn nb1 (ne nb1) o2). rewrite <- El2. cbn [set_b f_size]. lia.
      * cbn [set_b f_size]. lia.
      * change (flat_map (chainat nb1) (bseq (b_size nb1) (ne nb1) o2)) with (seqn nb1 (ne nb1) o2) in ED. rewrite <- El2 in ED. unfold bind at 1. rewrite ED. cbn [fst snd].
        destruct (b_unlink_empty_ok b _ o0 Wb) as (gs' & o' & EU & WU & SU).
        unfold bind at 1. unfold on_st at 1, lens, on_b, get_t. cbn [fst snd]. rewrite bind_bind, bind_get, bind_ret. cbn [fst snd set_size set_b f_b]. rewrite EU. cbn [of_option]. rewrite bind_ret. unfold mod_t, modify. cbn [fst snd].
        rewrite bind_get. cbn [fst snd]. assert (b_own nb2 = f_al t) as O2 by congruence. rewrite <- O2 at 1. rewrite (b_dealloc_ok nb2 _ o2 W3 S3). cbn [of_option]. rewrite bind_ret. cbn [ret outcome fst snd].
        split; [exact R|]. right. split; [reflexivity|].
        exists (set_b (set_groups b gs') (set_size (N.of_nat (length l')) (set_b b t))), l', (prevs t p ++ dn).
        rewrite LP2. split; [reflexivity|]. split; [|split; [exact Pm|split; [repeat split|split; [reflexivity|]]]]; [|unfold bucket_count; cbn [set_b set_groups set_size f_b b_size]; rewrite Sb; reflexivity].
        constructor; [|reflexivity|lia]. constructor; cbn [set_b set_size f_b f_al f_pid f_hid f_ml f_mlf set_groups b_own b_size b_idx]; auto.
        -- right. exists o'. split; [exact WU|]. rewrite El'. symmetry. exact SU.
        -- congruence.
        -- rewrite Pm in C3. apply Forall_app in C3. apply C3.
        -- apply (Permutation_NoDup (Permutation_map nd_id Pm)) in C4. rewrite map_app in C4. clear - C4. induction (map nd_id (prevs t p ++ dn)) as [|a r IH]; [exact C4|]. inversion C4. auto.
        -- intros r. change (chainat (set_groups b gs') r) with (chainat b r). rewrite Cb. destruct (r <? p); [apply keysok_nil|]. destruct (Nat.eqb_spec r p) as [->|]; [|apply C5].
           specialize (C5 p). rewrite Tp in C5. apply (keysok_seg _ dn _ []). rewrite app_nil_r. exact C5.
        -- intros r y. change (chainat (set_groups b gs') r) with (chainat b r). rewrite Cb, Ib. destruct (r <? p); [intros []|]. destruct (Nat.eqb_spec r p) as [->|]; [|apply C6].
           intros I. apply C6. rewrite Tp. apply in_or_app. right. exact I.
        -- rewrite Sb. exact C7.
Qed.

(** *** rehash, reserve and reserve_for_insert *)
Lemma fca_size_in i s0 : fca_size i = Some s0 -> In s0 sizes.
Proof. intros E. unfold fca_size in E. apply nth_error_In in E. exact E. Qed.
Lemma sizes_fix s0 : In s0 sizes -> bucket_count_for s0 = Some s0 /\ (s0 <= 1649267441651)%N.
Proof.
  intros I. assert (forallb (fun s => match bucket_count_for s with Some s' => (s' =? s)%N && (s <=? 1649267441651)%N | None => false end) sizes = true) as F by (vm_compute; reflexivity).
  rewrite forallb_forall in F. specialize (F s0 I). destruct (bucket_count_for s0) as [s'|]; [|discriminate]. apply andb_true_iff in F as [F1 F2]. apply N.eqb_eq in F1. apply N.leb_le in F2. subst s'. auto.
Qed.
Lemma bcf_in n s0 : bucket_count_for n = Some s0 -> s0 = 0%N \/ In s0 sizes.
Proof. unfold bucket_count_for. destruct (N.eqb n 0); [intros [= <-]; left; reflexivity|]. intros E. right. apply (fca_size_in _ _ E). Qed.
Lemma bcf_fix n s0 : bucket_count_for n = Some s0 -> bucket_count_for s0 = Some s0 /\ (s0 <= 1649267441651)%N.
Proof. intros E. destruct (bcf_in _ _ E) as [->|I]; [split; [reflexivity|lia]|apply sizes_fix; exact I]. Qed.
Lemma bc_bound b l : BOk b l -> (bucket_count b <= 1649267441651)%N.
Proof.
  intros [[B _]|(o & W & _)]; [rewrite B; cbn; lia|]. unfold bucket_count. apply (sizes_fix _ (fca_size_in _ _ (wb_size _ _ _ W))).
Qed.
Lemma min_buckets_pos n mlf : (0 < n)%N -> (0 < min_buckets n mlf)%N.
Proof. intros L. unfold min_buckets. destruct (N.eqb_spec (match ceil_div n mlf with Some q => to_size q 0 | None => size_max end) 0) as [E|E]; cbn [andb]; [|lia]. apply N.ltb_lt in L. rewrite L. lia. Qed.

(** what may happen to the maximum load *)
Definition MLstep (t t' : table) : Prop := (f_ml t' = f_ml t /\ bucket_count (f_b t') = bucket_count (f_b t)) \/ f_ml t' = max_load_for (f_mlf t') (bucket_count (f_b t')).
Lemma MLstep_refl t : MLstep t t. Proof. left. auto. Qed.
Lemma MLstep_trans t1 t2 t3 : MLstep t1 t2 -> MLstep t2 t3 -> f_mlf t3 = f_mlf t2 -> MLstep t1 t3.
Proof. intros [[A B]|A] [[C D]|C] E; unfold MLstep; try (right; congruence). left. split; congruence. Qed.

(** enough buckets for n elements, unless more would be needed than the largest bucket count *)
Definition Enough (n : N) (mlf : option Z) (bc : N) : Prop := (min_buckets n mlf <= 1649267441651)%N -> (min_buckets n mlf <= bc)%N.
Lemma size_index_big l : forall i n, l <> [] -> Forall (fun e => (e < n)%N) l -> nth_error l (size_index_from l i n - i) = Some (last l 0%N).
Proof.
  induction l as [|e l IH]; intros i n N0 F; [contradiction|]. inversion F as [|? ? F1 F2]; subst. destruct l as [|e2 l].
  - cbn [size_index_from last]. rewrite Nat.sub_diag. reflexivity.
  - change (size_index_from (e :: e2 :: l) i n) with (if (n <=? e)%N then i else size_index_from (e2 :: l) (S i) n). destruct (N.leb_spec n e) as [L|_]; [lia|].
    destruct (size_index_from_spec (e2 :: l) (S i) n ltac:(discriminate)) as (_ & _ & Li & _). specialize (IH (S i) n ltac:(discriminate) F2). set (r := size_index_from (e2 :: l) (S i) n) in *.
    replace (r - i) with (S (r - S i)) by lia. cbn [nth_error]. rewrite IH. reflexivity.
Qed.
Lemma sizes_le : Forall (fun e => (e <= 1649267441651)%N) sizes.
Proof. apply Forall_forall. intros s0 I. apply (sizes_fix s0 I). Qed.
Lemma bcf_ge n m s : bucket_count_for m = Some s -> (n <= m)%N -> (n <= 1649267441651)%N -> (n <= s)%N.
Proof.
  intros E L B. destruct (bcf_ok m) as (s' & E' & _ & _ & H). assert (s' = s) as -> by congruence. destruct (N.le_gt_cases m 1649267441651) as [X|X]; [specialize (H X); lia|].
  unfold bucket_count_for in E. destruct (N.eqb_spec m 0); [lia|]. unfold fca_size, fca_size_index in E. pose proof (size_index_big sizes 0 m ltac:(discriminate)) as Y. rewrite Nat.sub_0_r in Y. rewrite Y in E.
  - assert (last sizes 0%N = s) as <- by congruence. change (last sizes 0%N) with 1649267441651%N. exact B.
  - eapply Forall_impl; [|exact sizes_le]. cbn beta. intros e He. lia.
Qed.

(** success of an operation that only moves nodes between buckets *)
Definition Rehashed (t : table) (h : heap) (l : list node) (s' : St) : Prop :=
  exists t' l', s' = (t', h) /\ TInv t' l' /\ Permutation l l' /\ SameT t t' /\ MLstep t t'.
Lemma rehash_ok t h l n m : TInv t l -> length l <= live h ->
  outcome (rehash c n (t, h) m)
    (fun _ s' => Rehashed t h l s' /\ bucket_count_for (N.max (min_buckets (f_size t) (f_mlf t)) n) = Some (bucket_count (f_b (fst s'))))
    (RehashExn t h l).
Proof.
  intros H Lv. unfold rehash, get_t. rewrite bind_bind, bind_get, bind_ret. cbn [fst].
  destruct (bcf_ok (N.max (min_buckets (f_size t) (f_mlf t)) n)) as (sz & E & Z0 & Z1 & Z2). rewrite E. cbn [of_option]. rewrite bind_ret. destruct (N.eqb_spec sz (bucket_count (f_b t))) as [X|X]; cbn [negb].
  - cbn [outcome ret fst]. split; [|congruence]. exists t, l. split; [reflexivity|]. split; [exact H|]. split; [reflexivity|]. split; [apply SameT_refl|apply MLstep_refl].
  - destruct (bcf_fix _ _ E) as [F _]. eapply outcome_weaken; [apply (rehash_impl_ok t h l sz m H Lv)| |auto].
    + intros Nl. assert (0 < f_size t)%N as P by (rewrite (ti_size _ _ _ H); destruct l; [contradiction|cbn; lia]). pose proof (min_buckets_pos _ (f_mlf t) P) as Q.
      assert (13 <= sz)%N as Q2 by (apply Z1; lia). lia.
    + cbn beta. intros _ s' (t' & l' & -> & T & P & B & S & ML). rewrite F in B. cbn [fst]. split; [|congruence]. exists t', l'. split; [reflexivity|]. split; [exact T|]. split; [exact P|]. split; [exact S|]. right.
      destruct S as (_ & _ & _ & Sm). rewrite Sm. exact ML.
Qed.
Lemma reserve_ok t h l n m : TInv t l -> length l <= live h ->
  outcome (reserve c n (t, h) m)
    (fun _ s' => Rehashed t h l s' /\ bucket_count_for (N.max (min_buckets (f_size t) (f_mlf t)) (min_buckets n (f_mlf t))) = Some (bucket_count (f_b (fst s'))) /\ ((0 < n)%N -> 0 < b_size (f_b (fst s'))))
    (RehashExn t h l).
Proof.
  intros H Lv. unfold reserve, get_t. rewrite bind_bind, bind_get, bind_ret. cbn [fst]. eapply outcome_weaken; [apply (rehash_ok t h l _ m H Lv)| |auto].
  intros _ s' (A & B). split; [exact A|]. split; [exact B|]. intros L. pose proof (min_buckets_pos n (f_mlf t) L) as Q. destruct (bcf_ok (N.max (min_buckets (f_size t) (f_mlf t)) (min_buckets n (f_mlf t)))) as (sz & E & _ & Z & _).
  rewrite E in B. injection B as B. unfold bucket_count in B. assert (13 <= sz)%N as Q2 by (apply Z; lia). lia.
Qed.

(** the computation of the bucket count for an insertion does not overflow *)
Lemma fround_exp_bound n m : (0 <= n <= 2 ^ 53)%Z -> (min_mlf <= m)%Z -> (0 <= f32_div (f32_of_int n) m <= f32_div (f32_of_int (2 ^ 53)) min_mlf)%Z.
Proof.
  intros Ln Lm. assert (0 < min_mlf)%Z as P by reflexivity. pose proof (f32_of_int_nonneg n ltac:(lia)) as P0. split; [apply fround_nonneg; lia|]. apply (Z.le_trans _ (f32_div (f32_of_int (2 ^ 53)) m)).
  - apply f32_div_mono_l; [exact P0|lia|]. apply f32_of_int_mono; lia.
  - apply fround_mono; [lia|lia|apply f32_of_int_nonneg; lia|lia|lia|]. apply Z.mul_le_mono_nonneg_l; [apply f32_of_int_nonneg; lia|exact Lm].
Qed.
Definition grow_request (n : N) (mlf : option Z) : option Z := match ceil_div n mlf with Some q => Some (f32_trunc (f32_add f32_one (q * 2 ^ 149))) | None => None end.
Lemma grow_request_ok n mlf : (n <= 2 ^ 53)%N -> match mlf with None => True | Some m => (min_mlf <= m)%Z end -> exists r, grow_request n mlf = Some r /\ (0 <= r < 2 ^ 64)%Z.
Proof.
  intros Ln Lm. unfold grow_request, ceil_div. destruct mlf as [z|]; [|eexists; split; [reflexivity|vm_compute; split; [discriminate|reflexivity]]].
  assert (0 <= Z.of_N n <= 2 ^ 53)%Z as Lz by lia. pose proof (fround_exp_bound _ _ Lz Lm) as [B0 B1]. set (q := f32_div (f32_of_int (Z.of_N n)) z) in *.
  set (Q := f32_div (f32_of_int (2 ^ 53)) min_mlf) in *.
  assert (f32_inf q = false) as ->. { apply Z.leb_gt. apply (Z.le_lt_trans _ Q); [exact B1|]. vm_compute. reflexivity. }
  eexists. split; [reflexivity|].
  assert (0 <= f32_ceil q <= f32_ceil Q)%Z as [C0 C1]. { split; [|apply f32_ceil_mono; exact B1]. change 0%Z with (f32_ceil 0). apply f32_ceil_mono. exact B0. }
  assert (0 < 2 ^ 149)%Z as Pp by (apply Z.pow_pos_nonneg; lia).
  assert (0 <= f32_add f32_one (f32_ceil q * 2 ^ 149))%Z as A0.
  { apply fround_nonneg; [|exact Pp|lia]. unfold f32_one. assert (0 <= f32_ceil q * 2 ^ 149)%Z by (apply Z.mul_nonneg_nonneg; lia). lia. }
  split; [unfold f32_trunc; apply Z.div_pos; [exact A0|exact Pp]|].
  apply (Z.le_lt_trans _ (f32_trunc (f32_add f32_one (f32_ceil Q * 2 ^ 149)))); [|vm_compute; reflexivity].
  apply f32_trunc_mono. apply fround_mono; [lia|lia| |exact Pp|exact Pp|].
  - unfold f32_one. assert (0 <= f32_ceil q * 2 ^ 149)%Z by (apply Z.mul_nonneg_nonneg; lia). lia.
  - apply Z.mul_le_mono_nonneg_r; [lia|]. apply Z.add_le_mono_l. apply Z.mul_le_mono_nonneg_r; [lia|exact C1].
Qed.
Lemma reserve_for_insert_ok t h l n m : TInv t l -> length l <= live h -> (0 < n)%N -> (n <= max_elems)%N ->
  outcome (reserve_for_insert c n (t, h) m)
    (fun _ s' => Rehashed t h l s' /\ 0 < b_size (f_b (fst s')) /\ ((n <= f_ml t)%N -> s' = (t, h)) /\
       ((f_ml t < n)%N -> exists r, grow_request n (f_mlf t) = Some r /\ bucket_count_for (N.max (Z.to_N r) (bucket_count (f_b t) + 1)) = Some (bucket_count (f_b (fst s'))) /\
          f_ml (fst s') = max_load_for (f_mlf t) (bucket_count (f_b (fst s')))))
    (fun kd s' => RehashExn t h l kd s' /\ (f_ml t < n)%N).
Proof.
  intros H Lv P0 Ln. unfold reserve_for_insert, get_t. rewrite bind_bind, bind_get, bind_ret. cbn [fst]. destruct (N.ltb_spec (f_ml t) n) as [L|L].
  - destruct (grow_request_ok n (f_mlf t) Ln (ci_mlf _ _ _ (ti_c _ _ _ H))) as (r & G & R0 & R1). pose proof G as G0. unfold grow_request in G. destruct (ceil_div n (f_mlf t)) as [q|]; [|discriminate]. cbn [of_option]. rewrite bind_ret. cbv zeta. assert (f32_trunc (f32_add f32_one (q * 2 ^ 149)) = r) as -> by congruence. clear G.
    destruct (Z.leb_spec (2 ^ 64) r) as [X|_]; [lia|]. pose proof (bc_bound _ _ (ci_b _ _ _ (ti_c _ _ _ H))) as BB.
    assert (uadd (bucket_count (f_b t)) 1 = (bucket_count (f_b t) + 1)%N) as -> by (unfold uadd; apply N.mod_small; lia).
    eapply outcome_weaken; [apply (rehash_impl_ok t h l _ m H Lv)| |]; [lia| |auto].
    cbn beta. intros _ s' (t' & l' & -> & T & P & B & S & ML). cbn [fst]. split; [|split; [|split; [lia|]]].
    + exists t', l'. split; [reflexivity|]. split; [exact T|]. split; [exact P|]. split; [exact S|]. right. destruct S as (_ & _ & _ & Sm). rewrite Sm. exact ML.
    + destruct (bcf_ok (N.max (Z.to_N r) (bucket_count (f_b t) + 1))) as (sz & E & _ & Z & _). rewrite E in B. injection B as B. unfold bucket_count in B. assert (13 <= sz)%N as Q2 by (apply Z; lia). lia.
    + intros _. exists r. auto.
  - cbn [outcome ret fst]. split; [|split; [|split; [reflexivity|lia]]].
    + exists t, l. split; [reflexivity|]. split; [exact H|]. split; [reflexivity|]. split; [apply SameT_refl|apply MLstep_refl].
    + destruct (Nat.eq_dec (b_size (f_b t)) 0) as [Z|Z]; [|lia]. rewrite (ci_null _ _ _ (ti_c _ _ _ H) Z) in L. lia.
Qed.
End Rehash.
