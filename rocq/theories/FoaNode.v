(** Node handles: every operation meets its specification. *)
From Coq Require Import NArith ZArith Bool List Arith Lia ZifyBool ZifyNat ZifyN Permutation.
From Verif Require Import FloatModel SizeModel SizeProofs GroupModel GroupSpec FoaModel FoaGroup FoaBase FoaFind FoaArr FoaInv FoaRehash FoaOps FoaCopy FoaAssign FoaMerge FoaIterModel FoaIter FoaSpec FoaWorld FoaApi FoaRun NodeSpec NodeFacts FoaNodeModel.
Import ListNotations.
Local Open Scope N_scope.

Section Node.
Context {K V : Type} (c : Cfg K (node V)).
Hypothesis HC : good_cfg c.
Hypothesis HN : node_cfg c.
Notation elem := (K * node V)%type.
Notation table := (table K (node V)).
Notation handle := (handle K V).
Notation nworld := (nworld K V).

Lemma no_transfer : ~ raised c KTransfer.
Proof. intros [n R]. rewrite (proj2 HN n) in R. discriminate. Qed.

Lemma node_with_rehash_ok (t : table) (h : handle) e n : Inv c t -> Absent c t (fst e) ->
  FoaBase.outcome (emplace_node_with_rehash c (hash_of c (hid t) (fst e)) e (t, h) n)
    (fun l s => snd s = h_clear_p h /\ Inv c (fst s) /\ Ids t (fst s) /\ (snd l < 15)%nat /\ sz (fst s) = sz t + 1 /\ ml (fst s) = init_ml (arr (fst s)) /\
       nth_error (cells (arr (fst s))) (slot_index (fst l) (snd l)) = Some (Live e) /\
       Permutation (elems (arr (fst s))) (e :: elems (arr t)))
    (fun kd s => (s = (t, h) /\ kd = KAlloc) \/ (snd s = h_clear_p h /\ kd = KHash /\ raised c kd /\ RehashFailed c t (fst s))).
Proof.
  intros H HA. unfold emplace_node_with_rehash. cbn [fst snd].
  destruct (growth_ok c t HC H) as (Hpos & Hm & Hb & Hroom). set (m := growth_request (sz t)) in *.
  pose proof (inv_bounds c t H) as (B1 & B2 & B3).
  eapply outcome_bind; [eapply outcome_weaken; [apply (new_arrays_ok c (aid t) m (t, h) n HC Hm Hb)| |]|].
  - intros a s' X. exact X.
  - intros kd' s' (-> & -> & F). left. auto.
  - intros na s0 n1 (-> & [[C _] | (_ & k & Eg & Hk & Lt & FR)]); [lia|].
    rewrite Eg in Hroom. specialize (Hroom Hk). assert (2 ^ k * GN - 1 = 15 * 2 ^ k - 1) as Egn by (unfold GN; lia).
    rewrite Egn in Hroom. pose proof (fr_shape _ _ _ FR) as HS.
    destruct (cap_shape _ _ HS) as [Ec1 Ec2]. destruct (init_ml_shape _ _ HS) as [Ei Bi].
    pose proof (fresh_good c (hid t) _ _ _ FR) as HG. pose proof (fresh_elems _ _ _ FR) as Ef.
    pose proof (i_sz _ _ H) as Es.
    eapply outcome_bind with (Q' := fun l s1 => snd s1 = h_clear_p h /\ (snd l < 15)%nat /\ exists na', fst s1 = set_ml (set_arr t na') (init_ml na') /\
       GoodA c (hid t) k na' /\ a_owner na' = aid t /\ Permutation (elems na') (e :: elems (arr t)) /\
       nth_error (cells na') (slot_index (fst l) (snd l)) = Some (Live e)).
    + rewrite (sh_gsi _ _ HS). cbn [fst snd].
      pose proof (emplace_good c KTransfer (hid t) k na e n1 HG ltac:(rewrite Ef; cbn; lia)) as EM.
      unfold on_exn at 1, on_new at 1, lens at 1. cbn [rs_tab rs_new fst snd].
      destruct (nosize_unchecked_emplace_at c KTransfer (position (hash_of c (hid t) (fst e)) (64 - k)) (hash_of c (hid t) (fst e)) e na n1)
        as [l na1 n2|kd1 na1 n2|]; cbn [FoaBase.outcome] in EM; [| |destruct EM].
      * destruct EM as (L15 & P1 & P2 & P3).
        rewrite Ef in P3.
        pose proof (rehash_body_ok c t k na1 n2 (inv_pre c t H) P2) as X.
        assert (a_owner na1 = aid t) as Ow by (destruct P1; rewrite pl_owner; apply FR).
        assert (length (cells na1) = length (cells na)) as Ln by (destruct P1; rewrite pl_cells, set_nth_len; reflexivity).
        specialize (X Ow). rewrite Ln, (Permutation_length P3) in X. cbn [length] in X. specialize (X ltac:(lia)).
        destruct (unchecked_rehash_body c (t, na1, O) n2) as [u s n3|kd3 s n3|]; cbn [FoaBase.outcome fst snd] in *; [| |destruct X].
        2:{ right. destruct X as ([->|Y] & R & F); [auto|]. rewrite Y in R. destruct (no_transfer R). }
        destruct X as (na' & -> & G' & O' & P' & Kp & Lc). split; [reflexivity|]. split; [exact L15|]. exists na'. split; [reflexivity|].
        split; [exact G'|]. split; [exact O'|]. split.
        -- rewrite P', P3, Permutation_app_comm. reflexivity.
        -- apply Kp. destruct P1. rewrite pl_cells, set_nth_err, Nat.eqb_refl by exact pl_lt. reflexivity.
      * destruct EM as (-> & R & _). destruct (no_transfer R).
    + intros l [t1 h1] n2 (Eh & L15 & na' & E1 & G' & O' & P' & Hc'). cbn [fst snd] in *. subst t1 h1. rewrite bind_modify.
      cbn [ret FoaBase.outcome fst snd set_sz set_ml set_arr arr hid pid aid ml sz].
      pose proof G' as [HS' _]. destruct (init_ml_shape _ _ HS') as [Ei' Bi'].
      destruct (init_ml_le c na (hid t)) as [_ B4]; [right; exists k; auto|].
      rewrite uadd_ok by lia. split; [reflexivity|].
      split; [|split; [constructor; reflexivity|split; [exact L15|split; [reflexivity|split; [reflexivity|split; [exact Hc'|exact P']]]]]].
      destruct H. constructor; cbn [set_sz set_ml set_arr arr hid pid aid ml sz]; auto.
      * right. exists k. auto.
      * eapply uniq_perm; [apply i_compat|symmetry; exact P'|]. apply uniq_cons; assumption.
      * rewrite (Permutation_length P'). cbn [length]. lia.
      * congruence.
      * lia.
Qed.

Notation lookup := (FoaSpec.lookup (V:=node V) (keqf c)).
Notation outcome := FoaBase.outcome.

(** insertion of the node of a handle *)
Definition NodeFailed (t : table) (h : handle) (kd : kind) (s : table * handle) : Prop :=
  (kd = KAlloc \/ raised c kd) /\ Inv c (fst s) /\ Ids t (fst s) /\
  ((snd s = h /\ elems (arr (fst s)) = elems (arr t)) \/
   (snd s = h_clear_p h /\ kd = KHash /\ exists lost, Permutation (elems (arr t)) (lost ++ elems (arr (fst s))))).
Lemma emplace_node_ok (t : table) (h : handle) e n : Inv c t ->
  outcome (emplace_node c e (t, h) n)
    (fun r s => Inv c (fst s) /\ Ids t (fst s) /\ exists x, nth_error (cells (arr (fst s))) (slot_index (fst (fst r)) (snd (fst r))) = Some (Live x) /\
       match lookup (pid t) (fst e) (elems (arr t)) with
       | Some y => x = y /\ snd r = false /\ s = (t, h)
       | None => x = e /\ snd r = true /\ snd s = h_clear_p h /\ Permutation (elems (arr (fst s))) (e :: elems (arr t))
       end)
    (NodeFailed t h).
Proof.
  intros H. unfold emplace_node. cbn [fst snd]. unfold hash_for. rewrite bind_bind.
  assert (forall k0, raised c k0 -> NodeFailed t h k0 (t, h)) as F0.
  { intros k0 R. split; [auto|]. split; [exact H|]. split; [apply Ids_refl|]. left. auto. }
  apply tick_bind; [|intros R; apply F0; auto].
  intros n'. rewrite bind_ret.
  eapply outcome_bind; [eapply outcome_weaken; [apply (find_at_ok c t (fst e) (t, h) n' H)| |]|].
  - intros r s' X. exact X.
  - intros kd' s' (-> & -> & R). apply F0; auto.
  - intros r s0 n1 (-> & Hf). destruct r as [[g m]|]; cbn [found] in Hf.
    + destruct Hf as (L15 & e' & He & Ek). cbn [ret FoaBase.outcome fst snd]. split; [exact H|]. split; [apply Ids_refl|].
      exists e'. split; [exact He|]. rewrite (lookup_cell c t (fst e) _ e' H He Ek). auto.
    + assert (Absent c t (fst e)) as HA by exact Hf.
      assert (lookup (pid t) (fst e) (elems (arr t)) = None) as -> by (apply lookup_none; exact Hf).
      destruct (N.ltb_spec (sz t) (ml t)) as [Lt|Ge].
      * unfold bind at 1, on_fst at 1, lens at 1. cbn [fst snd].
        pose proof (unchecked_emplace_at_ok c KTransfer t e n1 H Lt HA) as X. cbv zeta in X.
        destruct (unchecked_emplace_at c KTransfer (position (hash_of c (hid t) (fst e)) (a_gsi (arr t))) (hash_of c (hid t) (fst e)) e t n1) as [l t' n2|kd t' n2|];
          cbn [FoaBase.outcome] in X; [| |destruct X].
        -- destruct X as (I & L15 & Ins & P). unfold null_source. rewrite bind_modify. cbn [ret FoaBase.outcome fst snd]. split; [exact I|]. split; [apply Ins|].
           exists e. split; [eapply inserted_cell; eauto|]. auto.
        -- destruct X as (-> & R & _). destruct (no_transfer R).
      * eapply outcome_bind; [eapply outcome_weaken; [apply (node_with_rehash_ok t h e n1 H HA)| |]|].
        -- intros l s X. exact X.
        -- intros kd s [(-> & ->) | (Eh & -> & R & F)].
           ++ split; [auto|]. split; [exact H|]. split; [apply Ids_refl|]. left. auto.
           ++ destruct (failed_inv c t (fst s) H F) as (I & Id & _ & lost & P & _). split; [auto|]. split; [exact I|]. split; [exact Id|]. right.
              split; [exact Eh|]. split; [reflexivity|]. exists lost. exact P.
        -- intros l s n2 (Eh & I & Id & L15 & Es & Em & Hc & P). cbn [ret FoaBase.outcome fst snd]. split; [exact I|]. split; [exact Id|].
           exists e. auto.
Qed.
Lemma insert_node_ok (t : table) (h : handle) n : Inv c t -> (h_empty h = false -> h_al h = Some (aid t)) ->
  outcome (m_insert_node c (t, h) n)
    (fun r s => match h_p h with
       | None => r = None /\ s = (t, h)
       | Some e => exists l b, r = Some (l, b) /\ Inv c (fst s) /\ Ids t (fst s) /\ exists x, nth_error (cells (arr (fst s))) (slot_index (fst l) (snd l)) = Some (Live x) /\
           match lookup (pid t) (fst e) (elems (arr t)) with
           | Some y => x = y /\ b = false /\ s = (t, h)
           | None => x = e /\ b = true /\ snd s = h_default /\ Permutation (elems (arr (fst s))) (e :: elems (arr t))
           end
       end)
    (fun kd s => h_empty h = false /\ NodeFailed t h kd s).
Proof.
  intros H Ha. unfold m_insert_node. rewrite bind_get. cbn [fst snd].
  destruct (h_p h) as [e|] eqn:Ep; [|cbn [ret FoaBase.outcome]; auto].
  assert (h_empty h = false) as Eh by (unfold h_empty; rewrite Ep; reflexivity). specialize (Ha Eh).
  unfold h_get_al. rewrite Eh, Ha, N.eqb_refl, bind_ret.
  eapply outcome_bind; [eapply outcome_weaken; [apply (emplace_node_ok t h e n H)| |]|].
  - intros r s X. exact X.
  - intros kd s X. auto.
  - intros [l b] [t' h'] n1 (I & Id & x & Hc & X). cbn [fst snd] in *.
    destruct (lookup (pid t) (fst e) (elems (arr t))).
    + destruct X as (-> & -> & Es). rewrite bind_ret. cbn [ret FoaBase.outcome]. exists l, false. split; [reflexivity|]. split; [exact I|]. split; [exact Id|]. eauto.
    + destruct X as (-> & -> & -> & P). rewrite bind_bind, bind_get. cbn [snd fst]. unfold h_reset, h_clear_p. cbn [h_al]. rewrite Ha. cbn [of_option].
      rewrite bind_bind, bind_ret. unfold put, bind, ret. cbn [FoaBase.outcome fst snd]. exists l, true. split; [reflexivity|]. split; [exact I|]. split; [exact Id|].
      exists e. auto.
Qed.

(** extraction *)
Lemma set_nth_twice {A} (l : list A) i x y : set_nth (set_nth l i x) i y = set_nth l i y.
Proof.
  unfold FoaModel.set_nth. revert i. induction l as [|a l IH]; intros [|i]; try reflexivity.
  cbn [firstn skipn app]. f_equal. apply IH.
Qed.
Lemma extract_eq (t : table) it p e n : it_p it = Some p -> get_cell (arr t) p = Some (Live e) ->
  extract_it it t n = bind (erase_it it) (fun _ => ret e) t n.
Proof.
  intros Ep Hc. unfold extract_it, erase_it. rewrite Ep, bind_get. unfold read_element. rewrite Hc, bind_ret.
  rewrite !bind_bind. unfold get_cell in Hc. destruct (a_elems (arr t)) as [cs|] eqn:Ea; [|discriminate].
  assert (p < length cs)%nat as Lp by (apply nth_error_Some; congruence).
  unfold bind, on_arr, lens, put_cell, destroy_element, get, bind, get_cell. rewrite Ea, Hc. cbn [a_elems arr set_arr].
  rewrite set_nth_err, Nat.eqb_refl by exact Lp. unfold put_cell. rewrite Ea, Hc. cbn [a_elems arr set_arr a_gsi a_mask a_groups a_owner hid pid aid ml sz].
  rewrite set_nth_err, Nat.eqb_refl by exact Lp. cbn [a_elems arr set_arr a_gsi a_mask a_groups a_owner hid pid aid ml sz].
  rewrite set_nth_twice. reflexivity.
Qed.
Lemma iter_ptr (t : table) m it e : Inv c t -> IterAt t m it -> nth_error (elems (arr t)) m = Some e ->
  exists p, it_p it = Some p /\ get_cell (arr t) p = Some (Live e).
Proof.
  intros H A He. pose proof (iter_deref c t m it e tt O H A He) as X. unfold it_deref in X. destruct (it_p it) as [p|]; [|discriminate].
  exists p. split; [reflexivity|]. unfold read_element in X. destruct (get_cell (arr t) p) as [[| |x]|]; try discriminate. injection X as ->. reflexivity.
Qed.
Lemma extract_it_ok (t : table) m it e n : Inv c t -> IterAt t m it -> nth_error (elems (arr t)) m = Some e ->
  outcome (extract_it it t n) (fun x t' => x = e /\ Inv c t' /\ Ids t t' /\ elems (arr t') = drop_nth m (elems (arr t))) (fun _ _ => False).
Proof.
  intros H A He. destruct (iter_ptr t m it e H A He) as (p & Ep & Hc). rewrite (extract_eq t it p e n Ep Hc).
  eapply outcome_bind; [apply (iter_erase c t m it e n H A He)|]. intros u t' n' EA. cbv beta in EA. cbn [ret FoaBase.outcome].
  split; [reflexivity|]. split; [apply EA|]. split; [apply EA|apply (ea_elems _ _ _ _ _ EA)].
Qed.
Lemma extract_key_ok (t : table) k n : Inv c t ->
  outcome (m_extract c k t n)
    (fun o t' => Inv c t' /\ Ids t t' /\ o = lookup (pid t) k (elems (arr t)) /\
       match o with Some e => Permutation (elems (arr t)) (e :: elems (arr t')) | None => t' = t end)
    (fun kd t' => t' = t /\ (kd = KHash \/ kd = KEq) /\ raised c kd).
Proof.
  intros H. unfold m_extract. eapply outcome_bind; [apply (find_it_ok c t k n H)|].
  intros it t' n' (-> & m & A & F). rewrite (iter_eqb c t m _ it it_end H A (iter_end c t H)).
  destruct (nth_error (elems (arr t)) m) as [e|] eqn:He.
  - assert (m < length (elems (arr t)))%nat as L by (apply nth_error_Some; congruence).
    destruct (Nat.eqb_spec m (length (elems (arr t)))); [lia|].
    eapply outcome_bind; [eapply outcome_weaken; [apply (extract_it_ok t m it e n' H A He)| |]|].
    + intros x t' X. exact X.
    + intros kd t' [].
    + intros x t' n1 (-> & I & Id & Ee). cbn [ret FoaBase.outcome]. split; [exact I|]. split; [exact Id|]. split.
      * symmetry. apply lookup_uniq; [apply (inv_equiv c t H)|apply H|eapply nth_error_In; exact He|exact F].
      * rewrite Ee. destruct (nth_error_split _ _ He) as (l1 & l2 & -> & <-). rewrite drop_mid. symmetry. apply Permutation_middle.
  - destruct F as [-> F]. rewrite Nat.eqb_refl. cbn [ret FoaBase.outcome]. split; [exact H|]. split; [apply Ids_refl|]. split; [|reflexivity].
    symmetry. apply lookup_none. exact F.
Qed.
End Node.
