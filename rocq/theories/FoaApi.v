(** The member functions meet the specification. *)
From Coq Require Import NArith ZArith Bool List Arith Lia ZifyBool ZifyNat ZifyN Permutation.
From Verif Require Import FloatModel SizeModel SizeProofs GroupModel GroupSpec FoaModel FoaGroup FoaBase FoaFind FoaArr FoaInv FoaRehash FoaOps FoaCopy FoaAssign FoaMerge FoaIterModel FoaIter FoaSpec FoaWorld.
Import ListNotations.
Local Open Scope N_scope.

Section Api.
Context {K V : Type} (c : Cfg K V).
Hypothesis HC : good_cfg c.
Notation arrays := (arrays K V).
Notation table := (table K V).
Notation lookup := (lookup (V:=V) (keqf c)).
Notation add := (add (V:=V) (keqf c)).
Notation add_all := (add_all (V:=V) (keqf c)).
Notation spec1 := (spec1 (V:=V) (keqf c) (moves c)).
Notation Lost := (Lost (K:=K) (V:=V) (moves c)).

Lemma lookup_none p k l : lookup p k l = None <-> forall e, In e l -> keqf c p k (fst e) = false.
Proof.
  unfold FoaSpec.lookup. induction l as [|x l IH]; cbn; [split; [intros _ e []|auto]|].
  destruct (keqf c p k (fst x)) eqn:E.
  - split; [discriminate|]. intros H. rewrite H in E by now left. discriminate.
  - rewrite IH. split; [intros H e [<-|He]; auto|intros H e He; apply H; now right].
Qed.
Lemma lookup_some p k l e : lookup p k l = Some e -> In e l /\ keqf c p k (fst e) = true.
Proof. unfold FoaSpec.lookup. intros H. apply find_some in H. exact H. Qed.
Lemma lookup_perm_none p k l l' : Permutation l l' -> lookup p k l = None -> lookup p k l' = None.
Proof. intros P H. apply lookup_none. intros e He. apply (proj1 (lookup_none p k l) H). eapply Permutation_in; [symmetry; exact P|exact He]. Qed.
Lemma lookup_uniq p k l e : equivalence c p -> Uniq c p l -> In e l -> keqf c p k (fst e) = true -> lookup p k l = Some e.
Proof.
  intros E U He Hk. destruct (lookup p k l) as [e'|] eqn:L.
  - apply lookup_some in L as [H1 H2]. f_equal. apply (uniq_in c p l e' e E U H1 He). destruct E as (_ & S & T).
    apply (T _ k); [rewrite S|]; assumption.
  - rewrite (proj1 (lookup_none p k l) L e He) in Hk. discriminate.
Qed.
Lemma filter_uniq p k l : equivalence c p -> Uniq c p l -> filter (fun e => keqf c p k (fst e)) l = match lookup p k l with Some e => [e] | None => [] end.
Proof.
  intros E U. unfold FoaSpec.lookup. induction U as [|x l F U IH]; [reflexivity|]. cbn [filter List.find].
  destruct (keqf c p k (fst x)) eqn:Ek; [|exact IH]. f_equal.
  assert (forall y, In y l -> keqf c p k (fst y) = false) as H.
  { intros y Hy. destruct (keqf c p k (fst y)) eqn:E2; [|reflexivity]. rewrite Forall_forall in F.
    destruct E as (_ & S & T). rewrite <- (F y Hy). symmetry. apply (T _ k); [rewrite S|]; assumption. }
  clear - H. induction l as [|y l IH]; [reflexivity|]. cbn. rewrite (H y) by now left. apply IH. intros z Hz. apply H. now right.
Qed.
Lemma inv_equiv (t : table) : Inv c t -> equivalence c (pid t). Proof. intros H. apply (i_compat _ _ H). Qed.
Lemma lookup_cell (t : table) k i e : Inv c t -> nth_error (cells (arr t)) i = Some (Live e) -> keqf c (pid t) k (fst e) = true ->
  lookup (pid t) k (elems (arr t)) = Some e.
Proof. intros H He Hk. apply lookup_uniq; auto using inv_equiv; [apply H|]. apply in_elems. eauto. Qed.

(** what is lost by a failing insertion *)
Definition Failed (t : table) (kd : kind) (t' : table) : Prop :=
  Inv c t' /\ Ids t t' /\ (kd = KAlloc \/ raised c kd) /\ exists lost, Permutation (elems (arr t)) (lost ++ elems (arr t')) /\ Lost kd lost.
Lemma emplace_failed kd0 (t : table) kd t' : Inv c t -> EmplaceFailed c kd0 t kd t' -> Failed t kd t'.
Proof.
  intros H (I & Id & [[S X]|(Hk & R & _ & F)]); (split; [exact I|]); (split; [exact Id|]).
  - split; [destruct X as [[_ R]|[-> _]]; auto|]. exists []. split; [|now left].
    destruct S as [-> E]. cbn [set_arr arr app] in *. rewrite (ext_elems _ _ E). reflexivity.
  - split; [auto|]. destruct (failed_inv c t t' H F) as (_ & _ & _ & lost & P & L & _). exists lost. split; [exact P|].
    destruct (moves c) eqn:M; [right; auto|left; auto].
Qed.
Lemma rehash_failed (t : table) kd t' n : Inv c t ->
  (kd = KAlloc /\ t' = t /\ alloc_fail c n) \/ ((kd = KHash \/ kd = KTransfer) /\ raised c kd /\ RehashFailed c t t') -> Failed t kd t'.
Proof.
  intros H [(-> & -> & _)|(Hk & R & F)].
  - split; [exact H|]. split; [apply Ids_refl|]. split; [now left|]. exists []. split; [reflexivity|now left].
  - destruct (failed_inv c t t' H F) as (I & Id & _ & lost & P & L & _). split; [exact I|]. split; [exact Id|]. split; [auto|].
    exists lost. split; [exact P|]. destruct (moves c) eqn:M; [right; auto|left; auto].
Qed.

Lemma read_cell {St} (t : table) l e (s : St) n : Inv c t -> nth_error (cells (arr t)) (slot_index (fst l) (snd l)) = Some (Live e) ->
  read_at t l s n = Ret e s n.
Proof.
  intros H He. unfold read_at, read_element. destruct (i_arr _ _ H) as [E|(k & [HS _] & _)].
  - rewrite E in He. destruct (slot_index (fst l) (snd l)); discriminate.
  - rewrite (get_cell_eq k), He by exact HS. reflexivity.
Qed.

(** insert: the element the returned iterator points to, and whether it was inserted *)
Lemma insert_ok (t : table) e n : Inv c t ->
  outcome (m_insert c e t n)
    (fun r t' => Inv c t' /\ Ids t t' /\ exists x, nth_error (cells (arr t')) (slot_index (fst (fst r)) (snd (fst r))) = Some (Live x) /\
        match lookup (pid t) (fst e) (elems (arr t)) with
        | Some y => x = y /\ snd r = false /\ t' = t
        | None => x = e /\ snd r = true /\ Permutation (elems (arr t')) (e :: elems (arr t))
        end)
    (Failed t).
Proof.
  intros H. unfold m_insert. eapply outcome_weaken; [apply (emplace_impl_ok c KConstruct t e n HC H)| |].
  - intros [l b] t' [I Id L15 F T _ _]. cbn [fst snd] in *. split; [exact I|]. split; [exact Id|]. destruct b.
    + destruct (T eq_refl) as (A & P & _ & Hc). exists e. split; [exact Hc|]. rewrite (proj2 (lookup_none _ _ _) A). auto.
    + destruct (F eq_refl) as (-> & e' & Hc & Hk). exists e'. split; [exact Hc|]. rewrite (lookup_cell t (fst e) _ e' H Hc Hk). auto.
  - intros kd t' X. eapply emplace_failed; eauto.
Qed.

Lemma ids_trans (a b d : table) : Ids a b -> Ids b d -> Ids a d.
Proof. intros [A1 A2 A3] [B1 B2 B3]. constructor; congruence. Qed.

Lemma insert_range_ok : forall es (t : table) l n, Inv c t -> Permutation (elems (arr t)) l ->
  outcome (m_insert_range c es t n)
    (fun _ t' => Inv c t' /\ Ids t t' /\ Permutation (elems (arr t')) (add_all (pid t) l es))
    (fun kd t' => Inv c t' /\ Ids t t' /\ (kd = KAlloc \/ raised c kd) /\ exists es1 e es2 lost, es = es1 ++ e :: es2 /\
        Permutation (add_all (pid t) l es1) (lost ++ elems (arr t')) /\ Lost kd lost).
Proof.
  induction es as [|e es IH]; intros t l n H P; cbn [m_insert_range].
  - cbn [ret outcome FoaSpec.add_all fold_left]. auto using Ids_refl.
  - eapply outcome_bind; [eapply outcome_weaken; [apply (insert_ok t e n H)| |]|].
    + intros r t' X. exact X.
    + intros kd t' (I & Id & R & lost & Pl & L). split; [exact I|]. split; [exact Id|]. split; [exact R|].
      exists [], e, es, lost. split; [reflexivity|]. split; [|exact L]. cbn [FoaSpec.add_all fold_left]. rewrite <- P. exact Pl.
    + intros [lc b] t1 n1 (I & Id & x & _ & X). cbn [fst snd] in X.
      assert (Permutation (elems (arr t1)) (add (pid t) l e)) as P1.
      { unfold FoaSpec.add. destruct (lookup (pid t) (fst e) (elems (arr t))) as [y|] eqn:L.
        - destruct X as (_ & _ & ->). destruct (lookup (pid t) (fst e) l) eqn:L'; [exact P|].
          rewrite (lookup_perm_none _ _ _ _ (Permutation_sym P) L') in L. discriminate.
        - destruct X as (_ & _ & Px). rewrite (lookup_perm_none _ _ _ _ P L). rewrite Px. constructor. exact P. }
      eapply outcome_weaken; [apply (IH t1 _ n1 I P1)| |]; rewrite (id_p _ _ Id).
      * intros u t2 (I2 & Id2 & P2). split; [exact I2|]. split; [eapply ids_trans; eauto|exact P2].
      * intros kd t2 (I2 & Id2 & R & es1 & e1 & es2 & lost & -> & P2 & L2). split; [exact I2|]. split; [eapply ids_trans; eauto|]. split; [exact R|].
        exists (e :: es1), e1, es2, lost. auto.
Qed.

(** overwriting a mapped value *)
Lemma elems_replace (a : arrays) i e e2 : nth_error (cells a) i = Some (Live e) ->
  exists l1 l2, elems a = l1 ++ e :: l2 /\ elems (upd_cell a i (Live e2)) = l1 ++ e2 :: l2.
Proof.
  intros H. unfold elems. rewrite cells_upd_cell.
  destruct (set_nth_split _ _ (Live e2) _ H) as (l1 & l2 & E1 & _ & E2). rewrite E2, E1.
  rewrite !flat_map_app. cbn [flat_map live app]. eauto.
Qed.
Lemma replace_inv (t : table) i e v : Inv c t -> nth_error (cells (arr t)) i = Some (Live e) ->
  let t' := set_arr t (upd_cell (arr t) i (Live (fst e, v))) in
  Inv c t' /\ Ids t t' /\
  forall k, keqf c (pid t) k (fst e) = true -> elems (arr t') = map (fun x => if keqf c (pid t) k (fst x) then (fst x, v) else x) (elems (arr t)).
Proof.
  intros H He t'. destruct (elems_replace (arr t) i e (fst e, v) He) as (l1 & l2 & E1 & E2).
  destruct (i_arr _ _ H) as [E|(k0 & [HS HG] & Hk)]; [rewrite E in He; destruct i; discriminate|].
  assert (i < length (cells (arr t)))%nat as L by (apply nth_error_Some; congruence).
  pose proof (inv_equiv t H) as Eq. pose proof (i_uniq _ _ H) as U. rewrite E1 in U.
  assert (Uniq c (pid t) (e :: l1 ++ l2)) as U1 by (eapply uniq_perm; [exact Eq| |exact U]; symmetry; apply Permutation_middle).
  assert (forall x, In x (l1 ++ l2) -> keqf c (pid t) (fst e) (fst x) = false) as Hx.
  { inversion U1 as [|? ? F _]; subst. rewrite Forall_forall in F. exact F. }
  split; [|split; [constructor; reflexivity|]].
  - destruct H as [Hcm Ho Ha Hu Hs Hsm Hm]. constructor; cbn [t' set_arr hid pid aid arr ml sz]; auto.
    + right. exists k0. split; [|exact Hk]. split; [apply shape_upd_cell; exact HS|].
      intros j x. rewrite cells_upd_cell, set_nth_err by exact L. destruct (Nat.eqb_spec j i) as [->|].
      * intros [= <-]. specialize (HG i _ He). exact HG.
      * intros Hj. specialize (HG j x Hj). exact HG.
    + rewrite E2. eapply uniq_perm; [exact Eq|apply Permutation_middle|]. inversion U1; subst. constructor; assumption.
    + rewrite E2. rewrite E1 in Hs. rewrite app_length in *. cbn [length] in *. exact Hs.
    + destruct (init_ml_shape _ _ HS) as [M1 _], (init_ml_shape _ _ (shape_upd_cell _ _ i (Live (fst e, v)) HS)) as [M2 _]. rewrite M2, <- M1. exact Hm.
  - intros k Hk'. cbn [t' set_arr arr]. rewrite E2, E1, map_app. cbn [map]. rewrite Hk'.
    assert (forall l, (forall x, In x l -> In x (l1 ++ l2)) -> map (fun x => if keqf c (pid t) k (fst x) then (fst x, v) else x) l = l) as M.
    { induction l as [|x l IH]; intros Hl; [reflexivity|]. cbn [map]. rewrite IH by (intros y Hy; apply Hl; now right).
      assert (keqf c (pid t) k (fst x) = false) as ->; [|reflexivity].
      destruct (keqf c (pid t) k (fst x)) eqn:Ek; [|reflexivity]. destruct Eq as (_ & S & T).
      rewrite <- (Hx x ltac:(apply Hl; now left)). symmetry. apply (T _ k); [rewrite S|]; assumption. }
    rewrite !M; [reflexivity| |]; intros x Hx'; apply in_or_app; auto.
Qed.

Lemma find_elem_ok (t : table) k n : Inv c t ->
  outcome (m_find c k t n) (fun r t' => t' = t /\ r = lookup (pid t) k (elems (arr t))) (fun kd t' => t' = t /\ (kd = KHash \/ kd = KEq) /\ raised c kd).
Proof.
  intros H. unfold m_find. rewrite bind_get. eapply outcome_bind; [apply (find_ok c t k t n H)|].
  intros loc s n' [-> F]. destruct loc as [[g m]|]; cbn [found] in F.
  - destruct F as (_ & e & He & Hk). unfold bind. change (read_element (arr t) (slot_index g m) t n') with (read_at t (g, m) t n').
    rewrite (read_cell t (g, m) e t n' H He). cbn [ret outcome]. split; [reflexivity|]. symmetry. eapply lookup_cell; eauto.
  - cbn [ret outcome]. split; [reflexivity|]. symmetry. apply lookup_none. exact F.
Qed.

Lemma kept_filter pr l log : kept (fun _ => pr) log l = filter (fun e : K * V => negb (pr e)) l.
Proof. revert log. induction l as [|x l IH]; intros log; [reflexivity|]. cbn [kept filter]. destruct (pr x); cbn [negb]; rewrite IH; reflexivity. Qed.
Lemma filter_split {A} (f : A -> bool) l : (length l = length (filter f l) + length (filter (fun x => negb (f x)) l))%nat.
Proof. induction l as [|x l IH]; [reflexivity|]. cbn. destruct (f x); cbn; lia. Qed.
Lemma filter_perm {A} (f : A -> bool) l l' : Permutation l l' -> Permutation (filter f l) (filter f l').
Proof.
  intros P. induction P; cbn; auto.
  - destruct (f x); auto.
  - destruct (f x), (f y); auto. constructor.
  - etransitivity; eauto.
Qed.
Lemma filter_partition {A} (f : A -> bool) l : Permutation l (filter f l ++ filter (fun x => negb (f x)) l).
Proof.
  induction l as [|x l IH]; [constructor|]. cbn. destruct (f x); cbn; [constructor; exact IH|].
  transitivity (x :: filter f l ++ filter (fun x => negb (f x)) l); [constructor; exact IH|]. apply Permutation_middle.
Qed.
Lemma advance_ok (t : table) : Inv c t -> forall m d it, IterAt t d it -> (d + m <= length (elems (arr t)))%nat ->
  exists it', advance c (arr t) it m = Some it' /\ IterAt t (d + m) it'.
Proof.
  intros H. induction m as [|m IH]; intros d it A L; cbn [advance].
  - exists it. rewrite Nat.add_0_r. auto.
  - destruct (iter_next c t d it H A ltac:(lia)) as (it' & -> & A'). destruct (IH (S d) it' A' ltac:(lia)) as (it2 & E & A2).
    exists it2. split; [exact E|]. replace (d + S m)%nat with (S d + m)%nat by lia. exact A2.
Qed.
Lemma nth_it_ok (t : table) m : Inv c t -> (m <= length (elems (arr t)))%nat -> exists it, nth_it c t m = Some it /\ IterAt t m it.
Proof.
  intros H L. unfold nth_it. destruct (iter_begin c t H) as (it & -> & A). destruct (advance_ok t H m 0 it A L) as (it' & E & A'). eauto.
Qed.

Lemma skip_skip {A} (l : list A) : forall m d, skipn d (skipn m l) = skipn (d + m) l.
Proof.
  induction l as [|x l IH]; intros m d; [rewrite !skipn_nil; reflexivity|].
  destruct m as [|m]; [rewrite Nat.add_0_r; reflexivity|]. rewrite Nat.add_succ_r. cbn [skipn]. apply IH.
Qed.
Definition Spec1 (o : op1 K V) (t : table) (r : result K V) (t' : table) : Prop :=
  Inv c t' /\ Ids t t' /\ spec1 (pid t) o (elems (arr t)) r (elems (arr t')).

Lemma failed_spec o (t : table) kd t' : (exists e, o = Insert e) \/ (exists k v, o = InsertOrAssign k v) \/ (exists d k, o = Index d k) \/ (exists n, o = Rehash n \/ o = Reserve n) ->
  Failed t kd t' -> (kd = KAlloc \/ raised c kd) /\ Spec1 o t (Threw kd) t'.
Proof.
  intros Ho (I & Id & R & X). split; [exact R|]. split; [exact I|]. split; [exact Id|].
  destruct Ho as [[e ->]|[(k & v & ->)|[(d & k & ->)|(n & [-> | ->])]]]; exact X.
Qed.

Lemma exec1_ok o (t : table) n : Inv c t -> pre1 c o t ->
  outcome (exec1 c o t n) (fun v t' => Spec1 o t (Done v) t') (fun kd t' => (kd = KAlloc \/ raised c kd) /\ Spec1 o t (Threw kd) t').
Proof.
  intros H Hpre. pose proof (inv_equiv t H) as Eq. pose proof (i_uniq _ _ H) as U.
  assert (forall A o (m : M table A) (mk : A -> value K V) (Q : A -> Prop),
    (forall kd, kd = KHash \/ kd = KEq -> spec1 (pid t) o (elems (arr t)) (Threw kd) (elems (arr t))) ->
    (forall a, Q a -> spec1 (pid t) o (elems (arr t)) (Done (mk a)) (elems (arr t))) ->
    outcome (m t n) (fun a t' => t' = t /\ Q a) (fun kd t' => t' = t /\ (kd = KHash \/ kd = KEq) /\ raised c kd) ->
    outcome (bind m (fun a => ret (mk a)) t n) (fun v t' => Spec1 o t (Done v) t') (fun kd t' => (kd = KAlloc \/ raised c kd) /\ Spec1 o t (Threw kd) t')) as RO.
  { intros A o' m mk Q He Hq X. eapply outcome_bind; [eapply outcome_weaken; [exact X| |]|].
    - intros a t' Y. exact Y.
    - intros kd t' (-> & Hk & R). split; [auto|]. split; [exact H|]. split; [apply Ids_refl|auto].
    - intros a t' n' [-> Ha]. cbn [ret outcome]. split; [exact H|]. split; [apply Ids_refl|auto]. }
  pose proof (find_elem_ok t) as FE.
  destruct o as [e|es|es|k v|dv k|k|k|k|k|k|k|pr|pr|m|m m2| |n'|n'| | |]; cbn [exec1 pre1] in *.
  - (* Insert *)
    eapply outcome_bind; [eapply outcome_weaken; [apply (insert_ok t e n H)| |]|].
    + intros r t' X. exact X.
    + intros kd t' X. apply failed_spec; eauto.
    + intros [l b] t' n1 (I & Id & x & Hc & X). cbn [fst snd] in *. rewrite bind_get. unfold bind. rewrite (read_cell t' l x t' n1 I Hc).
      cbn [ret outcome]. split; [exact I|]. split; [exact Id|]. cbn [FoaSpec.spec1]. destruct (lookup (pid t) (fst e) (elems (arr t))).
      * destruct X as (-> & -> & ->). auto.
      * exact X.
  - (* InsertRange *)
    eapply outcome_bind; [eapply outcome_weaken; [apply (insert_range_ok es t _ n H (Permutation_refl _))| |]|].
    + intros r t' X. exact X.
    + intros kd t' (I & Id & R & X). split; [exact R|]. split; [exact I|]. split; [exact Id|]. exact X.
    + intros u t' n1 (I & Id & P). cbn [ret outcome]. split; [exact I|]. split; [exact Id|]. exact P.
  - (* AssignList *)
    unfold m_assign_list. rewrite bind_bind. eapply outcome_bind; [eapply outcome_weaken; [apply (clear_ok c t n (inv_w c t H))| |]|].
    + intros r t' X. exact X.
    + intros kd t' [].
    + intros u t1 n1 (I1 & Id1 & E1 & _). cbv beta in *.
      eapply outcome_bind; [eapply outcome_weaken; [apply (insert_range_ok es t1 [] n1 I1)| |]|].
      * rewrite E1. constructor.
      * intros r t' X. exact X.
      * intros kd t' (I & Id & R & X). split; [exact R|]. split; [exact I|]. split; [eapply ids_trans; eauto|].
        rewrite (id_p _ _ Id1) in X. exact X.
      * intros u' t' n2 (I & Id & P). cbn [ret outcome]. split; [exact I|]. split; [eapply ids_trans; eauto|].
        rewrite (id_p _ _ Id1) in P. exact P.
  - (* InsertOrAssign *)
    unfold m_insert_or_assign. rewrite bind_bind. eapply outcome_bind; [eapply outcome_weaken; [apply (insert_ok t (k, v) n H)| |]|].
    + intros r t' X. exact X.
    + intros kd t' X. apply failed_spec; eauto 6.
    + intros [[g m] b] t' n1 (I & Id & x & Hc & X). cbn [fst snd] in *.
      destruct (lookup (pid t) k (elems (arr t))) as [y|] eqn:L.
      * destruct X as (-> & -> & ->). apply lookup_some in L as L'. destruct L' as [_ Hk].
        rewrite bind_bind, bind_get, bind_bind. unfold bind at 1. change (read_element (arr t) (slot_index g m) t n1) with (read_at t (g, m) t n1).
        rewrite (read_cell t (g, m) y t n1 I Hc). rewrite bind_bind. apply tick_bind.
        -- intros n2. rewrite bind_bind. unfold bind at 1, on_arr, lens.
           destruct (i_arr _ _ H) as [E|(k0 & [HS _] & _)]; [rewrite E in Hc; destruct (slot_index g m); discriminate|].
           rewrite (put_cell_eq k0) by (auto; apply nth_error_Some; congruence). cbn [ret bind outcome].
           destruct (replace_inv t _ y v H Hc) as (I' & Id' & E'). split; [exact I'|]. split; [exact Id'|].
           cbn [FoaSpec.spec1]. rewrite L. split; [reflexivity|]. rewrite (E' k Hk). reflexivity.
        -- intros R. split; [auto|]. split; [exact H|]. split; [apply Ids_refl|]. exists []. split; [reflexivity|now left].
      * destruct X as (-> & -> & P). rewrite bind_ret. cbn [ret outcome]. split; [exact I|]. split; [exact Id|]. cbn [FoaSpec.spec1]. rewrite L. auto.
  - (* Index *)
    unfold m_index. rewrite bind_bind. eapply outcome_bind; [eapply outcome_weaken; [apply (insert_ok t (k, dv) n H)| |]|].
    + intros r t' X. exact X.
    + intros kd t' X. apply failed_spec; eauto 6.
    + intros [l b] t' n1 (I & Id & x & Hc & X). cbn [fst snd] in *. rewrite bind_bind, bind_get, bind_bind. unfold bind at 1.
      change (read_element (arr t') (slot_index (fst l) (snd l)) t' n1) with (read_at t' l t' n1). rewrite (read_cell t' l x t' n1 I Hc).
      cbn [ret bind outcome]. split; [exact I|]. split; [exact Id|]. cbn [FoaSpec.spec1]. destruct (lookup (pid t) k (elems (arr t))).
      * destruct X as (-> & -> & ->). auto.
      * destruct X as (-> & -> & P). auto.
  - (* Find *)
    apply (RO _ _ _ VFound (fun r => r = lookup (pid t) k (elems (arr t)))); [cbn; auto| |apply FE; exact H].
    intros r ->. cbn. auto.
  - (* At *)
    apply (RO _ _ _ VFoundV (fun r => r = option_map snd (lookup (pid t) k (elems (arr t))))); [cbn; auto|intros r ->; cbn; auto|].
    unfold m_at. eapply outcome_bind; [apply FE; exact H|]. intros r t' n1 [-> ->]. cbn [ret outcome]. auto.
  - (* Count *)
    apply (RO _ _ _ VN (fun r => r = N.of_nat (length (filter (fun e => keqf c (pid t) k (fst e)) (elems (arr t)))))); [cbn; auto|intros r ->; cbn; auto|].
    unfold m_count. eapply outcome_bind; [apply FE; exact H|]. intros r t' n1 [-> ->]. cbn [ret outcome]. split; [reflexivity|].
    rewrite filter_uniq by assumption. destruct (lookup (pid t) k (elems (arr t))); reflexivity.
  - (* Contains *)
    apply (RO _ _ _ VBool (fun r => r = existsb (fun e => keqf c (pid t) k (fst e)) (elems (arr t)))); [cbn; auto|intros r ->; cbn; auto|].
    unfold m_contains. eapply outcome_bind; [apply FE; exact H|]. intros r t' n1 [-> ->]. cbn [ret outcome]. split; [reflexivity|].
    destruct (lookup (pid t) k (elems (arr t))) as [e|] eqn:L.
    + symmetry. apply existsb_exists. apply lookup_some in L as [L1 L2]. eauto.
    + symmetry. apply not_true_is_false. intros C. apply existsb_exists in C as (e & He & Hk). rewrite (proj1 (lookup_none _ _ _) L e He) in Hk. discriminate.
  - (* EqualRange *)
    eapply outcome_bind; [eapply outcome_weaken; [apply (equal_range_ok c t k n H)| |]|].
    + intros r t' X. exact X.
    + intros kd t' (-> & Hk & R). split; [auto|]. split; [exact H|]. split; [apply Ids_refl|]. cbn. auto.
    + intros r t' n1 (-> & m & m2 & A1 & A2 & L & X). cbv beta in *. rewrite bind_get. unfold bind.
      pose proof (cap_elems c t H) as CE. pose proof A2 as [L2 _].
      rewrite (walk_ok c t t n1 (snd r) m2 H A2 (S (N.to_nat (capacity (arr t)))) m (fst r) L A1 ltac:(lia)). cbn [ret outcome].
      split; [exact H|]. split; [apply Ids_refl|]. cbn [FoaSpec.spec1]. split; [|reflexivity].
      assert (m2 <= length (elems (arr t)))%nat as L2' by exact L2.
      clear - X L L2'. revert m m2 L L2' X. induction (elems (arr t)) as [|e l IH]; intros m m2 L L2 X.
      { cbn in L2. assert (m = 0 /\ m2 = 0)%nat as [-> ->] by lia. reflexivity. }
      cbn [filter]. pose proof (X O e eq_refl) as X0.
      assert (forall a b, (forall j e0, nth_error l j = Some e0 -> keqf c (pid t) k (fst e0) = true <-> (a <= j < b)%nat) -> (a <= b)%nat -> (b <= length l)%nat ->
                firstn (b - a) (skipn a l) = filter (fun e0 => keqf c (pid t) k (fst e0)) l) as IH' by (intros a b HX Hab Hb; apply IH; auto).
      destruct (keqf c (pid t) k (fst e)) eqn:Ek.
      * destruct X0 as [X0 _]. specialize (X0 eq_refl). assert (m = 0)%nat as -> by lia. destruct m2 as [|m2]; [lia|].
        rewrite Nat.sub_0_r. cbn [skipn firstn]. f_equal. rewrite <- (IH' O m2); [rewrite Nat.sub_0_r; reflexivity| |lia|cbn in L2; lia].
        intros j e0 Hj. rewrite (X (S j) e0 Hj). lia.
      * destruct m as [|m].
        -- assert (m2 = 0)%nat as -> by (destruct m2; [reflexivity|]; destruct X0 as [_ X0]; specialize (X0 ltac:(lia)); discriminate).
           rewrite <- (IH' O O); [reflexivity| |lia|lia]. intros j e0 Hj. rewrite (X (S j) e0 Hj). lia.
        -- destruct m2 as [|m2]; [lia|]. cbn [skipn Nat.sub]. apply IH'; [|lia|cbn in L2; lia]. intros j e0 Hj. rewrite (X (S j) e0 Hj). lia.
  - (* Erase *)
    unfold m_erase. rewrite bind_bind, bind_get, bind_bind. eapply outcome_bind; [eapply outcome_weaken; [apply (find_ok c t k t n H)| |]|].
    + intros r t' X. exact X.
    + intros kd t' (-> & Hk & R). split; [auto|]. split; [exact H|]. split; [apply Ids_refl|]. cbn. auto.
    + intros loc t' n1 [-> F]. destruct loc as [[g m]|]; cbn [found] in F.
      * destruct F as (L15 & e & He & Hk). rewrite bind_bind. pose proof (erase_ok c t (slot_index g m) e n1 H He) as X.
        rewrite slot_div, slot_mod in X by exact L15. eapply outcome_bind; [eapply outcome_weaken; [exact X| |]|].
        -- intros u t' Y. exact Y.
        -- intros kd t' [].
        -- intros u t' n2 ([Id _ _ _] & I & P & _). cbn [bind ret outcome]. split; [exact I|]. split; [exact Id|]. cbn [FoaSpec.spec1].
           rewrite filter_uniq, (lookup_cell t k _ e H He Hk) by assumption. split; [reflexivity|].
           pose proof (filter_perm (fun e => negb (keqf c (pid t) k (fst e))) _ _ P) as P'. rewrite P'. cbn [filter]. rewrite Hk. cbn [negb].
           rewrite filter_all; [reflexivity|]. intros x Hx. apply negb_true_iff.
           assert (Uniq c (pid t) (e :: elems (arr t'))) as U' by (eapply uniq_perm; [exact Eq|exact P|exact U]).
           inversion U' as [|? ? F _]; subst. rewrite Forall_forall in F. specialize (F x Hx).
           destruct (keqf c (pid t) k (fst x)) eqn:Ex; [|reflexivity]. destruct Eq as (_ & S & T). rewrite <- F. symmetry.
           apply (T _ k); [rewrite S|]; assumption.
      * cbn [bind ret outcome]. split; [exact H|]. split; [apply Ids_refl|]. cbn [FoaSpec.spec1].
        assert (lookup (pid t) k (elems (arr t)) = None) as L by (apply lookup_none; exact F).
        rewrite filter_uniq, L by assumption. split; [reflexivity|]. rewrite filter_all; [reflexivity|].
        intros x Hx. rewrite (F x Hx). reflexivity.
  - (* EraseIf *)
    pose proof (erase_if_ok c (fun _ => pr) t [] n H) as X. destruct (erase_if c (fun _ => pr) (t, []) n) as [x s n1|kd s n1|]; cbn [outcome] in *; [| |destruct X].
    + destruct X as (I & Id & _ & E & -> & _). split; [exact I|]. split; [exact Id|]. cbn [FoaSpec.spec1]. rewrite E, kept_filter.
      pose proof (filter_split pr (elems (arr t))). split; [|reflexivity]. f_equal. lia.
    + destruct X as (-> & R & I & Id & l1 & e & l2 & E & _ & E2). split; [auto|]. split; [exact I|]. split; [exact Id|]. cbn [FoaSpec.spec1]. split; [reflexivity|].
      exists (filter pr l1). split.
      * rewrite E2, E, kept_filter, app_assoc. apply Permutation_app_tail. apply filter_partition.
      * apply forallb_forall. intros y Hy. apply filter_In in Hy. apply Hy.
  - (* EraseLoop *)
    rewrite bind_get. destruct (iter_begin c t H) as (it & Eb & A). rewrite Eb. cbn [of_option]. rewrite bind_ret.
    pose proof (cap_elems c t H) as CE.
    eapply outcome_bind; [eapply outcome_weaken; [apply (erase_loop_ok c pr _ t 0 it n H A)| |]|].
    + lia.
    + intros r t' X. exact X.
    + intros kd t' [].
    + intros l t' n1 (I & Id & _ & -> & E). cbn [ret outcome]. split; [exact I|]. split; [exact Id|]. cbn [FoaSpec.spec1 skipn firstn app] in *. rewrite E. auto.
  - (* EraseNth *)
    rewrite bind_get. rewrite (i_sz _ _ H) in Hpre. destruct (nth_it_ok t m H ltac:(lia)) as (it & -> & A). cbn [of_option]. rewrite bind_ret.
    destruct (nth_error (elems (arr t)) m) as [e|] eqn:He; [|apply nth_error_None in He; lia].
    unfold bind at 1. rewrite (iter_deref c t m it e t n H A He).
    eapply outcome_bind; [eapply outcome_weaken; [apply (erase_at_iter_ok c t m it e n H A He)| |]|].
    + intros r t' X. exact X.
    + intros kd t' [].
    + intros it' t' n1 [EA _]. cbn [ret outcome]. split; [apply EA|]. split; [apply EA|]. cbn [FoaSpec.spec1]. rewrite (ea_elems _ _ _ _ _ EA).
      destruct (nth_error_split _ _ He) as (l1 & l2 & -> & <-). rewrite drop_mid. exists l1, l2. auto.
  - (* EraseRange *)
    destruct Hpre as [Hm Hm2]. rewrite (i_sz _ _ H) in Hm2.
    rewrite bind_get. destruct (nth_it_ok t m H ltac:(lia)) as (it & -> & A). destruct (nth_it_ok t m2 H ltac:(lia)) as (it2 & -> & A2). cbn [of_option]. rewrite !bind_ret.
    pose proof (cap_elems c t H) as CE.
    eapply outcome_bind; [eapply outcome_weaken; [apply (erase_range_ok c _ t m m2 it it2 n H A A2 Hm)| |]|].
    + lia.
    + intros r t' X. exact X.
    + intros kd t' [].
    + intros it' t' n1 (I & Id & _ & _ & E & _). cbn [ret outcome]. split; [exact I|]. split; [exact Id|]. cbn [FoaSpec.spec1]. split; [exact Hm|exact E].
  - (* Clear *)
    eapply outcome_bind; [eapply outcome_weaken; [apply (clear_ok c t n (inv_w c t H))| |]|].
    + intros r t' X. exact X.
    + intros kd t' [].
    + intros u t' n1 (I & Id & E & _). cbn [ret outcome]. split; [exact I|]. split; [exact Id|exact E].
  - (* Rehash *)
    eapply outcome_bind; [eapply outcome_weaken; [apply (rehash_ok c HC t n' n H Hpre)| |]|].
    + intros r t' X. exact X.
    + intros kd t' X. apply failed_spec; [right; right; right; eauto|]. exact (rehash_failed t kd t' _ H X).
    + intros u t' n1 (I & Id & P & _). cbn [ret outcome]. split; [exact I|]. split; [exact Id|exact P].
  - (* Reserve *)
    eapply outcome_bind; [eapply outcome_weaken; [apply (reserve_ok c HC t n' n H Hpre)| |]|].
    + intros r t' X. exact X.
    + intros kd t' X. apply failed_spec; [right; right; right; eauto|]. exact (rehash_failed t kd t' _ H X).
    + intros u t' n1 (I & Id & P & _). cbn [ret outcome]. split; [exact I|]. split; [exact Id|exact P].
  - (* Iterate *)
    rewrite bind_get. unfold bind. rewrite (iterate_ok c t t n H). cbn [ret outcome]. split; [exact H|]. split; [apply Ids_refl|]. cbn. auto.
  - (* Size *)
    rewrite bind_get. cbn [ret outcome]. split; [exact H|]. split; [apply Ids_refl|]. cbn. rewrite (i_sz _ _ H). auto.
  - (* MergeSelf *)
    eapply outcome_bind; [eapply outcome_weaken; [apply (merge_self_ok c t n H)| |]|].
    + intros r t' X. exact X.
    + intros kd t' (-> & Hk & R). split; [auto|]. split; [exact H|]. split; [apply Ids_refl|]. cbn. auto.
    + intros u t' n1 ->. cbn [ret outcome]. split; [exact H|]. split; [apply Ids_refl|]. reflexivity.
Qed.
End Api.
