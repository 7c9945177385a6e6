(** Further consequences: iteration versus internal traversal, free slots, objects, ranges. *)
From Coq Require Import NArith ZArith Bool List Arith Lia ZifyBool ZifyNat ZifyN Permutation.
From Verif Require Import FloatModel SizeModel SizeProofs GroupModel GroupSpec FoaModel FoaGroup FoaBase FoaFind FoaArr FoaInv FoaRehash FoaOps FoaCopy FoaAssign FoaMerge FoaIterModel FoaIter FoaSpec FoaWorld FoaApi FoaRun FoaProps FoaProps2.
Import ListNotations.
Local Open Scope N_scope.

Section Props.
Context {K V : Type} (c : Cfg K V).
Hypothesis HC : good_cfg c.
Notation arrays := (arrays K V).
Notation table := (table K V).
Notation lookup := (lookup (V:=V) (keqf c)).
Notation add := (add (V:=V) (keqf c)).
Notation add_all := (add_all (V:=V) (keqf c)).

Lemma live_elems (t : table) x : Inv c t -> In x (elems (arr t)) <-> exists i, stored t i x.
Proof. intros H. unfold stored. apply in_elems. Qed.

Lemma traverse_ok (t : table) n : Inv c t ->
  match for_all (fun _ => arr t) (fun g m => bind (read_element (arr t) (slot_index g m)) (fun e => modify (fun seen => seen ++ [e]))) [] n with
     Ret _ seen _ => seen = elems (arr t) | _ => False end.
Proof.
  intros H.
  assert (outcome (for_all (fun _ => arr t) (fun g m => bind (read_element (arr t) (slot_index g m)) (fun e => modify (fun seen => seen ++ [e]))) [] n)
    (fun _ seen => seen = elems (arr t)) (fun _ _ => False)) as X; [|destruct (for_all _ _ _ n); exact X].
  destruct (i_arr _ _ H) as [E|(k & HG & Hk)].
  { rewrite for_all_none by (rewrite E; reflexivity). cbn [outcome]. rewrite E. reflexivity. }
  pose proof HG as [HS _]. rewrite (elems_occ c _ k _ HG).
  apply (for_all_ok _ _ k (arr t) (fun done todo s => s = at_slots (arr t) done)); auto.
  - intros done i todo s n' Ho ->.
    assert (In i (occ (arr t))) as Hi by (rewrite <- Ho; apply in_or_app; right; now left).
    apply (good_occ c (hid t) k) in Hi as [e He]; [|exact HG].
    rewrite slot_of. unfold read_element. rewrite (get_cell_eq k), He by exact HS. rewrite bind_ret. cbn [modify outcome].
    rewrite at_slots_app. f_equal. unfold at_slots. cbn [flat_map]. rewrite He. reflexivity.
  - intros done todo s g _ _ Hg _. unfold get_group, grp. apply nth_error_nth'. rewrite (sh_groups _ _ HS). exact Hg.
  - apply (sh_elems _ _ HS).
  - apply (sh_mask _ _ HS).
Qed.

Lemma iteration t : reachable c t ->
  exists l,
  (forall x, In x l <-> exists i, stored t i x) /\ length l = N.to_nat (sz t) /\ NoDup l /\
  (forall (St : Type) (s : St) n, m_iterate c t s n = Ret l s n) /\
  (forall n, match for_all (fun _ => arr t) (fun g m => bind (read_element (arr t) (slot_index g m)) (fun e => modify (fun seen => seen ++ [e]))) [] n with
     Ret _ seen _ => seen = l | _ => False end) /\
  (forall m, (m <= length l)%nat -> exists it, nth_it c t m = Some it /\ it_eqb it it_end = Nat.eqb m (length l) /\
      forall x, nth_error l m = Some x -> forall (St : Type) (s : St) n, it_deref (arr t) it s n = Ret x s n).
Proof.
  intros R. pose proof (rinv c HC t R) as H. destruct (traversal c HC t R) as [T1 T2]. exists (elems (arr t)).
  split; [intros x; apply live_elems; exact H|]. split; [rewrite (i_sz _ _ H); lia|]. split; [eapply uniq_nodup; [apply (inv_equiv c t H)|apply H]|].
  split; [exact T1|]. split; [intros n; apply traverse_ok; exact H|exact T2].
Qed.

Lemma free_slot t : reachable c t -> sz t < ml t -> exists i, nth_error (cells (arr t)) i = Some Raw.
Proof.
  intros R L. pose proof (rinv c HC t R) as H. destruct (load_bounds c HC t R) as (_ & B & _ & E).
  assert (N.of_nat (length (elems (arr t))) < N.of_nat (length (cells (arr t)))) as X by (rewrite <- (i_sz _ _ H), <- E; lia).
  assert (forall j x, nth_error (cells (arr t)) j = Some x -> x <> Moved) as NM.
  { intros j x Hx ->. destruct (i_arr _ _ H) as [E0|(k & [HS HG] & _)]; [rewrite E0 in Hx; destruct j; discriminate|]. specialize (HG j _ Hx). exact HG. }
  unfold elems in X. revert X NM. generalize (cells (arr t)). clear. intros l X NM.
  induction l as [|x l IH]; [cbn in X; lia|]. destruct x as [| |e].
  - exists O. reflexivity.
  - exfalso. apply (NM O Moved); reflexivity.
  - destruct IH as [i Hi]; [cbn in X; lia|intros j y Hy; apply (NM (S j) y Hy)|]. exists (S i). exact Hi.
Qed.

Lemma inv_objects (t : table) : Inv c t -> (forall j x, nth_error (cells (arr t)) j = Some x -> x <> Moved) /\
    length (filter (fun x => negb (is_raw x)) (cells (arr t))) = N.to_nat (sz t).
Proof.
  intros H. assert (forall j x, nth_error (cells (arr t)) j = Some x -> x <> Moved) as NM.
  { intros j x Hx ->. destruct (i_arr _ _ H) as [E0|(k & [HS HG] & _)]; [rewrite E0 in Hx; destruct j; discriminate|]. specialize (HG j _ Hx). exact HG. }
  split; [exact NM|]. rewrite (i_sz _ _ H). rewrite Nnat.Nat2N.id. unfold elems. revert NM. generalize (cells (arr t)). clear. intros l NM.
  induction l as [|x l IH]; [reflexivity|]. assert (forall j y, nth_error l j = Some y -> y <> Moved) as NM' by (intros j y Hy; apply (NM (S j) y Hy)).
  specialize (IH NM'). destruct x as [| |e]; cbn; [exact IH| |rewrite IH; reflexivity]. exfalso. apply (NM O Moved); reflexivity.
Qed.
Lemma objects rs w o n : runs c rs w -> pre c o w ->
  exec c o w n <> Undef /\
  forall r w', returned (exec c o w n) r w' -> forall i t, slot w' i = Some t ->
    (forall j x, nth_error (cells (arr t)) j = Some x -> x <> Moved) /\
    length (filter (fun x => negb (is_raw x)) (cells (arr t))) = N.to_nat (sz t).
Proof.
  intros R P. pose proof (exec_total c HC rs w o n R P) as X. split; [intros C; rewrite C in X; exact X|].
  intros r w' Hr i t Ht. apply inv_objects. apply (rinv c HC). exists (rs ++ [(o, r)]), w', i. split; [eapply runs_snoc; eauto|exact Ht].
Qed.

(** ** ranges *)
Lemma lookup_add p l e k : equivalence c p -> lookup p k (add p l e) = match lookup p k l with Some x => Some x | None => lookup p k [e] end.
Proof.
  intros (_ & S & T). unfold FoaSpec.add. destruct (lookup p (fst e) l) as [y|] eqn:E.
  - destruct (lookup p k l) as [x|] eqn:Ek; [reflexivity|]. unfold FoaSpec.lookup at 1. cbn. destruct (keqf c p k (fst e)) eqn:Eke; [|reflexivity].
    exfalso. apply lookup_some in E as [Hy Hk]. rewrite (proj1 (lookup_none c _ _ _) Ek y Hy) in Hk || idtac.
    pose proof (T _ _ _ Eke Hk) as C. rewrite (proj1 (lookup_none c _ _ _) Ek y Hy) in C. discriminate.
  - unfold FoaSpec.lookup. cbn. destruct (keqf c p k (fst e)) eqn:Eke; [|destruct (List.find _ l); reflexivity].
    assert (lookup p k l = None) as Ek; [|unfold FoaSpec.lookup in Ek; rewrite Ek; reflexivity].
    apply lookup_none. intros x Hx. destruct (keqf c p k (fst x)) eqn:Ekx; [|reflexivity]. exfalso.
    rewrite S in Eke. pose proof (T _ _ _ Eke Ekx) as C. rewrite (proj1 (lookup_none c _ _ _) E x Hx) in C. discriminate.
Qed.
Lemma lookup_add_all p es k : equivalence c p -> forall l, lookup p k (add_all p l es) = match lookup p k l with Some x => Some x | None => lookup p k es end.
Proof.
  intros Eq. induction es as [|e es IH]; intros l; cbn [FoaSpec.add_all fold_left].
  - destruct (lookup p k l); reflexivity.
  - unfold FoaSpec.add_all in IH. rewrite IH, lookup_add by exact Eq. destruct (lookup p k l); [reflexivity|]. unfold FoaSpec.lookup. cbn. destruct (keqf c p k (fst e)); reflexivity.
Qed.
Lemma lookup_perm p k l l' : equivalence c p -> Uniq c p l -> Permutation l l' -> lookup p k l = lookup p k l'.
Proof.
  intros Eq U P. destruct (lookup p k l) as [x|] eqn:E.
  - apply lookup_some in E as [A B]. symmetry. apply (lookup_uniq c); auto; [eapply uniq_perm; eauto|]. eapply Permutation_in; eauto.
  - symmetry. eapply lookup_perm_none; eauto.
Qed.
Lemma range_lookup_inv (t : table) es n u t' n' : Inv c t -> m_insert_range c es t n = Ret u t' n' ->
  Inv c t' /\ forall k, lookup (pid t) k (elems (arr t')) = match lookup (pid t) k (elems (arr t)) with Some x => Some x | None => lookup (pid t) k es end.
Proof.
  intros H X. pose proof (insert_range_ok c HC es t _ n H (Permutation_refl _)) as Y. rewrite X in Y. destruct Y as (I & Id & P). split; [exact I|]. intros k.
  rewrite <- lookup_add_all by (apply (inv_equiv c t H)). apply lookup_perm; [apply (inv_equiv c t H)| |exact P]. rewrite <- (id_p _ _ Id). apply (i_uniq _ _ I).
Qed.
Lemma range_lookup t es n u t' n' : reachable c t -> m_insert_range c es t n = Ret u t' n' ->
  forall k, lookup (pid t) k (contents c t') = match lookup (pid t) k (contents c t) with Some x => Some x | None => lookup (pid t) k es end.
Proof.
  intros R X k. pose proof (rinv c HC t R) as H. destruct (range_lookup_inv t es n u t' n' H X) as [I Y]. rewrite !contents_eq by assumption. apply Y.
Qed.
Lemma assign_lookup t es n u t' n' : reachable c t -> m_assign_list c es t n = Ret u t' n' ->
  forall k, lookup (pid t) k (contents c t') = lookup (pid t) k es.
Proof.
  intros R X k. pose proof (rinv c HC t R) as H. unfold m_assign_list, bind in X. pose proof (clear_ok c t n (inv_w c t H)) as Y.
  destruct (clear t n) as [u1 t1 n1|kd t1 n1|]; [|discriminate|discriminate]. destruct Y as (I1 & Id & E & _).
  destruct (range_lookup_inv t1 es n1 u t' n' I1 X) as [I Z]. rewrite contents_eq by assumption. rewrite (id_p _ _ Id) in Z. rewrite Z, E. reflexivity.
Qed.
Lemma hint_irrelevant t hint e n : reachable c t ->
  match m_insert_hint c hint e t n, m_insert c e t n with
  | Ret it t' _, Ret r t'' _ => t' = t'' /\ exists x, (forall (St : Type) (s : St) m, it_deref (arr t') it s m = Ret x s m) /\ keqf c (pid t) (fst e) (fst x) = true
  | Exn k t' _, Exn k' t'' _ => k = k' /\ t' = t''
  | _, _ => False
  end.
Proof.
  intros R. pose proof (rinv c HC t R) as H. pose proof (insert_ok c HC t e n H) as X. unfold m_insert_hint, bind.
  destruct (m_insert c e t n) as [[l b] t' n'|kd t' n'|]; cbn [outcome] in X; [| auto|exact X].
  cbn [ret]. split; [reflexivity|]. destruct X as (I & Id & x & Hx & X). exists x. split.
  - intros St s m. unfold it_deref, it_make. cbn [it_p]. exact (read_cell c t' l x s m I Hx).
  - destruct (lookup (pid t) (fst e) (elems (arr t))) as [y|] eqn:E.
    + destruct X as (-> & _). apply lookup_some in E. apply E.
    + destruct X as (-> & _). apply (inv_equiv c t H).
Qed.
End Props.
