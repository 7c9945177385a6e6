(** Merging of closed-addressing containers. *)
From Coq Require Import NArith ZArith Bool List Arith Lia Permutation.
From Verif Require Import FloatModel HashArithModel HashArithProofs FoaModel FoaGroup FoaBase FcaLinks FcaLinksProofs FcaModel FcaInv FcaIter FcaTab FcaRehash FcaOps FcaIns FcaIns2 FcaHandle FcaErase FcaErase2 FcaCopy FcaMove.
Import ListNotations.
Local Open Scope m_scope.
Local Open Scope nat_scope.

Section Merge.
Context {K V : Type} (c : FCfg K V).
Notation node := (node K V).
Notation barray := (barray K V).
Notation table := (FcaModel.table K V).
Notation cb := (base c).
Notation St := (table * heap)%type.
Notation St2 := ((table * table) * heap)%type.
Notation CInv := (CInv c). Notation TInv := (TInv c). Notation raised := (raised c). Notation keq := (keq c). Notation lookup := (lookup c).
Notation SI := (SI c). Notation OpExn := (OpExn c). Notation SI2 := (SI2 c).
Implicit Types (b nb : barray) (t x : table) (y z : node) (s : St) (e : K * V).

(** the elements of [lx] that move, in order, when [l] is there already; and those that stay *)
Fixpoint msplit (p : N) (l lx : list node) : list node * list node :=
  match lx with
  | [] => ([], [])
  | y :: r => match lookup p (nkey y) l with
              | Some _ => let q := msplit p l r in (fst q, y :: snd q)
              | None => let q := msplit p (y :: l) r in (y :: fst q, snd q)
              end
  end.
Lemma msplit_perm p lx : forall l, Permutation lx (fst (msplit p l lx) ++ snd (msplit p l lx)).
Proof.
  induction lx as [|y r IH]; intros l; cbn [msplit]; [constructor|]. destruct (lookup p (nkey y) l); cbn [fst snd].
  - rewrite (IH l) at 1. apply Permutation_middle.
  - cbn [app]. constructor. apply IH.
Qed.
Lemma lookup_dec_perm p k l l' : Permutation l l' -> (lookup p k l = None <-> lookup p k l' = None).
Proof. intros P. split; apply lookup_none_perm; [exact P|symmetry; exact P]. Qed.
Lemma msplit_same p lx : forall l l', Permutation l l' -> msplit p l lx = msplit p l' lx.
Proof.
  induction lx as [|y r IH]; intros l l' P; cbn [msplit]; [reflexivity|]. pose proof (lookup_dec_perm p (nkey y) l l' P) as D.
  destruct (lookup p (nkey y) l) as [a|], (lookup p (nkey y) l') as [b|].
  - rewrite (IH l l' P). reflexivity.
  - destruct D as [_ D]. specialize (D eq_refl). discriminate.
  - destruct D as [D _]. specialize (D eq_refl). discriminate.
  - rewrite (IH (y :: l) (y :: l')); [reflexivity|constructor; exact P].
Qed.
Lemma SI2_parts r t x h l lx : SI2 r ((t, x), h) l lx -> TInv t l /\ TInv x lx /\ live h = length l + length lx + r /\ Forall (fun y => nd_id y < next h) l /\ Forall (fun y => nd_id y < next h) lx.
Proof. intros [[A1 A2 A3] [B1 B2 B3]]. cbn [fst snd] in *. split; [exact A1|]. split; [exact B1|]. split; [lia|]. auto. Qed.
Lemma lookup_cases p k l : lookup p k l = None \/ exists y, lookup p k l = Some y. Proof. destruct (lookup p k l); eauto. Qed.

(** *** unordered_map/unordered_set *)
Definition MgPost (r : nat) (t x : table) (h : heap) (l lx : list node) (s' : St2) : Prop :=
  exists l', SI2 r s' l' (snd (msplit (f_pid t) l lx)) /\ Permutation l' (fst (msplit (f_pid t) l lx) ++ l) /\ Fr (t, h) (fst (fst s'), snd s') /\ SameX x (snd (fst s')) /\ next (snd s') = next h.
(** nothing is lost unless the hash function throws *)
Definition MgExn (r : nat) (t x : table) (h : heap) (l lx : list node) (kd : kind) (s' : St2) : Prop :=
  raised kd /\ exists l' lx' lost, SI2 r s' l' lx' /\ Permutation (l ++ lx) (lost ++ l' ++ lx') /\ (kd <> KHash -> lost = []) /\ Fr (t, h) (fst (fst s'), snd s') /\ SameX x (snd (fst s')) /\ next (snd s') = next h.
Lemma shift_pos s s' (l1 : list node) y l2 nx : Valid s s' (l1 ++ l2) -> Pos (f_b (fst s)) (l1 ++ y :: l2) (S (length l1)) nx -> Pos (f_b (fst s')) (l1 ++ l2) (length l1) nx.
Proof.
  intros Va. unfold Pos. rewrite !nth_error_app2 by lia. rewrite Nat.sub_diag. replace (S (length l1) - length l1) with 1 by lia. destruct l2 as [|z l2]; cbn [nth_error].
  - intros [A B]. split; [rewrite app_nil_r; reflexivity|exact B].
  - apply Va. apply in_elt.
Qed.
Lemma SameB_SameX s s' : SameB s s' -> SameX (fst s) (fst s').
Proof. intros (A & B & C & D). split; [exact D|]. split; assumption. Qed.
Lemma merge_from_ok r : multi c = false -> forall rest done t x h l pos fuel n, length rest < fuel -> SI2 r ((t, x), h) l (done ++ rest) -> NoDup (map nd_id (l ++ done ++ rest)) -> f_al t = f_al x ->
  Pos (f_b x) (done ++ rest) (length done) pos -> 0 < b_size (f_b t) -> room l (length rest) ->
  outcome (merge_from c fuel pos ((t, x), h) n)
    (fun _ (s' : St2) => exists l', SI2 r s' l' (done ++ snd (msplit (f_pid t) l rest)) /\ Permutation l' (fst (msplit (f_pid t) l rest) ++ l) /\ Fr (t, h) (fst (fst s'), snd s') /\ SameX x (snd (fst s')) /\ next (snd s') = next h)
    (fun kd (s' : St2) => raised kd /\ exists l' lx', SI2 r s' l' lx' /\ Permutation (l ++ done ++ rest) (l' ++ lx') /\ Fr (t, h) (fst (fst s'), snd s') /\ SameX x (snd (fst s')) /\ next (snd s') = next h).
Proof.
  intros Mu. induction rest as [|y rest IH]; intros done t x h l pos fuel n Lf I2 ND Al PO Z Rm; (destruct fuel as [|fuel]; [lia|]); cbn [merge_from].
  - rewrite (e_end_pos (f_b x) (done ++ []) (length done) pos) by (try exact PO; rewrite app_nil_r; lia). rewrite app_nil_r, Nat.eqb_refl. cbn [outcome ret msplit fst snd app]. exists l. rewrite app_nil_r in *. split; [exact I2|]. split; [reflexivity|]. split; [apply Fr_refl|]. split; [apply SameX_refl|reflexivity].
  - destruct (SI2_parts r t x h l _ I2) as (T & Tx & Lv & Fn & Fx).
    rewrite (e_end_pos (f_b x) (done ++ y :: rest) (length done) pos) by (try exact PO; rewrite app_length; cbn [length]; lia). rewrite app_length. cbn [length]. replace (length done =? length done + S (length rest)) with false by (symmetry; apply Nat.eqb_neq; lia).
    rewrite get2_eq. cbn [fst snd]. assert (NIt (f_b x) y pos) as Ny by (apply (pos_node _ _ _ _ y PO); rewrite nth_error_app2, Nat.sub_diag by lia; reflexivity).
    pose proof (TInv_wf c x _ y Tx (in_elt _ _ _)) as Wx. pose proof (ci_ids _ _ _ (ti_c _ _ _ Tx)) as NDx.
    rewrite (e_node_ok _ _ y pos Wx NDx Ny). cbn [of_option]. rewrite bind_ret.
    assert (forall kd, raised kd -> raised kd /\ exists l' lx', SI2 r ((t, x), h) l' lx' /\ Permutation (l ++ done ++ y :: rest) (l' ++ lx') /\ Fr (t, h) (t, h) /\ SameX x x /\ next h = next h) as EX.
    { intros kd R. split; [exact R|]. exists l, (done ++ y :: rest). split; [exact I2|]. split; [reflexivity|]. split; [apply Fr_refl|]. split; [apply SameX_refl|reflexivity]. }
    apply outcome_hash; [intros R; apply EX; exact R|]. intros n1. destruct (at_hash_ok c t l (nkey y) (ti_c _ _ _ T)) as (itb & Ah). rewrite Ah. cbn [of_option]. rewrite bind_ret.
    eapply outcome_bind; [eapply outcome_weaken; [apply (find_node_impl_ok c t l (nkey y) itb ((t, x), h) n1 (ti_c _ _ _ T) Ah)|intros a s' X; exact X|]|].
    { cbn beta. intros kd s' (-> & _ & R). apply EX. exact R. }
    cbn beta. intros ri s' n2 [-> ->].
    destruct (e_next_ok (f_b x) _ (length done) pos Wx NDx ltac:(rewrite app_length; cbn [length]; lia) PO) as (nx & En & Pn). rewrite En. cbn [of_option]. rewrite bind_ret.
    cbn [length] in Lf, Rm. cbn [msplit]. destruct (lookup (f_pid t) (nkey y) l) as [z|] eqn:L; cbn [option_map].
    + assert (done ++ y :: rest = (done ++ [y]) ++ rest) as EA by (rewrite <- app_assoc; reflexivity).
      eapply outcome_weaken; [apply (IH (done ++ [y]) t x h l nx fuel n2); auto; [lia|rewrite <- EA; exact I2|rewrite <- EA; exact ND|rewrite <- EA, app_length; cbn [length]; rewrite Nat.add_1_r; exact Pn|unfold room in *; lia]| |]; cbn beta.
      * intros [] s' Q. cbn [fst snd]. rewrite <- app_assoc in Q. cbn [app] in Q. exact Q.
      * intros kd s' Q. rewrite <- app_assoc in Q. exact Q.
    + eapply bind_on2; [apply (extract_at_ok c _ (x, h) done y rest pos n2 _ (proj2 I2) Ny)|]. cbn beta. cbn [fst snd]. intros y' x1 h1 n3 (-> & Ix & SB & Eh & Va). cbn [fst snd] in Eh. subst h1.
      pose proof (SameB_SameX _ _ SB) as SX1. cbn [fst] in SX1. pose proof (proj1 I2) as It. cbn [fst snd] in It. rewrite app_length in It. cbn [length] in It.
      assert (SI (S (length (done ++ rest) + r)) (t, h) l) as It' by (replace (S (length (done ++ rest) + r)) with (length done + S (length rest) + r) by (rewrite app_length; lia); exact It).
      assert (nd_al y = f_al x) as Aly by (apply (al_in c x _ y Tx (in_elt _ _ _))).
      assert (~ In (nd_id y) (map nd_id l)) as Niy. { intros J. rewrite app_assoc, map_app in ND. cbn [map] in ND. apply NoDup_remove_2 in ND. apply ND. apply in_or_app. left. rewrite map_app. apply in_or_app. left. exact J. }
      assert (nd_id y < next h) as Ly by (rewrite Forall_app in Fx; destruct Fx as [_ Fx]; inversion Fx; assumption).
      eapply (bind_on1 _ _ _ _ _ _ (fun _ s' => exists t' l', s' = (t', h) /\ SI (length (done ++ rest) + r) (t', h) l' /\ Permutation l' (y :: l) /\ Fr (t, h) (t', h) /\ 0 < b_size (f_b t'))).
      { change (insert_node ?b itb y) with (insert_node_hint b itb y None). apply (on_b_insert_ok c _ t h l y itb None _ n3 _ _ It' (conj (eq_trans Aly (eq_sym Al)) (conj Niy Ly)) Z Ah L); [unfold room in *; lia|].
        intros t' l' I' IA NI S ML BC. unfold mod_t, modify. cbn [outcome fst snd]. exists (inc_size t'), l'. split; [reflexivity|]. split; [exact I'|]. split; [apply (Inserted_perm _ _ _ (InsAt_ins _ _ _ _ IA))|]. split; [split; [exact S|split; [left; auto|cbn; lia]]|]. cbn [inc_size set_size f_b]. unfold bucket_count in BC. lia. }
      cbn beta. intros [] t1 h2 n4 (t' & l1 & Es & I1 & PM & F1 & Z1). assert (t1 = t' /\ h2 = h) as [-> ->] by (split; congruence). clear Es.
      assert (SI2 r ((t', x1), h) l1 (done ++ rest)) as I2'. { split; cbn [fst snd]; [exact I1|]. replace (length l1 + r) with (S (length l + r)) by (rewrite (Permutation_length PM); reflexivity). exact Ix. }
      pose proof F1 as ((Fa & Fb & Fc & Fd) & Fe & Ff). cbn [fst snd] in *.
      assert (Permutation (l ++ done ++ y :: rest) (l1 ++ done ++ rest)) as PA by (rewrite PM; cbn [app]; rewrite app_assoc, <- Permutation_middle, <- app_assoc; reflexivity).
      eapply outcome_weaken; [apply (IH done t' x1 h l1 nx fuel n4); auto| |]; cbn beta.
      * lia.
      * apply (Permutation_NoDup (Permutation_map nd_id PA)). exact ND.
      * destruct SX1 as ((_ & _ & X & _) & _). congruence.
      * apply (shift_pos (x, h) (x1, h) done y rest nx Va Pn).
      * unfold room in *. rewrite (Permutation_length PM). cbn [length]. lia.
      * intros [] s' (l' & Q1 & Q2 & Q3 & Q4 & Q5). rewrite Fb, (msplit_same _ rest l1 (y :: l) PM) in *. cbn [fst snd app]. exists l'. split; [exact Q1|]. split; [rewrite Q2, PM; symmetry; apply Permutation_middle|]. split; [apply (Fr_trans _ (t', h)); assumption|]. split; [apply (SameX_trans _ x1); assumption|exact Q5].
      * intros kd s' (R & l' & lx' & Q1 & Q2 & Q3 & Q4 & Q5). split; [exact R|]. exists l', lx'. split; [exact Q1|]. split; [rewrite PA; exact Q2|]. split; [apply (Fr_trans _ (t', h)); assumption|]. split; [apply (SameX_trans _ x1); assumption|exact Q5].
Qed.
Lemma merge_unique_ok r t x h l lx n : multi c = false -> SI2 r ((t, x), h) l lx -> NoDup (map nd_id (l ++ lx)) -> f_al t = f_al x -> room l (length lx) ->
  outcome (merge_unique c ((t, x), h) n) (fun _ (s' : St2) => MgPost r t x h l lx s') (MgExn r t x h l lx).
Proof.
  intros Mu I2 ND Al Rm. unfold merge_unique. rewrite get2_eq. cbn beta iota zeta. destruct (SI2_parts r t x h l lx I2) as (T & Tx & Lv & Fn & Fx). rewrite Al, N.eqb_refl. cbn [negb]. destruct (N.eqb_spec (f_size x) 0) as [E|E].
  - assert (lx = []) as -> by (destruct lx; [reflexivity|rewrite (ti_size _ _ _ Tx) in E; cbn in E; lia]). cbn [outcome ret]. exists l. cbn [msplit fst snd app]. split; [exact I2|]. split; [reflexivity|]. split; [apply Fr_refl|]. split; [apply SameX_refl|reflexivity].
  - assert (uadd (f_size t) (f_size x) = N.of_nat (length l + length lx)) as EU.
    { rewrite (ti_size _ _ _ T), (ti_size _ _ _ Tx). unfold uadd. rewrite N.mod_small; [lia|]. unfold room in Rm. pose proof max_elems_lt. lia. }
    rewrite EU. rewrite (ti_size _ _ _ Tx) in E.
    eapply bind_on1; [eapply outcome_weaken; [apply (reserve_for_insert_ok c t h l (N.of_nat (length l + length lx)) n T ltac:(lia) ltac:(lia) ltac:(unfold room in Rm; lia))|intros a s' X; exact X|]|].
    + cbn beta. intros kd s' [X _]. destruct (RehashExn_W c (length lx + r) t h l kd s' (proj1 I2) X) as (R & l' & lost & I' & P & F & NL). split; [exact R|].
      assert (next (snd s') = next h) as Enx by (destruct X as (_ & [[_ ->]|(_ & t' & l0 & lost0 & -> & _)]); reflexivity).
      exists l', lx, lost. split; [|split; [rewrite P, <- app_assoc; reflexivity|split; [exact NL|cbn [fst snd]; rewrite <- surjective_pairing; split; [exact F|split; [apply SameX_refl|exact Enx]]]]].
      destruct I' as [J1 J2 J3]. apply SI2_intro; auto; [lia|]. rewrite Enx. exact Fx.
    + cbn beta. intros _ t1 h1 n1 (Rh & Z & _). assert (h1 = h) as -> by (destruct Rh as (t2 & l2 & Es & _); congruence). destruct (Rehashed_SI c _ t h l (t1, h) (proj1 I2) Rh) as (l1 & I1 & P & F). cbn [fst snd] in *. pose proof F as ((Fa & Fb & Fc & Fd) & Fe & Ff). cbn [fst snd] in *.
      destruct (table_begin x lx (ci_b _ _ _ (ti_c _ _ _ Tx)) (ti_size _ _ _ Tx)) as (it & Eb & PO). rewrite Eb. cbn [of_option]. rewrite bind_ret.
      eapply outcome_weaken; [apply (merge_from_ok r Mu lx [] t1 x h l1 it (fuel_of x) n1)| |]; cbn [app] in *.
      * unfold fuel_of. rewrite (ti_size _ _ _ Tx), Nnat.Nat2N.id. lia.
      * split; cbn [fst snd]; [exact I1|]. rewrite <- (Permutation_length P). apply I2.
      * apply (Permutation_NoDup (Permutation_map nd_id (Permutation_app_tail lx P))). exact ND.
      * congruence.
      * exact PO.
      * exact Z.
      * unfold room in *. rewrite <- (Permutation_length P). exact Rm.
      * cbn beta. intros [] s' (l' & Q1 & Q2 & Q3 & Q4 & Q5). rewrite Fb, (msplit_same _ lx l1 l (Permutation_sym P)) in *. exists l'. split; [exact Q1|]. split; [rewrite Q2; apply Permutation_app_head; symmetry; exact P|]. split; [apply (Fr_trans _ (t1, h)); assumption|auto].
      * cbn beta. intros kd s' (R & l' & lx' & Q1 & Q2 & Q3 & Q4 & Q5). split; [exact R|]. exists l', lx', []. split; [exact Q1|]. cbn [app]. split; [rewrite P; exact Q2|]. split; [auto|]. split; [apply (Fr_trans _ (t1, h)); assumption|auto].
Qed.

(** *** unordered_multimap/unordered_multiset *)
Definition MmPost (r : nat) (t x : table) (h : heap) (l lx : list node) (s' : St2) : Prop :=
  exists l', SI2 r s' l' [] /\ Permutation l' (lx ++ l) /\ Fr (t, h) (fst (fst s'), snd s') /\ SameX x (snd (fst s')).
(** at most the element in hand is lost unless the hash function throws *)
Definition MmExn (r : nat) (t x : table) (h : heap) (l lx : list node) (kd : kind) (s' : St2) : Prop :=
  raised kd /\ exists l' lx' lost, SI2 r s' l' lx' /\ Permutation (l ++ lx) (lost ++ l' ++ lx') /\ (kd <> KHash -> length lost <= 1) /\ Fr (t, h) (fst (fst s'), snd s') /\ SameX x (snd (fst s')).
Lemma merge_multi_from_ok r : multi c = true -> forall lx t x h l fuel n, length lx < fuel -> SI2 r ((t, x), h) l lx -> NoDup (map nd_id (l ++ lx)) -> f_al t = f_al x -> room l (length lx) ->
  outcome (merge_multi_from c fuel ((t, x), h) n) (fun _ (s' : St2) => MmPost r t x h l lx s') (MmExn r t x h l lx).
Proof.
  intros Mu. induction lx as [|y rest IH]; intros t x h l fuel n Lf I2 ND Al Rm; (destruct fuel as [|fuel]; [lia|]); cbn [merge_multi_from]; rewrite get2_eq; cbn [fst snd];
    destruct (SI2_parts r t x h l _ I2) as (T & Tx & Lv & Fn & Fx); rewrite (ti_size _ _ _ Tx); cbn [length].
  - cbn [outcome ret N.of_nat N.eqb]. exists l. cbn [app]. split; [exact I2|]. split; [reflexivity|]. split; [apply Fr_refl|apply SameX_refl].
  - destruct (N.eqb_spec (N.of_nat (S (length rest))) 0) as [E|_]; [lia|].
    destruct (table_begin x _ (ci_b _ _ _ (ti_c _ _ _ Tx)) (ti_size _ _ _ Tx)) as (it & Eb & PO). rewrite Eb. cbn [of_option]. rewrite bind_ret.
    assert (NIt (f_b x) y it) as Ny by exact PO. cbn [length] in Lf, Rm, Lv.
    eapply bind_on2; [apply (extract_at_ok c _ (x, h) [] y rest it n _ (proj2 I2) Ny)|]. cbn beta. cbn [fst snd app]. intros y' x1 h1 n3 (-> & Ix & SB & Eh & _). cbn [fst snd] in Eh. subst h1.
    pose proof (SameB_SameX _ _ SB) as SX1. cbn [fst] in SX1. pose proof (proj1 I2) as It. cbn [fst snd length Nat.add] in It.
    assert (nd_al y = f_al x) as Aly by (apply (al_in c x _ y Tx (or_introl eq_refl))).
    rewrite map_app in ND. cbn [map] in ND. pose proof (NoDup_remove_2 _ _ _ ND) as Niy. assert (~ In (nd_id y) (map nd_id l)) as Niy' by (intros J; apply Niy; apply in_or_app; left; exact J).
    assert (nd_id y < next h) as Ly by (inversion Fx; assumption). assert (Forall (fun a => nd_id a < next h) rest) as Fx' by (inversion Fx; assumption).
    eapply (bind_on1 _ _ _ _ _ _ (fun _ s' => exists l', SI (length rest + r) s' l' /\ Permutation l' (y :: l) /\ Fr (t, h) s')).
    { unfold on_exn. pose proof (insert_handle_equiv_ok c (length rest + r) (t, h) l y n3 It (conj (eq_trans Aly (eq_sym Al)) (conj Niy' Ly)) Mu ltac:(unfold room in *; lia)) as Q.
      destruct (insert_handle_equiv c y (t, h) n3) as [p s' n'|kd s' n'|]; cbn [outcome] in *; [| |exact Q].
      - destruct Q as (_ & ho & _ & l0 & l' & P & IA & I' & F & _). exists l'. split; [exact I'|]. split; [|exact F]. rewrite (Inserted_perm _ _ _ (InsAt_ins _ _ _ _ IA)). constructor. symmetry. exact P.
      - destruct Q as (R & l' & lost & I' & P & F & NL). destruct s' as [t' h']. pose proof F as ((_ & _ & Fal & _) & _ & Fnx). cbn [fst snd] in *. pose proof (si_live _ _ _ _ I') as Lv'. cbn [snd] in Lv'.
        rewrite delete_node_ok by (cbn [fst snd] in *; try lia; congruence). cbn [outcome fst snd]. split; [exact R|]. exists l', rest, (y :: lost). split; [|split; [|split; [|split]]].
        + apply SI2_intro; [apply (si_t _ _ _ _ I')|apply (si_t _ _ _ _ Ix)|cbn [live]; lia|apply (si_next _ _ _ _ I')|]. cbn [next]. eapply Forall_impl; [|exact Fx']. cbn beta. intros a La. lia.
        + rewrite <- Permutation_middle. cbn [app]. constructor. rewrite P, <- app_assoc. reflexivity.
        + intros X. rewrite (NL X). reflexivity.
        + destruct F as (F1 & F2 & F3). split; [exact F1|]. split; [exact F2|exact F3].
        + exact SX1. }
    cbn beta. intros [] t1 h1 n4 (l1 & I1 & PM & F1). pose proof F1 as ((Fa & Fb & Fc & Fd) & Fe & Ff). cbn [fst snd] in *.
    assert (SI2 r ((t1, x1), h1) l1 rest) as I2'.
    { apply SI2_intro; [apply (si_t _ _ _ _ I1)|apply (si_t _ _ _ _ Ix)|pose proof (si_live _ _ _ _ I1) as X; cbn [snd] in X; lia|apply (si_next _ _ _ _ I1)|]. eapply Forall_impl; [|exact Fx']. cbn beta. intros a La. lia. }
    assert (Permutation (l ++ y :: rest) (l1 ++ rest)) as PA by (rewrite PM; cbn [app]; symmetry; apply Permutation_middle).
    eapply outcome_weaken; [apply (IH t1 x1 h1 l1 fuel n4)| |]; cbn beta.
    + lia.
    + exact I2'.
    + apply (Permutation_NoDup (Permutation_map nd_id PA)). rewrite map_app. exact ND.
    + destruct SX1 as ((_ & _ & X & _) & _). congruence.
    + unfold room in *. rewrite (Permutation_length PM). cbn [length]. lia.
    + intros [] s' (l' & Q1 & Q2 & Q3 & Q4). exists l'. split; [exact Q1|]. split; [rewrite Q2, PM; cbn [app]; symmetry; apply Permutation_middle|]. split; [apply (Fr_trans _ (t1, h1)); assumption|apply (SameX_trans _ x1); assumption].
    + intros kd s' (R & l' & lx' & lost & Q1 & Q2 & Q3 & Q4 & Q5). split; [exact R|]. exists l', lx', lost. split; [exact Q1|]. split; [rewrite PA; exact Q2|]. split; [exact Q3|]. split; [apply (Fr_trans _ (t1, h1)); assumption|apply (SameX_trans _ x1); assumption].
Qed.
Lemma merge_multi_ok r t x h l lx n : multi c = true -> SI2 r ((t, x), h) l lx -> NoDup (map nd_id (l ++ lx)) -> f_al t = f_al x -> room l (length lx) ->
  outcome (merge c ((t, x), h) n) (fun _ (s' : St2) => MmPost r t x h l lx s') (MmExn r t x h l lx).
Proof.
  intros Mu I2 ND Al Rm. unfold merge. rewrite Mu, get2_eq. cbn [fst snd]. rewrite Al, N.eqb_refl. cbn [negb]. apply merge_multi_from_ok; auto. destruct (SI2_parts r t x h l lx I2) as (_ & Tx & _). unfold fuel_of. rewrite (ti_size _ _ _ Tx), Nnat.Nat2N.id. lia.
Qed.
End Merge.
