(** operator== of the closed-addressing containers. *)
From Coq Require Import NArith ZArith Bool List Arith Lia Permutation.
From Verif Require Import FloatModel HashArithModel HashArithProofs FoaModel FoaGroup FoaBase FcaLinks FcaLinksProofs FcaModel FcaInv FcaIter FcaTab FcaRehash FcaOps FcaIns FcaIns2 FcaHandle FcaErase FcaErase2 FcaCopy FcaQuery.
Import ListNotations.
Local Open Scope m_scope.
Local Open Scope nat_scope.

(** *** two lists match: some rearrangement of the second is element by element related to the first *)
Section Match.
Context {A : Type} (R : A -> A -> bool).
Hypothesis Rrefl : forall a, R a a = true.
Hypothesis Rsym : forall a b, R a b = R b a.
Hypothesis Rtrans : forall a b d, R a b = true -> R b d = true -> R a d = true.
Definition matches (l1 l2 : list A) : Prop := exists l', Permutation l2 l' /\ Forall2 (fun a b => R a b = true) l1 l'.
Definition cnt (a : A) (l : list A) : nat := length (filter (fun b => R b a) l).
Lemma cnt_cons a b l : cnt a (b :: l) = (if R b a then 1 else 0) + cnt a l.
Proof. unfold cnt. cbn [filter]. destruct (R b a); reflexivity. Qed.
Lemma cnt_perm a l l' : Permutation l l' -> cnt a l = cnt a l'.
Proof. induction 1; rewrite ?cnt_cons in *; lia. Qed.
Lemma cnt_app a l l' : cnt a (l ++ l') = cnt a l + cnt a l'. Proof. unfold cnt. rewrite filter_app, app_length. reflexivity. Qed.
Lemma cnt_R a a' l : R a a' = true -> cnt a l = cnt a' l.
Proof.
  intros E. induction l as [|b l IH]; [reflexivity|]. rewrite !cnt_cons, IH. f_equal. destruct (R b a) eqn:E1, (R b a') eqn:E2; try reflexivity.
  - rewrite (Rtrans b a a' E1 E) in E2. discriminate.
  - rewrite (Rtrans b a' a E2) in E1; [discriminate|rewrite Rsym; exact E].
Qed.
Lemma R_same a b x : R a b = true -> R a x = R b x.
Proof. intros E. destruct (R a x) eqn:E1, (R b x) eqn:E2; try reflexivity; [rewrite (Rtrans b a x) in E2; [discriminate|rewrite Rsym; exact E|exact E1]|rewrite (Rtrans a b x E E2) in E1; discriminate]. Qed.
Lemma matches_cnt l1 l2 : matches l1 l2 <-> length l1 = length l2 /\ forall a, In a l1 -> cnt a l2 = cnt a l1.
Proof.
  split.
  - intros (l' & P & F). split; [rewrite (Permutation_length P); clear P; induction F; cbn [length]; congruence|]. intros a _. rewrite (cnt_perm a _ _ P). clear P. induction F as [|x y l1 l' E F IH]; [reflexivity|]. rewrite !cnt_cons, IH, (R_same x y a E). reflexivity.
  - revert l2. induction l1 as [|a l1 IH]; intros l2 [L C].
    + destruct l2; [|discriminate]. exists []. split; constructor.
    + assert (exists b, In b l2 /\ R b a = true) as (b & Ib & Eb).
      { specialize (C a (or_introl eq_refl)). rewrite cnt_cons, Rrefl in C. unfold cnt at 1 in C. destruct (filter (fun b => R b a) l2) as [|b r] eqn:Ef; [cbn in C; lia|]. exists b. apply (filter_In (fun b => R b a)). rewrite Ef. left. reflexivity. }
      apply in_split in Ib as (u & v & ->). destruct (IH (u ++ v)) as (l' & P & F).
      * split; [rewrite app_length in *; cbn [length] in *; lia|]. intros a' Ia. specialize (C a' (or_intror Ia)). rewrite !cnt_app, !cnt_cons in C. rewrite cnt_app. rewrite (R_same b a a' Eb) in C. lia.
      * exists (b :: l'). split; [rewrite <- Permutation_middle; constructor; exact P|]. constructor; [rewrite Rsym; exact Eb|exact F].
Qed.
Lemma matches_cons a b l1 l2 : R a b = true -> (matches (a :: l1) (b :: l2) <-> matches l1 l2).
Proof.
  intros E. rewrite !matches_cnt. cbn [length]. split; intros [L C]; (split; [lia|]).
  - intros x I. specialize (C x (or_intror I)). rewrite !cnt_cons, (R_same a b x E) in C. lia.
  - intros x I. rewrite !cnt_cons, (R_same a b x E). f_equal. destruct I as [<-|I]; [|apply C; exact I].
    destruct (Nat.eq_dec (cnt a l1) 0) as [Z|Z].
    + (* nothing equal to a is left on either side *)
      rewrite Z. assert (matches l1 l2) as (l' & P & F) by (apply matches_cnt; split; [lia|exact C]). rewrite (cnt_perm a _ _ P), <- Z. clear - F Rsym Rtrans. induction F as [|x y l1 l' E F IH]; [reflexivity|]. rewrite !cnt_cons, IH, (R_same x y a E). reflexivity.
    + unfold cnt in Z. destruct (filter (fun b0 => R b0 a) l1) as [|x r] eqn:Ef; [cbn in Z; lia|]. assert (In x l1 /\ R x a = true) as [Ix Ex] by (apply (filter_In (fun b0 => R b0 a)); rewrite Ef; left; reflexivity).
      rewrite <- (cnt_R x a l1 Ex), <- (cnt_R x a l2 Ex). apply C. exact Ix.
Qed.
Lemma matches_length l1 l2 : matches l1 l2 -> length l1 = length l2. Proof. intros H. apply matches_cnt in H. apply H. Qed.
Lemma matches_filter f l1 l2 : (forall a b, R a b = true -> f a = f b) -> matches l1 l2 -> length (filter f l1) = length (filter f l2).
Proof.
  intros Hf (l' & P & F). assert (length (filter f l2) = length (filter f l')) as -> by (clear F; induction P; cbn [filter]; repeat match goal with |- context [if f ?x then _ else _] => destruct (f x) end; cbn [length]; lia).
  clear P. induction F as [|x y l1 l' E F IH]; [reflexivity|]. cbn [filter]. rewrite (Hf x y E). destruct (f y); cbn [length]; lia.
Qed.
End Match.

Section Eq.
Context {K V : Type} (c : FCfg K V).
Notation node := (node K V).
Notation table := (FcaModel.table K V).
Notation cb := (base c).
Notation CInv := (CInv c). Notation TInv := (TInv c). Notation raised := (raised c). Notation keq := (keq c). Notation lookup := (lookup c).
Implicit Types (t : table) (x y z : node) (e : K * V).
Variable eeq : K * V -> K * V -> bool.
Notation "'Rn'" := (fun x y : node => eeq (nd_kv x) (nd_kv y)).

(** *** unique keys *)
Definition eq_in (p : N) (l : list node) (a : node) : bool := match lookup p (nkey a) l with Some b => eeq (nd_kv a) (nd_kv b) | None => false end.
Lemma equals_loop_ok {X} (y : table) ly (s : X) : TInv y ly -> forall l n, outcome (equals_loop c eeq y l s n) (fun r s' => s' = s /\ r = forallb (eq_in (f_pid y) ly) l) (RO c s).
Proof.
  intros T. pose proof (ti_c _ _ _ T) as H. induction l as [|a r IH]; intros n; cbn [equals_loop forallb]; [split; reflexivity|].
  eapply outcome_bind; [apply (find_node_ok c y ly (nkey a) s n H)|]. cbn beta. intros q s' n1 (-> & Eq & Hq). rewrite Eq. unfold eq_in at 1. destruct (lookup (f_pid y) (nkey a) ly) as [b|] eqn:L; cbn [option_map]; [|split; reflexivity].
  specialize (Hq b eq_refl). pose proof (lookup_some c _ _ _ _ L) as [Ib _]. pose proof (e_node_ok _ _ b _ (TInv_wf c y ly b T Ib) (ci_ids _ _ _ H) Hq) as En. unfold e_node in En. cbn [e_p e_b bindo] in En. rewrite En. cbn [of_option]. rewrite bind_ret.
  destruct (eeq (nd_kv a) (nd_kv b)); cbn [andb]; [apply IH|split; reflexivity].
Qed.
Lemma equals_unique_ok {X} (x y : table) lx ly (s : X) n : TInv x lx -> TInv y ly ->
  outcome (equals_unique c eeq x y s n) (fun r s' => s' = s /\ r = Nat.eqb (length lx) (length ly) && forallb (eq_in (f_pid y) ly) lx) (RO c s).
Proof.
  intros Tx Ty. unfold equals_unique. rewrite (ti_size _ _ _ Tx), (ti_size _ _ _ Ty). destruct (N.eqb_spec (N.of_nat (length lx)) (N.of_nat (length ly))) as [E|E].
  - apply Nnat.Nat2N.inj in E. rewrite E, Nat.eqb_refl. cbn [andb]. rewrite (elements_ok x lx (ci_b _ _ _ (ti_c _ _ _ Tx)) (ci_ids _ _ _ (ti_c _ _ _ Tx)) (ti_size _ _ _ Tx)). cbn [of_option]. rewrite bind_ret. apply equals_loop_ok. exact Ty.
  - assert (Nat.eqb (length lx) (length ly) = false) as -> by (apply Nat.eqb_neq; congruence). split; reflexivity.
Qed.
(** in terms of rearrangements *)
Definition mrel (p : N) (a b : node) : Prop := keqf cb p (nkey a) (nkey b) = true /\ eeq (nd_kv a) (nd_kv b) = true.
Lemma unique_matches p lx : forall ly, Uniq c p lx -> Uniq c p ly -> Eqv c p ->
  (Nat.eqb (length lx) (length ly) && forallb (eq_in p ly) lx = true <-> exists l', Permutation ly l' /\ Forall2 (mrel p) lx l').
Proof.
  induction lx as [|a lx IH]; intros ly Ux Uy EV; pose proof EV as [Sy Tr].
  - destruct ly as [|b ly]; cbn [length Nat.eqb andb forallb].
    + split; [intros _; exists []; split; constructor|reflexivity].
    + split; [discriminate|]. intros (l' & P & F). inversion F. subst. apply Permutation_sym, Permutation_nil in P. discriminate.
  - inversion Ux as [|? ? Fa Ux']. subst. split.
    + intros E. apply andb_true_iff in E as [L E]. apply Nat.eqb_eq in L. cbn [forallb] in E. apply andb_true_iff in E as [Ea E]. unfold eq_in in Ea. destruct (lookup p (nkey a) ly) as [b|] eqn:Lb; [|discriminate].
      pose proof (lookup_some c _ _ _ _ Lb) as [Ib Kb]. apply in_split in Ib as (u & v & ->).
      assert (Uniq c p (u ++ v)) as Uuv by (pose proof Uy as Q; apply uniq_app in Q as (Q1 & Q2 & Q3); inversion Q2; subst; apply uniq_app; split; [exact Q1|]; split; [assumption|]; intros y0 z I J; apply Q3; [exact I|right; exact J]).
      destruct (proj1 (IH (u ++ v) Ux' Uuv EV)) as (l' & P & F).
      * apply andb_true_iff. split; [apply Nat.eqb_eq; rewrite app_length in *; cbn [length] in L; lia|]. apply forallb_forall. intros a' Ia. rewrite forallb_forall in E. specialize (E a' Ia). unfold eq_in in *.
        destruct (lookup p (nkey a') (u ++ b :: v)) as [b'|] eqn:Lb'; [|discriminate]. rewrite Forall_forall in Fa. specialize (Fa a' Ia).
        assert (lookup p (nkey a') (u ++ v) = Some b') as ->; [|exact E]. unfold FcaTab.lookup in *. rewrite find_app in *. destruct (List.find (fun x => keqf cb p (nkey a') (nkey x)) u); [exact Lb'|]. cbn [List.find] in Lb'.
        destruct (keqf cb p (nkey a') (nkey b)) eqn:Eb; [|exact Lb']. exfalso. unfold FcaTab.keq in Fa. assert (FcaTab.keq c p a a' = true) as X; [|unfold FcaTab.keq in X; congruence]. apply (Tr a b a'); [exact Kb|]. rewrite Sy. exact Eb.
      * exists (b :: l'). split; [rewrite <- Permutation_middle; constructor; exact P|]. constructor; [split; assumption|exact F].
    + intros (l' & P & F). inversion F as [|? b ? l0 [Kb Eb] F']. subst. assert (In b ly) as Ib by (apply (Permutation_in _ (Permutation_sym P)); left; reflexivity). apply in_split in Ib as (u & v & ->).
      apply (Permutation_cons_app_inv _ _) in P || apply Permutation_sym, Permutation_cons_app_inv in P.
      assert (Uniq c p (u ++ v)) as Uuv by (pose proof Uy as Q; apply uniq_app in Q as (Q1 & Q2 & Q3); inversion Q2; subst; apply uniq_app; split; [exact Q1|]; split; [assumption|]; intros y0 z I J; apply Q3; [exact I|right; exact J]).
      assert (Nat.eqb (length lx) (length (u ++ v)) && forallb (eq_in p (u ++ v)) lx = true) as E by (apply IH; auto; exists l0; split; [first [exact P|symmetry; exact P]|exact F']).
      apply andb_true_iff in E as [L E]. apply Nat.eqb_eq in L. apply andb_true_iff. split; [apply Nat.eqb_eq; rewrite app_length in *; cbn [length]; lia|]. cbn [forallb]. apply andb_true_iff.
      assert (forall d, In d (u ++ v) -> keq p b d = false) as Nb.
      { intros d I. pose proof Uy as Q. apply uniq_app in Q as (_ & Q2 & Q3). apply in_app_or in I as [I|I]; [rewrite Sy; apply (Q3 d b I (or_introl eq_refl))|]. inversion Q2 as [|? ? Q4 _]. subst. rewrite Forall_forall in Q4. apply Q4. exact I. }
      split.
      * unfold eq_in. assert (lookup p (nkey a) (u ++ b :: v) = Some b) as ->; [|exact Eb]. unfold FcaTab.lookup. rewrite find_app, find_none_all; [cbn [List.find]; rewrite Kb; reflexivity|]. intros d I.
        destruct (keqf cb p (nkey a) (nkey d)) eqn:Ed; [|reflexivity]. assert (keq p b d = true) as X; [|rewrite (Nb d) in X; [discriminate|apply in_or_app; left; exact I]]. apply (Tr b a d); [rewrite Sy; exact Kb|exact Ed].
      * apply forallb_forall. intros a' Ia. rewrite forallb_forall in E. specialize (E a' Ia). unfold eq_in in *. destruct (lookup p (nkey a') (u ++ v)) as [b'|] eqn:Lb'; [|discriminate].
        assert (lookup p (nkey a') (u ++ b :: v) = Some b') as ->; [|exact E]. unfold FcaTab.lookup in *. rewrite find_app in *. destruct (List.find (fun x => keqf cb p (nkey a') (nkey x)) u); [exact Lb'|]. cbn [List.find].
        destruct (keqf cb p (nkey a') (nkey b)) eqn:Ebb; [|exact Lb']. exfalso. rewrite Forall_forall in Fa. specialize (Fa a' Ia). assert (keq p a a' = true) as X; [|congruence]. apply (Tr a b a'); [exact Kb|]. rewrite Sy. exact Ebb.
Qed.

(** *** equivalent keys *)
Hypothesis Erefl : forall e, eeq e e = true.
Hypothesis Esym : forall a b, eeq a b = eeq b a.
Hypothesis Etrans : forall a b d, eeq a b = true -> eeq b d = true -> eeq a d = true.
Notation nmatches := (matches (fun a b : node => eeq (nd_kv a) (nd_kv b))).
Notation ncnt := (cnt (fun a b : node => eeq (nd_kv a) (nd_kv b))).
Let Nrefl : forall a : node, eeq (nd_kv a) (nd_kv a) = true. Proof. intros a. apply Erefl. Qed.
Let Nsym : forall a b : node, eeq (nd_kv a) (nd_kv b) = eeq (nd_kv b) (nd_kv a). Proof. intros a b. apply Esym. Qed.
Let Ntrans : forall a b d : node, eeq (nd_kv a) (nd_kv b) = true -> eeq (nd_kv b) (nd_kv d) = true -> eeq (nd_kv a) (nd_kv d) = true. Proof. intros a b d. apply Etrans. Qed.
Lemma skip_ok : forall g1 g2 : list node, g1 <> [] -> g2 <> [] ->
  match skip_equal eeq g1 g2 with
  | (Some r, _) => r = true <-> nmatches g1 g2
  | (None, (r1, r2)) => nmatches g1 g2 <-> nmatches r1 r2
  end.
Proof.
  induction g1 as [|a r1 IH]; intros [|b r2] H1 H2; try contradiction. cbn [skip_equal]. destruct (eeq (nd_kv a) (nd_kv b)) eqn:E; [|reflexivity].
  pose proof (matches_cons _ Nrefl Nsym Ntrans a b r1 r2 E) as MC. destruct r1 as [|a1 r1].
  - destruct r2 as [|b1 r2].
    + split; [|reflexivity]. intros _. apply MC. exists []. split; constructor.
    + split; [discriminate|]. intros M. apply MC in M. apply (matches_length _ Nrefl Nsym Ntrans) in M. discriminate.
  - destruct r2 as [|b1 r2].
    + split; [discriminate|]. intros M. apply MC in M. apply (matches_length _ Nrefl Nsym Ntrans) in M. discriminate.
    + specialize (IH (b1 :: r2) ltac:(discriminate) ltac:(discriminate)). destruct (skip_equal eeq (a1 :: r1) (b1 :: r2)) as [[r|] [q1 q2]]; [rewrite IH, MC; reflexivity|rewrite MC, IH; reflexivity].
Qed.
Lemma check_ok (g2 : list node) : forall rest start, (check_counts eeq start rest g2 = true <-> (forall a, In a rest -> (exists d, In d start /\ eeq (nd_kv d) (nd_kv a) = true) \/ ncnt a g2 = ncnt a rest)).
Proof.
  induction rest as [|a r IH]; intros start; cbn [check_counts]; [split; [intros _ a []|reflexivity]|].
  destruct (existsb (fun x => eeq (nd_kv x) (nd_kv a)) start) eqn:Ex.
  - apply existsb_exists in Ex as (d & Id & Ed). rewrite IH. split.
    + intros H x [<-|I]; [left; eauto|]. destruct (H x I) as [(w & Iw & Ew)|H1].
      * apply in_app_or in Iw as [Iw|[<-|[]]]; [left; eauto|]. left. exists d. split; [exact Id|]. apply (Etrans _ (nd_kv a)); assumption.
      * destruct (eeq (nd_kv a) (nd_kv x)) eqn:Ea; [left; exists d; split; [exact Id|]; apply (Etrans _ (nd_kv a)); assumption|]. right. rewrite cnt_cons, Ea. exact H1.
    + intros H x I. destruct (H x (or_intror I)) as [(w & Iw & Ew)|H1]; [left; exists w; split; [apply in_or_app; left; exact Iw|exact Ew]|].
      destruct (eeq (nd_kv a) (nd_kv x)) eqn:Ea; [left; exists a; split; [apply in_or_app; right; left; reflexivity|exact Ea]|]. right. rewrite cnt_cons, Ea in H1. exact H1.
  - assert (forall d, In d start -> eeq (nd_kv d) (nd_kv a) = false) as Ns. { intros d Id. destruct (eeq (nd_kv d) (nd_kv a)) eqn:E; [|reflexivity]. rewrite <- Ex. symmetry. apply existsb_exists. eauto. }
    change (length (filter (fun x => eeq (nd_kv x) (nd_kv a)) g2)) with (ncnt a g2). change (length (filter (fun x => eeq (nd_kv x) (nd_kv a)) r)) with (ncnt a r).
    assert (ncnt a (a :: r) = 1 + ncnt a r) as Ca by (rewrite cnt_cons, Erefl; reflexivity).
    destruct (Nat.eqb_spec (ncnt a g2) 0) as [Z|Z].
    + split; [discriminate|]. intros H. destruct (H a (or_introl eq_refl)) as [(d & Id & Ed)|H1]; [rewrite (Ns d Id) in Ed; discriminate|lia].
    + destruct (Nat.eqb_spec (ncnt a g2) (1 + ncnt a r)) as [Q|Q]; cbn [negb].
      * rewrite IH. split.
        -- intros H x [<-|I]; [right; lia|]. destruct (H x I) as [(w & Iw & Ew)|H1].
           ++ apply in_app_or in Iw as [Iw|[<-|[]]]; [left; eauto|]. right. rewrite <- !(cnt_R _ Nsym Ntrans a x _ Ew). lia.
           ++ destruct (eeq (nd_kv a) (nd_kv x)) eqn:Ea; [right; rewrite <- !(cnt_R _ Nsym Ntrans a x _ Ea); lia|]. right. rewrite cnt_cons, Ea. exact H1.
        -- intros H x I. destruct (H x (or_intror I)) as [(w & Iw & Ew)|H1]; [left; exists w; split; [apply in_or_app; left; exact Iw|exact Ew]|].
           destruct (eeq (nd_kv a) (nd_kv x)) eqn:Ea; [left; exists a; split; [apply in_or_app; right; left; reflexivity|exact Ea]|]. right. rewrite cnt_cons, Ea in H1. exact H1.
      * split; [discriminate|]. intros H. destruct (H a (or_introl eq_refl)) as [(d & Id & Ed)|H1]; [rewrite (Ns d Id) in Ed; discriminate|lia].
Qed.
Lemma group_equals_ok (g1 g2 : list node) : g1 <> [] -> g2 <> [] -> (group_equals_equiv eeq g1 g2 = true <-> nmatches g1 g2).
Proof.
  intros H1 H2. unfold group_equals_equiv. pose proof (skip_ok g1 g2 H1 H2) as S. destruct (skip_equal eeq g1 g2) as [[r|] [r1 r2]]; [exact S|]. rewrite S. rewrite (matches_cnt _ Nrefl Nsym Ntrans).
  destruct (Nat.eqb_spec (length r1) (length r2)) as [E|E]; cbn [negb].
  - rewrite check_ok. split.
    + intros H. split; [exact E|]. intros a I. destruct (H a I) as [(d & [] & _)|X]; exact X.
    + intros [_ H] a I. right. apply H. exact I.
  - split; [discriminate|]. intros [X _]. contradiction.
Qed.
(** the groups of the first container, one by one *)
Lemma equals_groups_ok {X} (x y : table) lx ly (s : X) : TInv x lx -> TInv y ly -> f_pid x = f_pid y -> (forall a b, eeq a b = true -> keqf cb (f_pid y) (fst a) (fst b) = true) -> forall l fuel n,
  length l < fuel -> (exists l0, lx = l0 ++ l /\ forall a b, In a l0 -> In b l -> keq (f_pid y) a b = false) ->
  outcome (equals_groups c fuel eeq x y l s n) (fun r s' => s' = s /\ (r = true <-> forall a, In a l -> nmatches (eqs c (f_pid y) (nkey a) lx) (eqs c (f_pid y) (nkey a) ly))) (RO c s).
Proof.
  intros Tx Ty Ep Ref. pose proof (ti_c _ _ _ Tx) as Hx. pose proof (ti_c _ _ _ Ty) as Hy. pose proof (Eqv_of c y ly Hy) as [Sy Tr].
  intros l fuel. revert l. induction fuel as [|fuel IH]; intros l n Lf (l0 & El & Nl); [lia|]. cbn [equals_groups]. destruct l as [|a l]; [cbn [outcome ret]; split; [reflexivity|]; split; [intros _ a []|reflexivity]|].
  assert (keqf cb (f_pid y) (nkey a) (nkey a) = true) as Ra by (destruct (ci_agree _ _ _ Hy) as [(R & _) _]; apply R).
  assert (In a (eqs c (f_pid y) (nkey a) lx)) as Ia by (apply filter_In; split; [rewrite El; apply in_elt|exact Ra]).
  eapply outcome_bind; [apply (find_ok c y ly (nkey a) s n Ty)|]. cbn beta. intros n2 s' n1 [-> Ho]. unfold opt_it in Ho. destruct (lookup (f_pid y) (nkey a) ly) as [b|] eqn:L.
  - assert (e_eqb n2 e_end = false) as -> by (destruct Ho as (p & J & ->); reflexivity).
    (* the group in x *)
    destruct (run_split c y ly (nkey a) lx Hy) as (A & C & Es & NA & NC & _); [rewrite <- Ep; apply keysok_grouped; apply (keysok_all c x lx Tx)|].
    assert (exists G C', l = G ++ C' /\ AllEq c (f_pid x) (nkey a) (a :: G) /\ NoneEq c (f_pid x) (nkey a) C' /\ eqs c (f_pid y) (nkey a) lx = a :: G) as (G & C' & -> & AG & NC' & EG).
    { pose proof (keysok_grouped c _ _ (keysok_all c x lx Tx)) as Gx. rewrite El in Gx. destruct (run_from c (f_pid x) (nkey a) l (Eqv_of c x lx Hx) (key_tr c x lx (nkey a) Hx) a ltac:(rewrite Ep; exact Ra)) as (G & C' & -> & AG & NC').
      - intros l1 u l2 w l3 E Ek. apply (Gx (l0 ++ l1) u l2 w l3); [rewrite <- app_assoc, <- E; reflexivity|exact Ek].
      - exists G, C'. split; [reflexivity|]. split; [intros z [<-|I]; [rewrite Ep; exact Ra|apply AG; exact I]|]. split; [exact NC'|]. rewrite El, eqs_app, (eqs_none c _ _ l0).
        + cbn [app]. change (a :: G ++ C') with ((a :: G) ++ C'). rewrite eqs_app, (eqs_none c _ _ C'), app_nil_r; [|rewrite <- Ep; exact NC']. apply eqs_all. intros z [<-|I]; [exact Ra|rewrite <- Ep; apply AG; exact I].
        + intros z I. change (keq (f_pid y) a z = false). rewrite Sy. apply (Nl z a I (or_introl eq_refl)). }
    eapply outcome_bind; [change (a :: G ++ C') with ((a :: G) ++ C'); apply (next_group_ok c (f_pid x) (nkey a) (a :: G) C' s n1 AG NC')|]. cbn beta. intros g1 s' n3 [-> ->]. cbn [fst snd].
    (* the group in y *)
    destruct (run_split c y ly (nkey a) ly Hy (keysok_grouped c _ _ (keysok_all c y ly Ty))) as (B & D & Ed & NB & ND & _ & Hf). destruct (Hf b L) as (G2 & EG2). rewrite EG2 in Ed. cbn [app] in Ed.
    rewrite (rest_ok y ly (length B) n2 (ci_b _ _ _ Hy) (ci_ids _ _ _ Hy) (ti_size _ _ _ Ty)); [|rewrite Ed, app_length; lia|apply (pos_nth _ _ B b (G2 ++ D)); [exact Ed|exact Ho]]. cbn [of_option]. rewrite bind_ret, Ed, skipn_app_len.
    eapply outcome_bind; [change (b :: G2 ++ D) with ((b :: G2) ++ D); apply (next_group_ok c (f_pid y) (nkey a) (b :: G2) D s n3); [intros z I; rewrite <- EG2 in I; apply filter_In in I; apply I|exact ND]|]. cbn beta. intros g2 s' n4 [-> ->]. cbn [fst snd].
    pose proof (group_equals_ok (a :: G) (b :: G2) ltac:(discriminate) ltac:(discriminate)) as GE. rewrite <- Ed.
    assert (forall z, In z (a :: G) -> eqs c (f_pid y) (nkey z) lx = a :: G /\ eqs c (f_pid y) (nkey z) ly = b :: G2) as SG.
    { intros z Iz. specialize (AG z Iz). rewrite Ep in AG. assert (forall w : node, keqf cb (f_pid y) (nkey z) (nkey w) = keqf cb (f_pid y) (nkey a) (nkey w)) as KW by (intros w; exact (key_tr c y ly (nkey a) Hy z w AG)).
      unfold eqs in *. split; [rewrite <- EG|rewrite <- EG2]; apply filter_ext; exact KW. }
    destruct (group_equals_equiv eeq (a :: G) (b :: G2)) eqn:Eg.
    + eapply outcome_weaken; [apply (IH C' n4)| |intros kd s' X0; exact X0].
      * cbn [length] in Lf. rewrite app_length in Lf. lia.
      * exists (l0 ++ a :: G). split; [rewrite El, <- app_assoc; reflexivity|]. intros u w Iu Iw. apply in_app_or in Iu as [Iu|Iu]; [apply Nl; [exact Iu|right; apply in_or_app; right; exact Iw]|].
        specialize (AG u Iu). rewrite Ep in AG. rewrite (key_tr c y ly (nkey a) Hy u w AG). rewrite <- Ep. apply NC'. exact Iw.
      * cbn beta. intros r s' (-> & Hr). split; [reflexivity|]. rewrite Hr. split.
        -- intros H z Iz. change (a :: G ++ C') with ((a :: G) ++ C') in Iz. apply in_app_or in Iz as [Iz|Iz]; [|apply H; exact Iz]. destruct (SG z Iz) as [-> ->]. apply GE. reflexivity.
        -- intros H z Iz. apply H. right. apply in_or_app. right. exact Iz.
    + cbn [outcome ret]. split; [reflexivity|]. split; [discriminate|]. intros H. specialize (H a (or_introl eq_refl)). destruct (SG a (or_introl eq_refl)) as [E1 E2]. rewrite E1, E2 in H. apply GE in H. exact H.
  - assert (e_eqb n2 e_end = true) as -> by (unfold e_eqb; rewrite Ho; reflexivity). cbn [outcome ret]. split; [reflexivity|]. split; [discriminate|]. intros H. exfalso. specialize (H a (or_introl eq_refl)).
    rewrite (eqs_none c (f_pid y) (nkey a) ly) in H by exact (proj1 (lookup_none c _ _ _) L). apply (matches_length _ Nrefl Nsym Ntrans) in H. destruct (eqs c (f_pid y) (nkey a) lx); [destruct Ia|discriminate].
Qed.
Lemma groups_match p (lx ly : list node) : length lx = length ly -> (forall a b, eeq a b = true -> keqf cb p (fst a) (fst b) = true) -> Eqv c p -> (forall k, keqf cb p k k = true) ->
  ((forall a, In a lx -> nmatches (eqs c p (nkey a) lx) (eqs c p (nkey a) ly)) <-> nmatches lx ly).
Proof.
  intros Ll Ref [Sy Tr] Rf.
  assert (forall a l, ncnt a (eqs c p (nkey a) l) = ncnt a l) as CE.
  { intros a l. unfold cnt, eqs. induction l as [|z l IH]; [reflexivity|]. cbn [filter]. destruct (keqf cb p (nkey a) (nkey z)) eqn:E; cbn [filter].
    - destruct (eeq (nd_kv z) (nd_kv a)); cbn [length]; lia.
    - destruct (eeq (nd_kv z) (nd_kv a)) eqn:E2; [|exact IH]. rewrite Esym in E2. specialize (Ref _ _ E2). unfold nkey in E. congruence. }
  split.
  - intros H. apply (matches_cnt _ Nrefl Nsym Ntrans). split; [exact Ll|]. intros a I. specialize (H a I). apply (matches_cnt _ Nrefl Nsym Ntrans) in H as [_ H]. rewrite <- (CE a ly), <- (CE a lx). apply H. apply filter_In. split; [exact I|apply Rf].
  - intros H a I. apply (matches_cnt _ Nrefl Nsym Ntrans). split.
    + apply (matches_filter _ Nrefl Nsym Ntrans) with (f := fun x => keqf cb p (nkey a) (nkey x)) in H; [exact H|]. intros u w E. specialize (Ref _ _ E). change (keqf cb p (nkey u) (nkey w) = true) in Ref.
      destruct (keqf cb p (nkey a) (nkey u)) eqn:E1, (keqf cb p (nkey a) (nkey w)) eqn:E2; try reflexivity.
      * pose proof (Tr a u w E1 Ref) as Y. unfold FcaTab.keq in Y. congruence.
      * assert (keq p a u = true) as Y by (apply (Tr a w u E2); rewrite Sy; exact Ref). unfold FcaTab.keq in Y. congruence.
    + intros z Iz. apply filter_In in Iz as [Iz Kz]. apply (matches_cnt _ Nrefl Nsym Ntrans) in H as [_ H]. specialize (H z Iz).
      assert (forall l, eqs c p (nkey a) l = eqs c p (nkey z) l) as EE.
      { intros l. unfold eqs. apply filter_ext. intros w. destruct (keqf cb p (nkey a) (nkey w)) eqn:E1, (keqf cb p (nkey z) (nkey w)) eqn:E2; try reflexivity.
        - assert (keq p z w = true) as Y; [|unfold FcaTab.keq in Y; congruence]. apply (Tr z a w); [rewrite Sy; exact Kz|exact E1].
        - assert (keq p a w = true) as Y; [|unfold FcaTab.keq in Y; congruence]. apply (Tr a z w); [exact Kz|exact E2]. }
      rewrite (EE ly), (EE lx), !CE. exact H.
Qed.
Lemma equals_equiv_ok {X} (x y : table) lx ly (s : X) n : TInv x lx -> TInv y ly -> f_pid x = f_pid y -> (forall a b, eeq a b = true -> keqf cb (f_pid y) (fst a) (fst b) = true) ->
  outcome (equals_equiv c eeq x y s n) (fun r s' => s' = s /\ (r = true <-> nmatches lx ly)) (RO c s).
Proof.
  intros Tx Ty Ep Ref. unfold equals_equiv. rewrite (ti_size _ _ _ Tx), (ti_size _ _ _ Ty). destruct (N.eqb_spec (N.of_nat (length lx)) (N.of_nat (length ly))) as [E|E].
  - apply Nnat.Nat2N.inj in E. rewrite (elements_ok x lx (ci_b _ _ _ (ti_c _ _ _ Tx)) (ci_ids _ _ _ (ti_c _ _ _ Tx)) (ti_size _ _ _ Tx)). cbn [of_option]. rewrite bind_ret.
    eapply outcome_weaken; [apply (equals_groups_ok x y lx ly s Tx Ty Ep Ref lx (S (length lx)) n); [lia|exists []; split; [reflexivity|intros a b []]]| |intros kd s' X0; exact X0].
    cbn beta. intros r s' (-> & Hr). split; [reflexivity|]. rewrite Hr. apply groups_match; [exact E|exact Ref|apply (Eqv_of c y ly (ti_c _ _ _ Ty))|]. destruct (ci_agree _ _ _ (ti_c _ _ _ Ty)) as [(R & _) _]. exact R.
  - cbn [outcome ret]. split; [reflexivity|]. split; [discriminate|]. intros H. exfalso. apply E. f_equal. apply (matches_length _ Nrefl Nsym Ntrans _ _ H).
Qed.
End Eq.
