(** Lemmas for C67. *)
From Coq Require Import NArith Bool List Arith Lia Permutation.
From Verif Require Import FloatModel SizeModel SizeProofs GroupModel FoaGroup FoaModel FoaBase FoaFind FoaInv FoaArr FoaRehash FoaOps FoaSpec FoaWorld FoaRun FoaGrow FoaGrow2
  ConcSpec ConcModel ConcInv ConcStep ConcStep2 ConcStep3 ConcSys ConcSys2 ConcProps ConcCap ConcGrowSpec.
Import ListNotations.
Local Open Scope N_scope.
Notation set_nth := FoaModel.set_nth.
Section Grow.
Context {K V : Type} (c : Cfg K V).
Hypothesis HC : good_cfg c.
Notation Sh := (@Sh K V). Notation conf := (@conf K V). Notation pc := (@pc K V). Notation loc := (@loc K V).
Notation At := ConcModel.At.
Notation GInv := (GInv c). Notation Inv := (Inv c).
(** *** local steps *)
Definition tidy (s : Sh) (r : @ConcModel.outcome K V) : Prop :=
  match r with
  | Step ef _ a => match ef with
      | ECell i Raw => erases_one a = true /\ exists e, get_cell (arr (tb s)) i = Some (Live e)
      | ECell i (Live e') => erases_one a = false /\ (get_cell (arr (tb s)) i = Some Raw \/ exists e, get_cell (arr (tb s)) i = Some (Live e) /\ fst e = fst e')
      | ECell _ Moved => False
      | _ => erases_one a = false end
  | _ => True end.
Lemma tidy_none s l a : erases_one a = false -> tidy s (Step ENone l a). Proof. intros H. exact H. Qed.
Lemma tidy_visit (s : Sh) p g n e : get_cell (arr (tb s)) (slot_index g n) = Some (Live e) -> tidy s (visit_slot p g n e).
Proof.
  intros H. unfold visit_slot. destruct p as [x k f|k f|x k v f1 f2].
  - destruct (f e) as [v [b|]], x; cbn; eauto 6.
  - destruct (f e) as [v [[]|]]; cbn; eauto 6.
  - destruct (f2 e) as [v0 [b|]], x; cbn; eauto 6.
Qed.
Lemma tidy_pstep free s p l i thr : tidy s (pstep c free s p l i thr).
Proof.
  destruct l; cbn [pstep]; try exact I; repeat first
    [ exact I
    | reflexivity
    | apply tidy_visit; assumption
    | match goal with
      | |- tidy _ (go _) => reflexivity
      | |- tidy _ (not_found ?p _) => destruct p; cbn [not_found]
      | |- tidy _ (match ?x with _ => _ end) => destruct x eqn:?
      | |- tidy _ (let '(_, _) := ?x in _) => destruct x eqn:?
      end ].
  cbn. destruct o; auto.
Qed.
Lemma tidy_bstep free s x md f l : tidy s (bstep free s x md f l).
Proof.
  destruct l; cbn [bstep]; try exact I; repeat first
    [ exact I
    | reflexivity
    | match goal with
      | |- tidy _ (go _) => reflexivity
      | |- tidy _ (match ?x with _ => _ end) => destruct x eqn:?
      | |- tidy _ (let '(_, _) := ?x in _) => destruct x eqn:?
      end ].
  cbn zeta. destruct (erases md _) eqn:E; [cbn; eauto|]. destruct x; cbn; eauto 6.
Qed.
Lemma tidy_lstep free s o l i thr : tidy s (lstep c free s o l i thr).
Proof.
  destruct o as [p|x md f|]; cbn [lstep]; [apply tidy_pstep|apply tidy_bstep|].
  destruct l; cbn [sstep]; try exact I; reflexivity.
Qed.
Definition liveb (x : cell K V) : bool := match x with Live _ => true | _ => false end.
Definition many (a : arrays K V) : N := match a_elems a with Some cs => N.of_nat (length (filter liveb cs)) | None => 0 end.
Lemma many_elems a : many a = N.of_nat (length (elems a)).
Proof.
  unfold many, elems, cells. destruct (a_elems a) as [cs|]; [|reflexivity]. f_equal. induction cs as [|x cs IH]; [reflexivity|]. cbn [filter flat_map].
  destruct x; cbn [liveb live app length]; [exact IH|exact IH|f_equal; exact IH].
Qed.
Lemma filter_set_nth (cs : list (cell K V)) : forall i x y, nth_error cs i = Some x -> N.of_nat (length (filter liveb (set_nth cs i y))) + n_of (liveb x) = N.of_nat (length (filter liveb cs)) + n_of (liveb y).
Proof.
  intros i x y H. apply nth_error_split in H as (l1 & l2 & -> & <-). unfold FoaModel.set_nth. rewrite firstn_app, Nat.sub_diag, firstn_all, app_nil_r.
  replace (skipn (length l1) (l1 ++ x :: l2)) with (x :: l2) by (clear; induction l1 as [|z l IH]; [reflexivity|exact IH]). cbn iota. rewrite !filter_app, !app_length. cbn [filter].
  destruct (liveb x), (liveb y); cbn [length n_of]; lia.
Qed.
Definition is_cell (e : @eff K V) : bool := match e with ECell _ _ => true | _ => false end.
Lemma apply_cells e (s s' : Sh) : apply e s = Some s' -> is_cell e = false -> a_elems (arr (tb s')) = a_elems (arr (tb s)).
Proof.
  destruct e; cbn [apply is_cell]; unfold on_groups, put_group, put_cell; try (intros [= <-] _; reflexivity); try discriminate.
  - destruct (_ =? 0); [discriminate|]. intros [= <-] _. reflexivity.
  - destruct b; [|intros [= <-]; reflexivity]. destruct (_ =? 0); [discriminate|]. intros [= <-] _. reflexivity.
  - destruct (a_elems _) eqn:E; [|discriminate]. destruct (nth_error _ g); [|discriminate]. intros [= <-] _. reflexivity.
  - destruct (a_elems _) eqn:E; [|discriminate]. destruct (nth_error _ g); [|discriminate]. intros [= <-] _. reflexivity.
  - destruct (a_elems _) eqn:E; [|discriminate]. destruct (nth_error _ g); [|discriminate]. intros [= <-] _. reflexivity.
  - destruct (nth_error _ g); [|discriminate]. intros [= <-] _. reflexivity.
Qed.
Lemma apply_cell j x (s s' : Sh) y : apply (ECell j x) s = Some s' -> get_cell (arr (tb s)) j = Some y ->
  many (arr (tb s')) + n_of (liveb y) = many (arr (tb s)) + n_of (liveb x) /\
  forall i, get_cell (arr (tb s')) i = if Nat.eqb i j then Some x else get_cell (arr (tb s)) i.
Proof.
  cbn [apply]. unfold put_cell, get_cell, many. destruct (a_elems (arr (tb s))) as [cs|] eqn:E; [|discriminate]. destruct (nth_error cs j) eqn:F; [|discriminate].
  intros [= <-] [= <-]. cbn [tb set_arr arr a_elems]. split; [apply filter_set_nth; exact F|]. intros i. rewrite set_nth_err by (apply nth_error_Some; congruence). reflexivity.
Qed.
(** an erasure removes one element, other steps add at most one; elements stay in their slots *)
Definition stays (s s' : Sh) (er : N) : Prop :=
  (exists x, x <= 1 /\ x * er = 0 /\ many (arr (tb s')) + er = many (arr (tb s)) + x) /\
  (er = 0 -> forall i e, get_cell (arr (tb s)) i = Some (Live e) -> exists e', get_cell (arr (tb s')) i = Some (Live e') /\ fst e' = fst e) /\
  (er = 1 -> exists j, forall i e, i <> j -> get_cell (arr (tb s)) i = Some (Live e) -> get_cell (arr (tb s')) i = Some (Live e)).
Lemma stays_refl s s' : arr (tb s') = arr (tb s) -> stays s s' 0.
Proof. intros E. split; [exists 0; rewrite E; lia|]. rewrite E. split; [eauto|discriminate]. Qed.
Lemma local_stays free (s s' : Sh) o l i thr ef l' a : lstep c free s o l i thr = Step ef l' a -> apply ef s = Some s' -> stays s s' (n_of (erases_one a)).
Proof.
  intros Hl Ha. pose proof (tidy_lstep free s o l i thr) as T. rewrite Hl in T. cbn [tidy] in T.
  destruct (is_cell ef) eqn:Ec.
  - destruct ef; try discriminate Ec. clear Ec. destruct x as [| |e']; [|destruct T|].
    + destruct T as [-> (e & G)]. destruct (apply_cell _ _ _ _ _ Ha G) as [M C]. cbn [liveb n_of] in *. split; [exists 0; lia|]. split; [discriminate|]. intros _. exists i0. intros j e1 Nj H. rewrite C. destruct (Nat.eqb_spec j i0); [congruence|exact H].
    + destruct T as [-> T]. cbn [n_of]. destruct T as [G|(e & G & Ek)]; destruct (apply_cell _ _ _ _ _ Ha G) as [M C]; cbn [liveb n_of] in *.
      * split; [exists 1; lia|]. split; [|discriminate]. intros _ j e1 H. rewrite C. destruct (Nat.eqb_spec j i0) as [->|Nj]; [congruence|eauto].
      * split; [exists 0; lia|]. split; [|discriminate]. intros _ j e1 H. rewrite C. destruct (Nat.eqb_spec j i0) as [->|Nj]; [rewrite G in H; injection H as <-; eauto|eauto].
  - assert (erases_one a = false) as -> by (destruct ef; try discriminate Ec; exact T). pose proof (apply_cells _ _ _ Ha Ec) as E. cbn [n_of].
    split; [exists 0; unfold many; rewrite E; lia|]. split; [|discriminate]. intros _ j e H. exists e. unfold get_cell in *. rewrite E. auto.
Qed.
(** *** growth *)
Lemma full_change t n : Inv t -> sz t = ml t -> match rehash_if_full c t n with
  | Ret _ t' _ => Inv t' /\ sz t' = sz t /\ sz t + sz t / 61 + 1 <= ml t' /\ ml t' = init_ml (arr t') /\ capacity (arr t') = capacity_for (growth_request (sz t))
  | Exn _ t' _ => Inv t' /\ sz t' <= sz t /\ ml t <= ml t' + (sz t - sz t') /\ capacity (arr t') = capacity (arr t)
  | Undef => True end.
Proof.
  intros H E. unfold rehash_if_full. rewrite E, N.eqb_refl, <- E. destruct (growth_ok c t HC H) as (Hp & Hm & Hb & Hr).
  destruct (N.le_gt_cases (groups_for (growth_request (sz t))) (gmax c)) as [Lg|Lg].
  - specialize (Hr Lg). pose proof (unchecked_rehash_ok c t _ n HC H Hm Hb ltac:(lia) ltac:(lia)) as X. pose proof (growth_room c HC t H Lg) as G.
    destruct (unchecked_rehash c (growth_request (sz t)) t n) as [u t' n'|kd t' n'|]; cbn [FoaBase.outcome] in X; [| |exact Logic.I].
    + destruct X as (H' & _ & _ & Es & El & Ec). replace (growth_request (sz t) =? 0) with false in Ec by (symmetry; apply N.eqb_neq; lia).
      assert (capacity (arr t') = capacity_for (growth_request (sz t))) as Ec' by exact Ec. split; [exact H'|]. split; [exact Es|]. split; [rewrite El; unfold init_ml; rewrite Ec'; exact G|]. auto.
    + destruct X as [(_ & -> & _)|(_ & _ & F)]; [split; [exact H|]; split; [lia|]; split; [lia|reflexivity]|].
      destruct (failed_inv c t t' H F) as (F1 & _). split; [exact F1|]. destruct (failed_change c t t' H F) as [C1 C2 C3|C1 C2 C3|C1 C2 C3 C4|C1 C2 C3 C4 C5]; unfold cap in *; try lia.
      all: exfalso; unfold RehashFailed in F; destruct (moves c); [|subst; lia]; destruct F as (D & D' & Ho & [[-> ->]|ET]); [lia|]; destruct ET as [_ E1 _ _]; lia.
  - destruct (unchecked_rehash c (growth_request (sz t)) t n) as [u t' n'|kd t' n'|] eqn:Eu; [| |exact Logic.I].
    + exfalso. revert Eu. unfold unchecked_rehash. rewrite bind_get.
      pose proof (new_arrays_ok c (aid t) _ t n HC Hm Hb) as X. unfold bind at 1. destruct (new_arrays c (aid t) (growth_request (sz t)) t n); try discriminate.
      cbn in X. destruct X as (_ & [[C _] | (_ & k & Eg & Hk & Lt & FR)]); lia.
    + revert Eu. unfold unchecked_rehash. rewrite bind_get.
      pose proof (new_arrays_ok c (aid t) _ t n HC Hm Hb) as X. unfold bind at 1. destruct (new_arrays c (aid t) (growth_request (sz t)) t n) as [a1 t1 n1|k1 t1 n1|]; try discriminate; cbn in X.
      * exfalso. destruct X as (_ & [[C _] | (_ & k & Eg & Hk & Lt & FR)]); lia.
      * intros [= _ <- _]. destruct X as (X & _). subst. split; [exact H|]. split; [lia|]. split; [lia|reflexivity].
Qed.
Lemma elements_many (C : conf) d s : box C d = Some s -> elements C d = many (arr (tb s)).
Proof. unfold elements. intros ->. reflexivity. Qed.
Lemma combine_none (l : list pc) d : existsb (fun pq => waits d (fst pq) && negb (waits d (snd pq))) (combine l l) = false.
Proof. induction l as [|p l IH]; [reflexivity|]. cbn. rewrite IH, andb_negb_r. reflexivity. Qed.
Lemma rehash_set (l : list pc) d t p q : nth_error l t = Some p ->
  existsb (fun pq => waits d (fst pq) && negb (waits d (snd pq))) (combine l (set_nth l t q)) = waits d p && negb (waits d q).
Proof.
  intros H. apply nth_error_split in H as (l1 & l2 & -> & <-). unfold FoaModel.set_nth. rewrite firstn_app, Nat.sub_diag, firstn_all, app_nil_r.
  replace (skipn (length l1) (l1 ++ p :: l2)) with (p :: l2) by (clear; induction l1 as [|z l IH]; [reflexivity|exact IH]). cbn iota.
  induction l1 as [|x l1 IH]; cbn [app combine existsb fst snd]; [rewrite combine_none, orb_false_r; reflexivity|]. rewrite andb_negb_r. exact IH.
Qed.
(** *** one step *)
Lemma idle_facts C d s : GInv C -> box C d = Some s -> existsb (inside d) (th C) = false -> Inv (tb s) /\ sz (tb s) = elements C d /\ count (owing d) (th C) = 0.
Proof.
  intros G B Al. destruct (gi_box _ _ G d s B) as [k X]. pose proof (out_inv c k s _ X (no_inside C d Al)) as H. split; [exact H|]. split.
  - rewrite (elements_many C d s B), many_elems. exact (i_sz _ _ H).
  - apply count_none. eapply existsb_impl; [|exact Al]. intros [] E; try discriminate E. cbn in E |- *. apply andb_prop in E as [-> E]. destruct l; try discriminate E. reflexivity.
Qed.
Inductive chg (d : nat) (C : conf) (e : option (event K V)) (C' : conf) : Prop :=
| cg_stay s s' er : rehashes d C C' = false -> er = erases_from d C e -> box C d = Some s -> box C' d = Some s' -> capacity (arr (tb s')) = capacity (arr (tb s)) -> stays s s' er ->
    ml (tb s') <= ml (tb s) -> ml (tb s) + count (owing d) (th C') <= ml (tb s') + count (owing d) (th C) + er -> chg d C e C'
| cg_grow s s' : rehashes d C C' = true -> e = None -> box C d = Some s -> box C' d = Some s' -> Inv (tb s) -> Inv (tb s') -> elements C d = sz (tb s) -> elements C' d = sz (tb s') -> sz (tb s) = ml (tb s) -> sz (tb s') = sz (tb s) ->
    count (owing d) (th C) = 0 -> count (owing d) (th C') = 0 -> existsb (inside d) (th C) = false ->
    sz (tb s) + sz (tb s) / 61 + 1 <= ml (tb s') -> ml (tb s') = init_ml (arr (tb s')) -> capacity (arr (tb s')) = capacity_for (growth_request (sz (tb s))) -> chg d C e C'
| cg_fail s s' : rehashes d C C' = true -> e <> None -> box C d = Some s -> box C' d = Some s' -> Inv (tb s) -> Inv (tb s') -> elements C d = sz (tb s) -> elements C' d = sz (tb s') -> sz (tb s) = ml (tb s) -> sz (tb s') <= sz (tb s) ->
    count (owing d) (th C) = 0 -> count (owing d) (th C') = 0 -> existsb (inside d) (th C) = false ->
    ml (tb s) <= ml (tb s') + (sz (tb s) - sz (tb s')) -> capacity (arr (tb s')) = capacity (arr (tb s)) -> chg d C e C'.
Lemma out_set (C : conf) t d p : existsb (inside d) (th C) = false -> inside d p = false -> existsb (inside d) (set_nth (th C) t p) = false.
Proof.
  intros H Hp. destruct (existsb (inside d) (set_nth (th C) t p)) eqn:E; [|reflexivity]. apply existsb_exists in E as (q & Hq & Iq). unfold FoaModel.set_nth in Hq.
  assert (q = p \/ In q (th C)) as [->|Hin]; [|congruence|].
  { apply in_app_or in Hq as [Hq|Hq]; [right; rewrite <- (firstn_skipn t (th C)); apply in_or_app; left; exact Hq|]. pose proof (firstn_skipn t (th C)) as F. destruct (skipn t (th C)) as [|z r]; [destruct Hq|]. destruct Hq as [<-|Hq]; [left; reflexivity|].
    right. rewrite <- F. apply in_or_app. right. right. exact Hq. }
  assert (existsb (inside d) (th C) = true); [|congruence]. apply existsb_exists. eauto.
Qed.
Lemma quiet_chg C t d s p q e : box C d = Some s -> nth_error (th C) t = Some p -> owing d p = false -> owing d q = false -> waits d p = false -> erases_from d C e = 0 -> chg d C e (set_th C t q).
Proof.
  intros Hb Ht O1 O2 W E. eapply (cg_stay d C e _ s s); [|reflexivity|exact Hb|exact Hb|reflexivity|rewrite E; apply stays_refl; reflexivity|lia|].
  - unfold rehashes. cbn [set_th th]. rewrite (rehash_set _ d t p q Ht), W. reflexivity.
  - pose proof (count_set (owing d) (th C) t p q Ht) as X. rewrite O1, O2 in X. cbn [n_of] in X. cbn [set_th th]. lia.
Qed.
Lemma other_chg C t d d0 s s0 s1 p q e : box C d = Some s -> box C d0 = Some s0 -> d0 <> d -> nth_error (th C) t = Some p -> owing d p = false -> owing d q = false -> waits d p = false -> erases_from d C e = 0 ->
  chg d C e (set_box (set_th C t q) d0 s1).
Proof.
  intros Hb Hb0 Nd Ht O1 O2 W E. eapply (cg_stay d C e _ s s); [|reflexivity|exact Hb| |reflexivity|rewrite E; apply stays_refl; reflexivity|lia|].
  - unfold rehashes. cbn [set_box set_th th]. rewrite (rehash_set _ d t p q Ht), W. reflexivity.
  - rewrite (box_set C t _ d d0 s1 s0 Hb0). destruct (Nat.eqb_spec d d0); [congruence|exact Hb].
  - pose proof (count_set (owing d) (th C) t p q Ht) as X. rewrite O1, O2 in X. cbn [n_of] in X. cbn [set_box set_th th]. lia.
Qed.
Lemma box_set_same (C : conf) t p d s s' : box C d = Some s' -> box (set_box (set_th C t p) d s) d = Some s.
Proof. intros H. rewrite (box_set C t p d d s s' H), Nat.eqb_refl. reflexivity. Qed.
Lemma step_chg C e C' d s : GInv C -> gstep c C e C' -> (forall t r, e <> Some (ELin t (AWhole r))) -> box C d = Some s -> chg d C e C'.
Proof.
  intros G St Nw Hb. inversion St as [C0 t d0 o s0 Ht Hb0|C0 t d0 o l s0 i thr ef l' a s1 Ht Hb0 Hl Ha|C0 t d0 o s0 n t' n' cn Ht Hb0 Al Hr Hcn|C0 t d0 o s0 n kd t' n' cn Ht Hb0 Al Hr Hcn|C0 t d0 o r Ht|C0 t o Ht|C0 t o n r w bs Ht Hp Hr Hpb|C0 t r Ht]; subst.
  - eapply quiet_chg; [exact Hb|exact Ht|reflexivity|cbn; apply andb_false_r|reflexivity|reflexivity].
  - pose proof (fair_lstep c (free_for C t d0) s0 o l i thr) as F. rewrite Hl in F. destruct F as [F1 F2].
    assert (erases_from d C (option_map (ELin t) a) = n_of (Nat.eqb d0 d && erases_one a)) as Ee.
    { unfold erases_from. destruct a as [a|]; cbn [option_map]; [rewrite Ht; reflexivity|cbn; rewrite andb_false_r; reflexivity]. }
    destruct (Nat.eqb_spec d0 d) as [->|Nd].
    + rewrite Hb in Hb0. injection Hb0 as <-. cbn [andb] in Ee.
      assert (waits d (At d o l) = false) as W by (destruct l; try reflexivity; destruct o; discriminate Hl).
      eapply (cg_stay d C _ _ s s1); [|reflexivity|exact Hb|eapply box_set_same; exact Hb|eapply apply_cap; exact Ha|rewrite Ee; eapply local_stays; eassumption|pose proof (apply_ml _ _ _ Ha); lia|].
      * unfold rehashes. cbn [set_box set_th th]. rewrite (rehash_set _ d t _ _ Ht), W. reflexivity.
      * pose proof (count_set (owing d) (th C) t _ (At d o l') Ht) as E. cbn [owing] in E. rewrite Nat.eqb_refl in E. cbn [andb] in E. cbn [set_box set_th th]. rewrite Ee. pose proof (apply_ml _ _ _ Ha) as M.
        destruct (is_mldec ef) eqn:Em; [rewrite (F1 eq_refl) in *|]; (destruct (is_ml l') eqn:El'; [destruct (F2 eq_refl) as [F3 F4]; rewrite ?F3, ?F4 in *|]); try discriminate; destruct (is_ml l), (erases_one a); cbn [n_of] in *; try discriminate; lia.
    + apply Nat.eqb_neq in Nd as Nb. eapply other_chg; [exact Hb|exact Hb0|exact Nd|exact Ht|cbn; rewrite Nb; reflexivity|cbn; rewrite Nb; reflexivity|cbn; destruct l; auto|exact Ee].
  - destruct (Nat.eq_dec d0 d) as [->|Nd].
    + rewrite Hb in Hb0. injection Hb0 as <-. pose proof (alone_inside C t d o Ht Al) as Ai. destruct (idle_facts C d s G Hb Ai) as (H & Es & Eo). pose proof (count_set (owing d) (th C) t _ (At d o LEnter) Ht) as E. cbn [owing is_ml] in E. rewrite !andb_false_r in E. cbn [n_of] in E.
      unfold rehash_if_full in Hr. destruct (N.eqb_spec (sz (tb s)) (ml (tb s))) as [Ef|Ns].
      * pose proof (full_change (tb s) n H Ef) as X. unfold rehash_if_full in X. rewrite Ef, N.eqb_refl, <- Ef, Hr in X. destruct X as (H' & Es' & L & Ei & Ec).
        eapply (cg_grow d C None _ s (MkSh t' cn)); [|reflexivity|exact Hb|eapply box_set_same; exact Hb|exact H|exact H'|exact (eq_sym Es)| |exact Ef|exact Es'|exact Eo|cbn [set_box set_th th]; lia|exact Ai|exact L|exact Ei|exact Ec].
        -- unfold rehashes, max_load. cbn [set_box set_th th]. rewrite (rehash_set _ d t _ _ Ht), Hb, <- Es. cbn [waits]. rewrite Nat.eqb_refl. cbn. apply N.eqb_eq. exact Ef.
        -- rewrite (elements_many _ d (MkSh t' cn)) by (eapply box_set_same; exact Hb). rewrite many_elems. symmetry. exact (i_sz _ _ H').
      * injection Hr as <- _. eapply (cg_stay d C None _ s (MkSh (tb s) cn)); [|reflexivity|exact Hb|eapply box_set_same; exact Hb|reflexivity|apply stays_refl; reflexivity|cbn; lia|cbn [set_box set_th th tb erases_from]; lia].
        unfold rehashes, max_load. rewrite Hb, <- Es. apply N.eqb_neq in Ns. rewrite Ns. apply andb_false_r.
    + apply Nat.eqb_neq in Nd as Nb. eapply other_chg; [exact Hb|exact Hb0|exact Nd|exact Ht|cbn; rewrite Nb; reflexivity|cbn; rewrite Nb; reflexivity|exact Nb|reflexivity].
  - destruct (Nat.eq_dec d0 d) as [->|Nd].
    + rewrite Hb in Hb0. injection Hb0 as <-. pose proof (alone_inside C t d o Ht Al) as Ai. destruct (idle_facts C d s G Hb Ai) as (H & Es & Eo). pose proof (count_set (owing d) (th C) t _ (At d o (LRet RThrew)) Ht) as E. cbn [owing is_ml] in E. rewrite !andb_false_r in E. cbn [n_of] in E.
      unfold rehash_if_full in Hr. destruct (N.eqb_spec (sz (tb s)) (ml (tb s))) as [Ef|Ns]; [|discriminate].
      pose proof (full_change (tb s) n H Ef) as X. unfold rehash_if_full in X. rewrite Ef, N.eqb_refl, <- Ef, Hr in X. destruct X as (H' & Es' & L & Ec).
      eapply (cg_fail d C _ _ s (MkSh t' cn)); [|discriminate|exact Hb|eapply box_set_same; exact Hb|exact H|exact H'|exact (eq_sym Es)| |exact Ef|exact Es'|exact Eo|cbn [set_box set_th th]; lia|exact Ai|cbn [tb]; lia|exact Ec].
      * unfold rehashes, max_load. cbn [set_box set_th th]. rewrite (rehash_set _ d t _ _ Ht), Hb, <- Es. cbn [waits]. rewrite Nat.eqb_refl. cbn. apply N.eqb_eq. exact Ef.
      * rewrite (elements_many _ d (MkSh t' cn)) by (eapply box_set_same; exact Hb). rewrite many_elems. symmetry. exact (i_sz _ _ H').
    + apply Nat.eqb_neq in Nd as Nb. eapply other_chg; [exact Hb|exact Hb0|exact Nd|exact Ht|cbn; rewrite Nb; reflexivity|cbn; rewrite Nb; reflexivity|exact Nb|]. cbn. rewrite Ht. rewrite andb_false_r. reflexivity.
  - eapply quiet_chg; [exact Hb|exact Ht|cbn; apply andb_false_r|reflexivity|reflexivity|reflexivity].
  - eapply quiet_chg; [exact Hb|exact Ht|reflexivity|reflexivity|reflexivity|reflexivity].
  - exfalso. eapply Nw. reflexivity.
  - eapply quiet_chg; [exact Hb|exact Ht|reflexivity|reflexivity|reflexivity|reflexivity].
Qed.
(** *** the potential *)
Lemma pot_stay A B T I E m m' er ml ml' o o' x : 1 <= A -> B = A + 1 -> x <= 1 -> x * er = 0 -> m' + er = m + x -> ml + o' <= ml' + o + er ->
  T <= B * I + E -> T + m + A * (m + o) <= B * I + A * ml + E ->
  T + 0 <= B * (I + (m' - m)) + E /\ (T + 0) + m' + A * (m' + o') <= B * (I + (m' - m)) + A * ml' + E.
Proof.
  intros HA -> Hx Hz Hm Ho H1 H2. assert (er = 0 \/ (x = 0 /\ 0 < er)) as [->|[-> _]] by (destruct (N.eq_dec er 0); [auto|right; nia]).
  - replace (m' - m) with x by lia. assert (m' = m + x) by lia. subst m'. split; nia.
  - replace (m' - m) with 0 by lia. split; nia.
Qed.
Lemma calls_run (P : conf -> Prop) n es C0 d i m C : runs_with c counters_fit n es C0 -> calls c P d C0 i m C -> exists es', runs_with c counters_fit n es' C.
Proof. intros R S. induction S as [|i m C e C' S [es' R'] St W F Pc]; [eauto|]. eexists. eapply r_snoc; eassumption. Qed.
Lemma owing0 (C : conf) d : existsb (on d) (th C) = false -> count (owing d) (th C) = 0.
Proof. intros H. apply count_none. eapply existsb_impl; [|exact H]. intros [] E; try discriminate E. cbn in E |- *. apply andb_prop in E. apply E. Qed.
Lemma calls_cost (P : conf -> Prop) d C0 i m C s0 : GInv C0 -> (forall C, P C -> GInv C) -> box C0 d = Some s0 -> existsb (on d) (th C0) = false -> calls c P d C0 i m C ->
  exists s, box C d = Some s /\ m <= 62 * i + elements C0 d /\ m + elements C d + 61 * (elements C d + count (owing d) (th C)) <= 62 * i + 61 * ml (tb s) + elements C0 d.
Proof.
  intros G0 HP Hb No S. induction S as [P0|i m C e C' S (s & Bs & I1 & I2) St W F Pc].
  - exists s0. split; [exact Hb|]. split; [lia|]. rewrite (owing0 _ _ No). destruct (ginv_size c C0 d s0 G0 Hb) as (A & _). cbn zeta in A. rewrite <- many_elems in A. rewrite (elements_many C0 d s0 Hb). lia.
  - assert (GInv C) as G by (destruct S; auto). destruct (step_chg C e C' d s G St W Bs) as [s1 s' er Nr Ee B B' Ec Hs L1 L2|s1 s' Rh Ee B B' H H' M M' Ef Es O O' Ai L Ei Ec|s1 s' Rh Ee B B' H H' M M' Ef Es O O' Ai L Ec];
      rewrite Bs in B; injection B as <-; exists s'; (split; [exact B'|]); unfold moved; rewrite ?Nr, ?Rh.
    + destruct Hs as [(x & X1 & X2 & X3) _]. rewrite <- (elements_many C d s Bs), <- (elements_many C' d s' B') in X3. exact (pot_stay 61 62 m i (elements C0 d) _ _ er _ _ _ _ x ltac:(lia) ltac:(lia) X1 X2 X3 L2 I1 I2).
    + subst e. rewrite M, M', Es, O, O' in *. rewrite N.sub_diag. pose proof (N.div_mod (sz (tb s)) 61 ltac:(lia)) as D. pose proof (N.mod_upper_bound (sz (tb s)) 61 ltac:(lia)). split; lia.
    + destruct e as [e|]; [|congruence]. rewrite M, M', O, O' in *. pose proof (i_szml _ _ H'). split; lia.
Qed.
Lemma calls_full (P : conf -> Prop) d C0 i m C s0 : GInv C0 -> (forall C, P C -> GInv C) -> (forall C s, P C -> box C d = Some s -> undiminished (tb s)) -> box C0 d = Some s0 -> existsb (on d) (th C0) = false -> calls c P d C0 i m C ->
  exists s, box C d = Some s /\ undiminished (tb s) /\ m <= 3 * i + elements C0 d /\ m + elements C d + 2 * (elements C d + count (owing d) (th C)) <= 3 * i + 2 * ml (tb s) + elements C0 d.
Proof.
  intros G0 HP HU Hb No S. induction S as [P0|i m C e C' S (s & Bs & U & I1 & I2) St W F Pc].
  - exists s0. split; [exact Hb|]. split; [eauto|]. split; [lia|]. rewrite (owing0 _ _ No). destruct (ginv_size c C0 d s0 G0 Hb) as (A & _). cbn zeta in A. rewrite <- many_elems in A. rewrite (elements_many C0 d s0 Hb). lia.
  - assert (GInv C) as G by (destruct S; auto). destruct (step_chg C e C' d s G St W Bs) as [s1 s' er Nr Ee B B' Ec Hs L1 L2|s1 s' Rh Ee B B' H H' M M' Ef Es O O' Ai L Ei Ec|s1 s' Rh Ee B B' H H' M M' Ef Es O O' Ai L Ec];
      rewrite Bs in B; injection B as <-; exists s'; (split; [exact B'|]); (split; [eauto|]); unfold moved; rewrite ?Nr, ?Rh.
    + destruct Hs as [(x & X1 & X2 & X3) _]. rewrite <- (elements_many C d s Bs), <- (elements_many C' d s' B') in X3. exact (pot_stay 2 3 m i (elements C0 d) _ _ er _ _ _ _ x ltac:(lia) ltac:(lia) X1 X2 X3 L2 I1 I2).
    + subst e. pose proof (full_growth c HC (tb s) (tb s') H H' U Ef Ei Ec) as D. rewrite M, M', Es, O, O' in *. rewrite N.sub_diag. split; lia.
    + destruct e as [e|]; [|congruence]. rewrite M, M', O, O' in *. pose proof (i_szml _ _ H'). split; lia.
Qed.
Lemma calls_cap (P : conf -> Prop) d C0 i m C s0 p : (forall C, P C -> GInv C /\ elements C d <= p) -> box C0 d = Some s0 -> calls c P d C0 i m C ->
  exists s, box C d = Some s /\ bucket_count C d <= N.max (bucket_count C0 d) (N.max 29 (7 * (p + 3) / 3)).
Proof.
  intros HP Hb S. induction S as [P0|i m C e C' S (s & Bs & I1) St W F Pc]; [exists s0; split; [exact Hb|lia]|].
  assert (P C) as PC by (destruct S; auto). destruct (HP C PC) as [G Le]. destruct (step_chg C e C' d s G St W Bs) as [s1 s' er Nr Ee B B' Ec Hs L1 L2|s1 s' Rh Ee B B' H H' M M' Ef Es O O' Ai L Ei Ec|s1 s' Rh Ee B B' H H' M M' Ef Es O O' Ai L Ec];
      rewrite Bs in B; injection B as <-; exists s'; (split; [exact B'|]); unfold bucket_count in *; rewrite B', Bs in *; rewrite Ec.
  - exact I1.
  - destruct (growth_ok c (tb s) HC H) as (_ & Hm & _). destruct (growth_capacity (sz (tb s)) Hm) as [->|Gc]; [lia|].
    assert (capacity_for (growth_request (sz (tb s))) <= 7 * (p + 3) / 3); [|lia]. apply N.div_le_lower_bound; lia.
  - exact I1.
Qed.
End Grow.
