(** Lemmas for C62: when the capacity of a concurrent container changes. *)
From Coq Require Import NArith Bool List Arith Lia Permutation.
From Verif Require Import SizeModel GroupModel FoaGroup FoaModel FoaBase FoaInv FoaArr FoaOps FoaSpec FoaWorld
  ConcSpec ConcModel ConcInv ConcStep ConcStep2 ConcStep3 ConcSys ConcSys2 ConcProps.
Import ListNotations.
Local Open Scope N_scope.
Notation set_nth := FoaModel.set_nth.
Section Cap.
Context {K V : Type} (c : Cfg K V).
Hypothesis HC : good_cfg c.
Notation Sh := (@Sh K V). Notation conf := (@conf K V). Notation pc := (@pc K V). Notation loc := (@loc K V).
Notation At := ConcModel.At.
Notation GInv := (GInv c).
Definition is_ml (l : loc) : bool := match l with LMl _ _ _ => true | _ => false end.
Definition erases_one (a : option (act K V)) : bool := match a with Some (APoint (RErased _)) | Some (AElem _ true) => true | _ => false end.
Definition n_of (b : bool) : N := if b then 1 else 0.
Lemma apply_cap e (s s' : Sh) : apply e s = Some s' -> capacity (arr (tb s')) = capacity (arr (tb s)).
Proof.
  destruct e; cbn [apply]; unfold on_groups, put_group, put_cell.
  - intros [= <-]. reflexivity.
  - intros [= <-]. reflexivity.
  - destruct (_ =? 0); [discriminate|]. intros [= <-]. reflexivity.
  - destruct b; [|intros [= <-]; reflexivity]. destruct (_ =? 0); [discriminate|]. intros [= <-]. reflexivity.
  - destruct (a_elems _) eqn:E; [|discriminate]. destruct (nth_error _ g); [|discriminate]. intros [= <-]. unfold capacity. cbn. rewrite E. reflexivity.
  - destruct (a_elems _) eqn:E; [|discriminate]. destruct (nth_error _ g); [|discriminate]. intros [= <-]. unfold capacity. cbn. rewrite E. reflexivity.
  - destruct (a_elems _) eqn:E; [|discriminate]. destruct (nth_error _ g); [|discriminate]. intros [= <-]. unfold capacity. cbn. rewrite E. reflexivity.
  - destruct (nth_error _ g); [|discriminate]. intros [= <-]. reflexivity.
  - destruct (a_elems _) eqn:E; [|discriminate]. destruct (nth_error _ i); [|discriminate]. intros [= <-]. unfold capacity. cbn. rewrite E. reflexivity.
Qed.
Definition is_mldec (e : @eff K V) : bool := match e with EMlDec true => true | _ => false end.
Lemma apply_ml e (s s' : Sh) : apply e s = Some s' -> ml (tb s) = ml (tb s') + n_of (is_mldec e).
Proof.
  destruct e; cbn [apply is_mldec n_of]; unfold on_groups, put_group, put_cell.
  - intros [= <-]. lia.
  - intros [= <-]. cbn. lia.
  - destruct (_ =? 0); [discriminate|]. intros [= <-]. cbn. lia.
  - destruct b; [|intros [= <-]; cbn; lia]. destruct (N.eqb_spec (ml (tb s)) 0); [discriminate|]. intros [= <-]. cbn. lia.
  - destruct (a_elems _) eqn:E; [|discriminate]. destruct (nth_error _ g); [|discriminate]. intros [= <-]. cbn. lia.
  - destruct (a_elems _) eqn:E; [|discriminate]. destruct (nth_error _ g); [|discriminate]. intros [= <-]. cbn. lia.
  - destruct (a_elems _) eqn:E; [|discriminate]. destruct (nth_error _ g); [|discriminate]. intros [= <-]. cbn. lia.
  - destruct (nth_error _ g); [|discriminate]. intros [= <-]. cbn. lia.
  - destruct (a_elems _) eqn:E; [|discriminate]. destruct (nth_error _ i); [|discriminate]. intros [= <-]. cbn. lia.
Qed.
(** max_load is lowered only after an element has been erased *)
Definition fair (l : loc) (r : outcome) : Prop :=
  match r with Step e l' a => (is_mldec e = true -> is_ml l = true) /\ (is_ml l' = true -> erases_one a = true /\ is_ml l = false) | _ => True end.
Lemma fair_go l l' : is_ml l' = false -> fair l (go l'). Proof. cbn. intros ->. split; discriminate. Qed.
Lemma fair_quiet l e l' a : is_mldec e = false -> is_ml l' = false -> fair l (Step e l' a). Proof. cbn. intros -> ->. split; discriminate. Qed.
Lemma fair_visit l p g n e : is_ml l = false -> fair l (visit_slot p g n e).
Proof.
  intros H. unfold visit_slot. destruct p as [x k f|k f|x k v f1 f2].
  - destruct (f e) as [v b]. apply fair_quiet; [destruct x|]; reflexivity.
  - destruct (f e) as [v [[]|]]; [|apply fair_quiet; reflexivity|apply fair_quiet; reflexivity]. cbn. split; [discriminate|]. intros _. split; [reflexivity|exact H].
  - destruct (f2 e) as [v0 b]. apply fair_quiet; [destruct x|]; reflexivity.
Qed.
Lemma fair_pstep free s p l i thr : fair l (pstep c free s p l i thr).
Proof.
  destruct l; cbn [pstep]; try exact I; repeat first
    [ exact I
    | apply fair_go; reflexivity
    | apply fair_quiet; reflexivity
    | apply fair_visit; reflexivity
    | match goal with
      | |- fair _ (not_found ?p _) => destruct p; cbn [not_found]
      | |- fair _ (match ?x with _ => _ end) => destruct x eqn:?
      | |- fair _ (let '(_, _) := ?x in _) => destruct x eqn:?
      end ].
  all: try (cbn; split; [reflexivity|discriminate]).
  - apply fair_quiet; [reflexivity|]. destruct (negb _); reflexivity.
  - apply fair_quiet; [reflexivity|]. destruct q; reflexivity.
Qed.
Lemma fair_bstep free s x md f l : fair l (bstep free s x md f l).
Proof.
  destruct l; cbn [bstep]; try exact I; repeat first
    [ exact I
    | apply fair_go; reflexivity
    | apply fair_quiet; reflexivity
    | match goal with
      | |- fair _ (match ?x with _ => _ end) => destruct x eqn:?
      | |- fair _ (let '(_, _) := ?x in _) => destruct x eqn:?
      end ].
  all: try (cbn; split; [reflexivity|discriminate]).
  destruct (erases md _) eqn:E; cbn zeta; [cbn; split; [discriminate|auto]|]. apply fair_quiet; [destruct x; reflexivity|]. destruct o as [b|]; [|reflexivity]. destruct (goes_on _ _); reflexivity.
Qed.
Lemma fair_lstep free s o l i thr : fair l (lstep c free s o l i thr).
Proof.
  destruct o as [p|x md f|]; cbn [lstep]; [apply fair_pstep|apply fair_bstep|].
  destruct l; cbn [sstep]; try exact I; apply fair_quiet; reflexivity.
Qed.

(** threads that have erased an element of d and have not yet updated max_load *)
Definition owing (d : nat) (p : pc) : bool := match p with At d' _ l => Nat.eqb d' d && is_ml l | _ => false end.
Fixpoint count (f : pc -> bool) (l : list pc) : N := match l with [] => 0 | p :: r => n_of (f p) + count f r end.
Lemma count_app f : forall l l' : list pc, count f (l ++ l') = count f l + count f l'.
Proof. induction l as [|x l IH]; intros l'; [reflexivity|]. cbn [app count]. rewrite IH. lia. Qed.
Lemma count_set f (l : list pc) t p q : nth_error l t = Some p -> count f (set_nth l t q) + n_of (f p) = count f l + n_of (f q).
Proof.
  intros H. apply nth_error_split in H as (l1 & l2 & -> & <-). unfold FoaModel.set_nth. rewrite firstn_app, Nat.sub_diag, firstn_all, app_nil_r.
  replace (skipn (length l1) (l1 ++ p :: l2)) with (p :: l2) by (clear; induction l1 as [|x l IH]; [reflexivity|exact IH]). cbn iota. rewrite !count_app. cbn [count]. lia.
Qed.
Lemma count_none f : forall l : list pc, existsb f l = false -> count f l = 0.
Proof. induction l as [|x l IH]; [reflexivity|]. cbn. intros H. apply orb_false_iff in H as [-> H]. rewrite (IH H). reflexivity. Qed.
Lemma existsb_impl (f g : pc -> bool) l : (forall p, f p = true -> g p = true) -> existsb g l = false -> existsb f l = false.
Proof. intros H E. destruct (existsb f l) eqn:F; [|reflexivity]. apply existsb_exists in F as (p & Hp & Fp). assert (existsb g l = true); [|congruence]. apply existsb_exists. exists p. auto. Qed.

(** the number of elements of d a step erases *)
Definition erases_from (d : nat) (C : conf) (e : option (event K V)) : N :=
  match e with
  | Some (ELin t a) => match nth_error (th C) t with Some (At d' _ _) => n_of (Nat.eqb d' d && erases_one (Some a)) | _ => 0 end
  | _ => 0
  end.
(** an insertion finds container d full, and rehashes *)
Definition grows (C : conf) (d : nat) (s : Sh) : Prop :=
  existsb (inside d) (th C) = false /\ sz (tb s) = ml (tb s) /\ exists t o, nth_error (th C) t = Some (At d o LFull).
Lemma box_set (C : conf) t p d d' s s' : box C d' = Some s' -> box (set_box (set_th C t p) d' s) d = if Nat.eqb d d' then Some s else box C d.
Proof.
  intros H. unfold box in *. cbn [set_box set_th boxes]. destruct (nth_error (boxes C) d') eqn:E; [|discriminate].
  rewrite set_nth_err by (apply nth_error_Some; congruence). destruct (Nat.eqb d d'); reflexivity.
Qed.
Lemma alone_inside (C : conf) t d o : nth_error (th C) t = Some (At d o LFull) -> alone C t d = true -> existsb (inside d) (th C) = false.
Proof.
  intros Ht Al. destruct (existsb (inside d) (th C)) eqn:E; [|reflexivity]. apply existsb_exists in E as (p & Hp & Hi). apply In_nth_error in Hp as (u & Hu).
  assert (u <> t) as Nu by (intros ->; rewrite Ht in Hu; injection Hu as <-; cbn in Hi; rewrite andb_false_r in Hi; discriminate).
  unfold alone in Al. rewrite forallb_forall in Al. specialize (Al p (in_others _ _ _ _ Hu Nu)). rewrite Hi in Al. discriminate.
Qed.
(** one step that is not an operation on whole containers *)
Lemma step_cap C e C' d s : gstep c C e C' -> (forall t r, e <> Some (ELin t (AWhole r))) -> box C d = Some s ->
  grows C d s \/ exists s', box C' d = Some s' /\ capacity (arr (tb s')) = capacity (arr (tb s)) /\ ml (tb s') <= ml (tb s) /\
    ml (tb s) + count (owing d) (th C') <= ml (tb s') + count (owing d) (th C) + erases_from d C e.
Proof.
  intros St Nw Hb. inversion St as [C0 t d0 o s0 Ht Hb0|C0 t d0 o l s0 i thr ef l' a s1 Ht Hb0 Hl Ha|C0 t d0 o s0 n t' n' cn Ht Hb0 Al Hr Hcn|C0 t d0 o s0 n kd t' n' cn Ht Hb0 Al Hr Hcn|C0 t d0 o r Ht|C0 t o Ht|C0 t o n r w bs Ht Hp Hr Hpb|C0 t r Ht]; subst.
  - right. exists s. split; [exact Hb|]. split; [reflexivity|]. split; [lia|]. cbn [set_th th]. pose proof (count_set (owing d) (th C) t _ (At d0 o LEnter) Ht) as E. cbn in E. rewrite andb_false_r in E. cbn in E. lia.
  - right. pose proof (count_set (owing d) (th C) t _ (At d0 o l') Ht) as E. cbn [owing] in E. pose proof (fair_lstep (free_for C t d0) s0 o l i thr) as F. rewrite Hl in F. destruct F as [F1 F2].
    rewrite (box_set C t _ d d0 s1 s0 Hb0). cbn [set_box set_th th]. rewrite Nat.eqb_sym. unfold erases_from.
    assert (match option_map (ELin t) a with Some (ELin t a) => match nth_error (th C) t with Some (At d' _ _) => n_of (Nat.eqb d' d && erases_one (Some a)) | _ => 0 end | _ => 0 end = n_of (Nat.eqb d0 d && erases_one a)) as ->.
    { destruct a as [a|]; cbn [option_map]; [rewrite Ht; reflexivity|cbn; rewrite andb_false_r; reflexivity]. }
    destruct (Nat.eqb_spec d0 d) as [->|Nd]; cbn [andb] in E |- *.
    + rewrite Hb in Hb0. injection Hb0 as <-. exists s1. split; [reflexivity|]. split; [eapply apply_cap; exact Ha|]. pose proof (apply_ml _ _ _ Ha) as M. split; [lia|].
      destruct (is_mldec ef) eqn:Em; [rewrite (F1 eq_refl) in *|]; (destruct (is_ml l') eqn:El'; [destruct (F2 eq_refl) as [F3 F4]; rewrite ?F3, ?F4 in *|]); try discriminate; destruct (is_ml l), (erases_one a); cbn [n_of] in *; try discriminate; lia.
    + exists s. split; [exact Hb|]. split; [reflexivity|]. split; [lia|]. cbn [n_of] in E. cbn [n_of]. lia.
  - destruct (Nat.eq_dec d0 d) as [->|Nd].
    + rewrite Hb in Hb0. injection Hb0 as <-. unfold rehash_if_full in Hr. destruct (N.eqb_spec (sz (tb s)) (ml (tb s))) as [Es|Ns].
      * left. split; [eapply alone_inside; eassumption|]. split; [exact Es|eauto].
      * injection Hr as <- _. right. rewrite (box_set C t _ d d _ s Hb), Nat.eqb_refl. eexists. split; [reflexivity|]. cbn [tb]. split; [reflexivity|]. split; [lia|]. cbn [set_box set_th th erases_from].
        pose proof (count_set (owing d) (th C) t _ (At d o LEnter) Ht) as E. cbn in E. rewrite andb_false_r in E. cbn in E. lia.
    + right. rewrite (box_set C t _ d d0 _ s0 Hb0). destruct (Nat.eqb_spec d d0); [congruence|]. exists s. split; [exact Hb|]. split; [reflexivity|]. split; [lia|]. cbn [set_box set_th th erases_from].
      pose proof (count_set (owing d) (th C) t _ (At d0 o LEnter) Ht) as E. cbn in E. rewrite andb_false_r in E. cbn in E. lia.
  - destruct (Nat.eq_dec d0 d) as [->|Nd].
    + rewrite Hb in Hb0. injection Hb0 as <-. unfold rehash_if_full in Hr. destruct (N.eqb_spec (sz (tb s)) (ml (tb s))) as [Es|Ns]; [|discriminate].
      left. split; [eapply alone_inside; eassumption|]. split; [exact Es|eauto].
    + right. rewrite (box_set C t _ d d0 _ s0 Hb0). destruct (Nat.eqb_spec d d0); [congruence|]. exists s. split; [exact Hb|]. split; [reflexivity|]. split; [lia|]. cbn [set_box set_th th].
      pose proof (count_set (owing d) (th C) t _ (At d0 o (LRet RThrew)) Ht) as E. cbn in E. rewrite andb_false_r in E. cbn in E. lia.
  - right. exists s. split; [exact Hb|]. split; [reflexivity|]. split; [lia|]. cbn [set_th th]. pose proof (count_set (owing d) (th C) t _ Idle Ht) as E. cbn in E. rewrite andb_false_r in E. cbn in E. cbn. lia.
  - right. exists s. split; [exact Hb|]. split; [reflexivity|]. split; [lia|]. cbn [set_th th]. pose proof (count_set (owing d) (th C) t _ (AtW o) Ht) as E. cbn in E. cbn. lia.
  - exfalso. eapply Nw. reflexivity.
  - right. exists s. split; [exact Hb|]. split; [reflexivity|]. split; [lia|]. cbn [set_th th]. pose proof (count_set (owing d) (th C) t _ Idle Ht) as E. cbn in E. cbn. lia.
Qed.
(** executions in which no operation on whole containers takes effect; m: the number of elements erased from d *)
Inductive calls_only (P : conf -> N -> Prop) (d : nat) (C : conf) : N -> conf -> Prop :=
| co_nil : calls_only P d C 0 C
| co_snoc m C1 e C2 : calls_only P d C m C1 -> gstep c C1 e C2 -> (forall t r, e <> Some (ELin t (AWhole r))) -> counters_fit C2 -> P C1 m -> calls_only P d C (m + erases_from d C1 e) C2.
End Cap.
