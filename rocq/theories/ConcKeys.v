(** Concurrent containers: every key stored was passed to an insertion. *)
From Coq Require Import NArith Bool List Arith Lia Permutation.
From Verif Require Import FloatModel SizeModel GroupModel FoaModel FoaBase FoaArr FoaInv FoaSpec FoaWorld FoaRun ConcSpec ConcModel ConcInv ConcSys ConcSys2 ConcLog ConcProps.
From Verif Require Properties_Conc.
Import ListNotations.
Local Open Scope N_scope.
Section Keys.
Context {K V : Type} (c : Cfg K V).
Hypothesis HC : good_cfg c.
Variable P : K -> Prop.
Notation pair := (K * V)%type.
(** the keys a call may insert *)
Definition inserts1 (o : op1 K V) : list K :=
  match o with Insert e => [fst e] | InsertRange l | AssignList l => map fst l | InsertOrAssign k _ | Index _ k => [k] | _ => [] end.
Definition keys_of (ca : call K V) : list K :=
  match ca with OnC _ (Point (PEmplace _ k _ _ _)) => [k] | Whole (On _ o) => inserts1 o | _ => [] end.
Definition Pl (l : list pair) : Prop := Forall (fun e => P (fst e)) l.
Definition Pv (o : option (FoaSpec.view K V)) : Prop := match o with Some v => Pl (v_elems v) | None => True end.
Definition Pw (w : world K V) : Prop := Forall Pv w.

Lemma pl_perm l l' : Permutation l l' -> Pl l -> Pl l'. Proof. intros H. unfold Pl. rewrite H. auto. Qed.
Lemma pl_app l l' : Pl (l ++ l') <-> Pl l /\ Pl l'. Proof. apply Forall_app. Qed.
Lemma pl_in l l' : (forall e, In e l' -> In e l) -> Pl l -> Pl l'. Proof. unfold Pl. rewrite !Forall_forall. intros H G x Hx. apply G, H, Hx. Qed.
Lemma pl_filter f l : Pl l -> Pl (filter f l). Proof. apply pl_in. intros e He. apply filter_In in He. tauto. Qed.
Lemma pw_nth w i v : Pw w -> nth_error w i = Some (Some v) -> Pl (v_elems v).
Proof. intros H E. apply nth_error_In in E. unfold Pw in H. rewrite Forall_forall in H. apply (H _ E). Qed.
Lemma pw_set w i o : Pw w -> Pv o -> Pw (FoaSpec.set w i o).
Proof.
  intros H G. unfold FoaSpec.set, Pw in *. apply Forall_app. split; [|constructor; [exact G|]]; rewrite Forall_forall in *; intros x Hx; apply H.
  - rewrite <- (firstn_skipn i w). apply in_or_app. left. exact Hx.
  - rewrite <- (firstn_skipn (S i) w). apply in_or_app. right. exact Hx.
Qed.
Lemma pw_app w o : Pw w -> Pv o -> Pw (w ++ [o]). Proof. intros H G. apply Forall_app. split; [exact H|constructor; [exact G|constructor]]. Qed.
Lemma pl_add p es : forall l, Pl l -> Forall P (map fst es) -> Pl (add_all (keqf c) p l es).
Proof.
  unfold add_all. induction es as [|e es IH]; intros l H G; [exact H|]. cbn [fold_left]. cbn [map] in G. inversion G; subst. apply IH; [|assumption]. unfold add. destruct (lookup _ _ _ _); [exact H|constructor; assumption].
Qed.
Lemma spec1_keys p o l r l' : Forall P (inserts1 o) -> spec1 (keqf c) (moves c) p o l r l' -> Pl l -> Pl l'.
Proof.
  intros G S H. destruct o; destruct r as [vv|kd]; cbn [spec1 inserts1] in *;
    repeat match type of S with match ?v with _ => _ end => destruct v end;
    repeat match goal with
    | X : _ /\ _ |- _ => destruct X
    | X : exists _, _ |- _ => destruct X
    | X : False |- _ => destruct X
    end; subst;
    try exact H; try (constructor; fail);
    try (eapply pl_perm; [apply Permutation_sym; eassumption|]; auto using pl_filter);
    try (eapply (proj1 (pl_app _ _)), pl_perm; [eassumption|exact H]);
    try (match goal with X : Permutation l (?a ++ ?g) |- Pl ?g => apply (pl_perm _ _ X) in H; apply pl_app in H; apply H end; fail).
  all: try (constructor; [|exact H]; inversion G; assumption).
  all: try (apply pl_add; [first [exact H|constructor]|exact G]).
  all: try (match goal with X : Permutation (add_all _ _ ?z ?es1) (_ ++ ?g) |- Pl ?g => assert (Pl (add_all (keqf c) p z es1)) as Y; [apply pl_add; [first [exact H|constructor]|rewrite map_app in G; apply Forall_app in G; apply G]|apply (pl_perm _ _ X) in Y; apply pl_app in Y; apply Y] end).
  all: try (unfold Pl in *; rewrite Forall_map; eapply Forall_impl; [|exact H]; cbn; intros a Ha; destruct (keqf c p k (fst a)); exact Ha).
  all: try (apply pl_filter; exact H).
  - apply pl_app in H as [H1 H2]. inversion H2; subst. apply pl_app. auto.
  - apply pl_app. split; (eapply pl_in; [|exact H]); intros e He; [rewrite <- (firstn_skipn m l)|rewrite <- (firstn_skipn m2 l)]; apply in_or_app; auto.
Qed.

Lemma spec_keys w o r w' : Forall P (keys_of (Whole o)) -> spec (keqf c) (moves c) w o r w' -> Pw w -> Pw w'.
Proof.
  intros G S H. pose proof (pw_nth w) as N1.
  destruct o; cbn [spec keys_of] in *.
  - destruct S as (v & l' & Hv & S & ->). apply pw_set; [exact H|]. cbn [Pv v_elems]. apply (spec1_keys _ _ _ _ _ G S). apply (N1 _ _ H Hv).
  - destruct r as [[]|]; try (exfalso; exact S); [subst; apply pw_app; [exact H|constructor]|destruct S as [_ ->]; exact H].
  - destruct S as (x & Hx & S). destruct r as [[]|]; try (exfalso; exact S); [|subst; exact H]. destruct S as (l & Pm & ->). apply pw_app; [exact H|]. cbn. apply (pl_perm _ _ (Permutation_sym Pm)). apply (N1 _ _ H Hx).
  - destruct S as (x & Hx & _ & ->). apply pw_app; [apply pw_set; [exact H|constructor]|]. apply (N1 _ _ H Hx).
  - destruct S as (x & Hx & S). destruct r as [[]|]; try (exfalso; exact S).
    + destruct S as (l & Pm & ->). apply pw_app; [apply pw_set; [exact H|constructor]|]. cbn. apply (pl_perm _ _ (Permutation_sym Pm)). apply (N1 _ _ H Hx).
    + destruct S as [->| ->]; [exact H|apply pw_set; [exact H|constructor]].
  - destruct S as (v & _ & _ & ->). apply pw_set; [exact H|exact I].
  - destruct S as (t & x & al & l & _ & Hx & -> & _ & S). apply pw_set; [exact H|]. cbn. pose proof (N1 _ _ H Hx) as Q.
    destruct r as [[]|]; try (exfalso; exact S); [apply (pl_perm _ _ (Permutation_sym S) Q)|]. destruct S as (rest & Pm). apply (pl_perm _ _ Pm) in Q. apply pl_app in Q. apply Q.
  - destruct S as (t & x & al & l & lx & _ & Hx & -> & _ & S). pose proof (N1 _ _ H Hx) as Q. destruct r as [[]|]; try (exfalso; exact S).
    + destruct S as [Pm ->]. apply pw_set; [apply pw_set; [exact H|]|constructor]. apply (pl_perm _ _ (Permutation_sym Pm) Q).
    + destruct S as (rest & Pm). apply (pl_perm _ _ Pm) in Q. apply pl_app in Q as [Q1 Q]. apply pl_app in Q as [Q2 _]. apply pw_set; [apply pw_set; [exact H|exact Q1]|exact Q2].
  - destruct S as (t & x & Ht & Hx & _ & ->). apply pw_set; [apply pw_set; [exact H|apply (N1 _ _ H Hx)]|apply (N1 _ _ H Ht)].
  - destruct S as (t & x & l & lx & Ht & Hx & -> & S). pose proof (N1 _ _ H Hx) as Q. pose proof (N1 _ _ H Ht) as Qt. destruct r as [[]|]; try (exfalso; exact S).
    + destruct S as (moved & P1 & P2 & _). apply (pl_perm _ _ P1) in Q. apply pl_app in Q as [Q1 Q2]. apply pw_set; [apply pw_set; [exact H|]|exact Q2]. apply (pl_perm _ _ (Permutation_sym P2)). apply pl_app. auto.
    + destruct S as (lost & P1 & _). assert (Pl (v_elems t ++ v_elems x)) as Q' by (apply pl_app; auto). apply (pl_perm _ _ P1) in Q'. apply pl_app in Q' as [A1 A2]. apply pl_app in A2 as [A2 _]. apply pw_set; [apply pw_set; [exact H|exact A1]|exact A2].
  - destruct S as (x & y & _ & _ & -> & _). exact H.
Qed.
Lemma called_keys p k x f e b l l' : called (keqf c) p k x f e b l l' -> Pl l -> Pl l'.
Proof. intros (v & rest & _ & _ & P1 & P2) H. apply (pl_perm _ _ P1) in H. inversion H; subst. apply (pl_perm _ _ (Permutation_sym P2)). constructor; assumption. Qed.
Lemma pspec_keys d p o l r l' : Forall P (keys_of (OnC d (Point o))) -> pspec (keqf c) (moves c) p o l r l' -> Pl l -> Pl l'.
Proof.
  intros G S H. destruct o; destruct r; cbn [pspec keys_of] in *; try (exfalso; exact S).
  - destruct S as [_ Pm]. apply (pl_perm _ _ (Permutation_sym Pm) H).
  - destruct S as (b & S). apply (called_keys _ _ _ _ _ _ _ _ S H).
  - destruct S as [Pm|(e & S)]; [apply (pl_perm _ _ (Permutation_sym Pm) H)|apply (called_keys _ _ _ _ _ _ _ _ S H)].
  - destruct S as [_ Pm]. apply (pl_perm _ _ (Permutation_sym Pm) H).
  - destruct S as (v & _ & _ & Pm). apply (pl_perm _ _ Pm) in H. inversion H; assumption.
  - apply (called_keys _ _ _ _ _ _ _ _ S H).
  - destruct S as [Pm|(e & S)]; [apply (pl_perm _ _ (Permutation_sym Pm) H)|apply (called_keys _ _ _ _ _ _ _ _ S H)].
  - destruct S as (b & S). apply (called_keys _ _ _ _ _ _ _ _ S H).
  - destruct S as (v' & b & _ & _ & Pm). apply (pl_perm _ _ (Permutation_sym Pm)). constructor; [inversion G; assumption|exact H].
  - destruct S as [Pm|[(e & S)|[(v' & _ & _ & Pm)|(lost & _ & Pm)]]].
    + apply (pl_perm _ _ (Permutation_sym Pm) H).
    + apply (called_keys _ _ _ _ _ _ _ _ S H).
    + apply (pl_perm _ _ (Permutation_sym Pm)). constructor; [inversion G; assumption|exact H].
    + apply (pl_perm _ _ Pm) in H. apply pl_app in H. apply H.
Qed.
Lemma effect_keys st t ca done a w w' : Forall P (keys_of ca) -> takes_effect (keqf c) (moves c) st t ca done a w w' -> Pw w -> Pw w'.
Proof.
  intros G S H. destruct ca as [d [p|x m f|]|o]; destruct a; cbn [takes_effect] in S; try (exfalso; exact S).
  - destruct S as (_ & v & l' & Hv & S & ->). apply pw_set; [exact H|]. apply (pspec_keys d _ _ _ _ _ G S). apply (pw_nth _ _ _ H Hv).
  - destruct S as (v & l' & Hv & (v' & ob & rest & _ & -> & P1 & P2) & ->). apply pw_set; [exact H|]. cbn. pose proof (pw_nth _ _ _ H Hv) as Q. apply (pl_perm _ _ P1) in Q. inversion Q; subst. apply (pl_perm _ _ (Permutation_sym P2)).
    destruct (erases m ob); [assumption|constructor; assumption].
  - destruct S as (_ & -> & _). exact H.
  - destruct S as [_ S]. apply (spec_keys _ _ _ _ G S H).
Qed.
Lemma same_keys w w' : same_world w w' -> Pw w -> Pw w'.
Proof.
  unfold Pw. induction 1 as [|x y w w' Hx Hw IH]; intros H; [constructor|]. inversion H; subst. constructor; [|apply IH; assumption]. destruct x, y; try destruct Hx; [|exact I]. cbn. apply (pl_perm _ _ (proj2 (proj2 H1))). assumption.
Qed.
Lemma keys_from_calls n es C : runs_with c counters_fit n es C -> (forall t ca k, In (ECall t ca) es -> In k (keys_of ca) -> P k) -> Pw (Properties_Conc.abstract C).
Proof.
  induction 1 as [|es C e C' R IH St Fit]; intros HK; [constructor|].
  assert (Pw (Properties_Conc.abstract C)) as H. { apply IH. intros t ca k I1 I2. apply (HK t ca k); [|exact I2]. apply in_or_app. left. exact I1. }
  assert ({x : nat * act K V | e = Some (ELin (fst x) (snd x))} + {forall t a, e <> Some (ELin t a)}) as [[[t a] ->]|Ne].
  { destruct e as [[t' ca|t' a|t' an]|]; [right; intros; discriminate|left; exists (t', a); reflexivity|right; intros; discriminate|right; intros; discriminate]. }
  - cbn [fst snd] in St. destruct (Properties_Conc.C36_instants c HC n es C t a C' R St) as (ca & done & Ec & Te). apply (effect_keys _ _ _ _ _ _ _) in Te; [exact Te| |exact H].
    pose proof (reach_log c HC n es C R) as L. unfold calls_of in Ec. destruct (nth_error (th C) t) as [p|] eqn:Et; [|discriminate Ec]. destruct (L t p Et) as (pre & X).
    rewrite Forall_forall. intros k Hk. apply (HK t ca k); [|exact Hk]. apply in_or_app. left.
    destruct p; try discriminate Ec; injection Ec as <- _; (assert (In (ECall t _) (filter (ev_by t) es)) as J by (rewrite X; apply in_or_app; right; left; reflexivity)); apply filter_In in J; apply J.
  - apply (same_keys _ _ (Properties_Conc.C36_other_steps_change_nothing c HC n es C e C' R St Ne) H).
Qed.
End Keys.
