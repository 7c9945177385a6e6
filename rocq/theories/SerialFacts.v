(** Facts about the specification of serialization. *)
From Coq Require Import NArith Bool List Arith Lia Permutation.
From Verif Require Import SerialSpec.
Import ListNotations.

Section Facts.
Context {E : Type} (eqv : E -> E -> bool).
Hypothesis Sy : forall x y, eqv x y = eqv y x.

Lemma distinct_perm l l' : Permutation l l' -> distinct eqv l -> distinct eqv l'.
Proof.
  intros P. unfold distinct. induction P as [|x l l' P IH|x y l|l l' l'' P1 IH1 P2 IH2]; intros U; auto.
  - inversion U; subst. constructor; auto. rewrite Forall_forall in *. intros z Hz. apply H1. eapply Permutation_in; [symmetry; exact P|exact Hz].
  - inversion U as [|? ? F1 U1]; subst. inversion U1 as [|? ? F2 U2]; subst. inversion F1 as [|? ? E0 F1']; subst.
    constructor; [constructor; [rewrite Sy; exact E0|exact F2]|constructor; assumption].
Qed.
(** an archive that announces what it contains, without repetitions, can be loaded completely *)
Lemma loaded_all a r l : saved l a -> distinct eqv (items a) -> forall l', loaded eqv a r l' -> r = Loaded /\ Permutation l' l.
Proof.
  intros [Ec P] D l' H. pose proof (Permutation_length P) as Lp. destruct r; cbn [loaded] in H.
  - destruct H as (_ & _ & P'). rewrite Ec, Nat2N.id, <- Lp, firstn_all in P'. split; [reflexivity|]. rewrite P'. exact P.
  - exfalso. destruct H as (l1 & e & l2 & Ei & _ & _ & Ex & _). rewrite Ei in D. apply existsb_exists in Ex as (x & Hx & Ee). clear - D Hx Ee Sy. unfold distinct in D.
    induction l1 as [|y l1 IH]; [destruct Hx|]. cbn [app] in D. inversion D as [|? ? F D']; subst. destruct Hx as [->|Hx]; [|auto]. rewrite Forall_forall in F. specialize (F e). rewrite Sy in Ee. rewrite F in Ee; [discriminate|].
    apply in_or_app. right. left. reflexivity.
  - exfalso. destruct H as (H & _). rewrite Ec, Nat2N.id in H. lia.
Qed.
End Facts.
