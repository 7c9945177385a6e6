(** Bulk visitation: the effect of a call on the contents when nothing else takes effect meanwhile. *)
From Coq Require Import NArith Bool List Arith Lia Permutation.
From Verif Require Import FloatModel SizeModel SizeProofs GroupModel GroupSpec FoaModel FoaGroup FoaBase FoaFind FoaArr FoaInv FoaRehash FoaSpec FoaWorld FoaRun
  ConcSpec ConcModel ConcInv ConcStep ConcStep2 ConcStep3 ConcSys ConcSys2 ConcLin1 ConcLin2 ConcLin3 ConcVisit ConcProps ConcLog ConcFound ConcProgress
  ConcBulkSpec ConcBulkModel ConcBulk ConcBulk2 ConcBulk3.
Import ListNotations.
Notation set_nth := FoaModel.set_nth.

Section Bulk4.
Context {K V : Type} (c : Cfg K V).
Hypothesis HC : good_cfg c.
Notation Sh := (@Sh K V).
Notation pop := (pop K V). Notation cop := (cop K V). Notation loc := (@loc K V). Notation cres := (cres K V).
Notation conf := (@conf K V). Notation pc := (@pc K V).
Notation GInv := (GInv c).
Notation event := (event K V).
Notation bcall := (@bcall K V). Notation bconf := (@bconf K V). Notation bevent := (@bevent K V).
Notation gsteps := (steps c counters_fit).
Notation run := (runs_with c counters_fit).
Notation called := (called (K:=K) (V:=V) (keqf c)).

(** the effects so far; None: no result yet *)
Inductive turn (p : N) (x : bool) : list (K * ufun K V) -> list (option cres) -> list (K * V) -> list (K * V) -> Prop :=
| t_nil l l' : Permutation l l' -> turn p x [] [] l l'
| t_none kf keys r rs l l' : r = None \/ r = Some RNone -> turn p x keys rs l l' -> turn p x (kf :: keys) (r :: rs) l l'
| t_seen kf keys e b rs l l1 l' : called p (fst kf) x (snd kf) e (Some b) l l1 -> turn p x keys rs l1 l' -> turn p x (kf :: keys) (Some (RSeen e) :: rs) l l'
| t_threw kf keys rs l l' : Permutation l l' \/ (exists e, called p (fst kf) x (snd kf) e None l l') -> turn p x (kf :: keys) (Some RThrew :: rs) l l'.
Lemma called_perm p k x f e b l l' l2 : called p k x f e b l l' -> Permutation l' l2 -> called p k x f e b l l2.
Proof. intros (v & rest & H1 & H2 & H3 & H4) H. exists v, rest. split; [exact H1|]. split; [exact H2|]. split; [exact H3|]. rewrite <- H. exact H4. Qed.
Lemma turn_perm p x keys rs l l' l2 : turn p x keys rs l l' -> Permutation l' l2 -> turn p x keys rs l l2.
Proof.
  intros H P. induction H as [l l' H|kf keys r rs l l' Hr H IH|kf keys e b rs l l1 l' Hc H IH|kf keys rs l l' H].
  - apply t_nil. rewrite H. exact P.
  - apply t_none; auto.
  - eapply t_seen; [exact Hc|auto].
  - apply t_threw. destruct H as [H|[e H]]; [left; rewrite H; exact P|right; exists e; eapply called_perm; eassumption].
Qed.
Lemma turn_start p x (keys : list (K * ufun K V)) l : turn p x keys (map (fun _ => None) keys) l l.
Proof. induction keys as [|kf keys IH]; [now apply t_nil|]. apply t_none; auto. Qed.
(** one more result; nothing has happened for the keys after it *)
Definition quiet (r : option cres) : Prop := r = None \/ r = Some RNone.
Lemma turn_quiet p x keys rs l l' : turn p x keys rs l l' -> Forall quiet rs -> Permutation l l'.
Proof.
  intros H. induction H as [l l' H|kf keys r rs l l' Hr H IH|kf keys e b rs l l1 l' Hc H IH|kf keys rs l l' H]; intros F; inversion F; subst; auto; destruct H2; discriminate.
Qed.
Lemma quiet_turn p x : forall keys rs l l', length keys = length rs -> Forall quiet rs -> Permutation l l' -> turn p x keys rs l l'.
Proof. induction keys as [|kf keys IH]; intros [|r rs] l l' L F P; try discriminate; [now apply t_nil|]. inversion F; subst. apply t_none; auto. Qed.
Lemma turn_len p x keys A r B l l' : turn p x keys (A ++ r :: B) l l' -> Forall (fun r => r <> Some RThrew) A -> (length A < length keys)%nat.
Proof.
  revert keys l. induction A as [|a A IH]; intros keys l H F; cbn [app length] in *.
  - inversion H; subst; cbn; lia.
  - inversion F; subst. inversion H; subst; cbn [length]; try (apply -> Nat.succ_lt_mono; eapply IH; eassumption). congruence.
Qed.
Lemma turn_same p x : forall A r B r' keys l l', turn p x keys (A ++ r :: B) l l' -> quiet r -> quiet r' -> turn p x keys (A ++ r' :: B) l l'.
Proof.
  induction A as [|a A IH]; intros r B r' keys l l' H Q Q'; cbn [app] in *.
  - inversion H; subst; [apply t_none; auto|destruct Q; discriminate|destruct Q; discriminate].
  - inversion H; subst; [apply t_none; eauto|eapply t_seen; eauto|apply t_threw; auto].
Qed.
Lemma turn_more p x mv : forall A r B r' keys l l' l2 kf, turn p x keys (A ++ r :: B) l l' -> Forall (fun r => r <> Some RThrew) A -> length keys = length (A ++ r :: B) -> quiet r -> Forall quiet B ->
  nth_error keys (length A) = Some kf -> r' <> RNone -> pspec (keqf c) mv p (PVisit x (fst kf) (snd kf)) l' r' l2 -> turn p x keys (A ++ Some r' :: B) l l2.
Proof.
  induction A as [|a A IH]; intros r B r' keys l l' l2 kf H NF L Q QB Hk N Hp; cbn [app length nth_error] in *.
  - destruct keys as [|kf0 keys]; [discriminate|]. injection Hk as ->. injection L as L.
    assert (turn p x keys B l l') as HB by (inversion H; subst; [assumption|destruct Q; discriminate|destruct Q; discriminate]).
    pose proof (turn_quiet _ _ _ _ _ _ HB QB) as Pm.
    assert (forall e b, called p (fst kf) x (snd kf) e b l' l2 -> called p (fst kf) x (snd kf) e b l l2) as Cp.
    { intros e b (v & rest & H1 & H2 & H3 & H4). exists v, rest. split; [exact H1|]. split; [exact H2|]. split; [rewrite Pm; exact H3|exact H4]. }
    destruct r'; cbn [pspec] in Hp; try contradiction.
    + destruct Hp as [b Hp]. eapply t_seen; [apply Cp; exact Hp|apply quiet_turn; auto].
    + apply t_threw. destruct Hp as [Hp|[e Hp]]; [left; rewrite Pm, Hp; reflexivity|right; exists e; apply Cp; exact Hp].
  - destruct keys as [|kf0 keys]; [discriminate|]. injection L as L. inversion NF; subst. inversion H; subst; [apply t_none; [assumption|eauto]|eapply t_seen; [eassumption|eauto]|congruence].
Qed.
Lemma normal_some rs : Forall (@normal K V) rs -> Forall (fun r => r <> Some RThrew) (map Some rs).
Proof. intros H. induction H as [|r rs H _ IH]; constructor; auto. destruct H as [->|[e ->]]; discriminate. Qed.
(** the keys that have been dealt with, and the others *)
Lemma turn_split p x : forall rs X keys l l', turn p x keys (map Some rs ++ X) l l' -> Forall (@normal K V) rs ->
  exists l1, turn p x (firstn (length rs) keys) (map Some rs) l l1 /\ turn p x (skipn (length rs) keys) X l1 l'.
Proof.
  induction rs as [|r rs IH]; intros X keys l l' H F; cbn [map app length] in *.
  - exists l. split; [now apply t_nil|exact H].
  - inversion F; subst. inversion H; subst; cbn [firstn skipn].
    + destruct (IH _ _ _ _ H8 H3) as (l1 & P1 & P2). exists l1. split; [apply t_none; auto|exact P2].
    + destruct (IH _ _ _ _ H8 H3) as (l2 & P1 & P2). exists l2. split; [eapply t_seen; eauto|exact P2].
    + destruct H2 as [|[e ?]]; discriminate.
Qed.
(** the keys do not change, so that the visits that found nothing can be placed anywhere *)
Lemma called_keys p k x f e b l l' : called p k x f e b l l' -> Permutation (map fst l) (map fst l').
Proof. intros (v & rest & _ & _ & H1 & H2). rewrite H1, H2. reflexivity. Qed.
Lemma absent_keys p k (l l' : list (K * V)) : Permutation (map fst l) (map fst l') -> absent (keqf c) p k l -> absent (keqf c) p k l'.
Proof.
  intros P H e He. assert (In (fst e) (map fst l)) as Hi by (eapply Permutation_in; [symmetry; exact P|apply in_map, He]). apply in_map_iff in Hi as (e' & <- & He'). apply H, He'.
Qed.
Lemma turn_in_turn p x mv : forall keys rs l l', turn p x keys (map Some rs) l l' -> Forall (@normal K V) rs ->
  (forall j kf, nth_error keys j = Some kf -> nth_error rs j = Some RNone -> absent (keqf c) p (fst kf) l) -> in_turn (keqf c) mv p x keys rs l l'.
Proof.
  intros keys rs. revert keys. induction rs as [|r rs IH]; intros keys l l' H F Ha; cbn [map] in H.
  - inversion H; subst. now apply it_nil.
  - inversion F; subst. inversion H; subst.
    + match goal with E : Some r = None \/ _ |- _ => destruct E as [E|E]; [discriminate E|injection E as ->] end. destruct kf as [k f]. eapply it_cons; [|apply IH; eauto].
      * cbn [pspec]. split; [exact (Ha 0%nat (k, f) eq_refl eq_refl)|reflexivity].
      * intros j kf H1 H0. exact (Ha (S j) kf H1 H0).
    + destruct kf as [k f]. eapply it_cons; [cbn [pspec]; eexists; eassumption|]. apply IH; auto. intros j kf E1 E2. eapply absent_keys; [eapply called_keys; eassumption|]. exact (Ha (S j) kf E1 E2).
    + match goal with E : normal RThrew |- _ => destruct E as [E|[e E]]; discriminate E end.
Qed.
End Bulk4.
