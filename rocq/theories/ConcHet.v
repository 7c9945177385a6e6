(** Transparent lookup in the concurrent containers (concurrent_flat_map.hpp l.308-326, 520, 799, 939-1016: visit, cvisit, contains, count, erase, erase_if, extract with a value
    of another type): the code is the template code of the overloads for keys (concurrent_table.hpp), called with q: it calls the hash function with q and the predicate with
    (q, stored key). The machine of ConcModel.v is therefore run with K + Q as the type of what can be looked up. *)
From Coq Require Import NArith Bool List Arith Lia.
From Verif Require Import SizeModel GroupModel FoaModel FoaArr FoaSpec FoaWorld ConcSpec ConcModel ConcInv ConcVisit ConcKeys.
Import ListNotations.
Local Open Scope N_scope.

Section Het.
Context {K V Q : Type} (c : Cfg K V).
Variables (qhash : N -> Q -> N) (qeq : N -> Q -> K -> bool).
(** a key the value q behaves like, if it is equal to some key; equality of the values *)
Variables (rep : N -> Q -> option K) (same : Q -> Q -> bool).
(** the predicate is only called with a stored key as its second argument; the other two cases complete it to an equivalence *)
Definition heq (p : N) (x y : K + Q) : bool :=
  match x, y with
  | inl k, inl k' => keqf c p k k'
  | inr q, inl k => qeq p q k
  | inl k, inr q => qeq p q k
  | inr q, inr q' => match rep p q, rep p q' with Some k, Some k' => keqf c p k k' | None, None => same q q' | _, _ => false end
  end.
Definition het : Cfg (K + Q) V := {|
  hashf := fun h x => match x with inl k => hashf c h k | inr q => qhash h q end;
  keqf := heq; throws := throws c; esz := esz c; gmax := gmax c; moves := moves c; pocca := pocca c; pocma := pocma c; pocs := pocs c; regular := regular c |}.
Lemma het_good : good_cfg c -> good_cfg het. Proof. intros [A B C]. constructor; assumption. Qed.
(** what is asked of q: it hashes like the key it behaves like, or is equal to no key *)
Definition suits (h p : N) : Prop := forall q, match rep p q with
  | Some k0 => qhash h q = hashf c h k0 /\ forall k, qeq p q k = keqf c p k0 k
  | None => forall k, qeq p q k = false end.
(** what x is equal to *)
Definition cls (p : N) (x : K + Q) : K + Q := match x with inl k => inl k | inr q => match rep p q with Some k => inl k | None => inr q end end.
Definition ceq (p : N) (x y : K + Q) : bool := match x, y with inl k, inl k' => keqf c p k k' | inr q, inr q' => same q q' | _, _ => false end.
Lemma heq_cls h p x y : agree c h p -> suits h p -> heq p x y = ceq p (cls p x) (cls p y).
Proof.
  intros [(_ & Sy & _) _] Su. destruct x as [k|q], y as [k'|q']; cbn [heq cls ceq].
  - reflexivity.
  - pose proof (Su q') as H. destruct (rep p q'); cbn [ceq]; [destruct H as [_ ->]; apply Sy|apply H].
  - pose proof (Su q) as H. destruct (rep p q); cbn [ceq]; [apply H|apply H].
  - destruct (rep p q), (rep p q'); reflexivity.
Qed.
Lemma het_agree h p : (forall q q', same q q' = true <-> q = q') -> agree c h p -> suits h p -> agree het h p.
Proof.
  intros Sm A0 Su. pose proof A0 as [(Rf & Sy & Tr) A].
  assert (forall x, ceq p x x = true) as Cr by (intros [k|q]; cbn [ceq]; [apply Rf|apply Sm; reflexivity]).
  assert (forall x y, ceq p x y = true -> ceq p y x = true) as Cs by (intros [k|q] [k'|q']; cbn [ceq]; intros E; try discriminate E; [rewrite Sy; exact E|apply Sm in E; subst; apply Sm; reflexivity]).
  split; [split; [|split]|]; cbn [het keqf hashf].
  - intros x. rewrite (heq_cls h) by assumption. apply Cr.
  - intros x y. rewrite !(heq_cls h) by assumption. destruct (ceq p (cls p x) (cls p y)) eqn:E; [symmetry; apply Cs; exact E|]. destruct (ceq p (cls p y) (cls p x)) eqn:E'; [apply Cs in E'; congruence|reflexivity].
  - intros x y z. rewrite !(heq_cls h) by assumption. generalize (cls p x) (cls p y) (cls p z). intros [a|a] [b|b] [d|d]; cbn [ceq]; intros E1 E2; try discriminate; [apply (Tr _ _ _ E1 E2)|]. apply Sm in E1, E2. subst. apply Sm. reflexivity.
  - intros x y E. rewrite (heq_cls h) in E by assumption.
    assert (forall x, match x with inl k => hashf c h k | inr q => qhash h q end = match cls p x with inl k => hashf c h k | inr q => qhash h q end) as Hc.
    { intros [k|q]; cbn [cls]; [reflexivity|]. pose proof (Su q) as H. destruct (rep p q); [apply H|reflexivity]. }
    rewrite (Hc x), (Hc y). destruct (cls p x), (cls p y); cbn [ceq] in E; try discriminate E; [apply A; exact E|apply Sm in E; subst; reflexivity].
Qed.
End Het.

(** *** executing schedules of calls on one container (used for examples) *)
Section Run.
Context {K V : Type} (c : Cfg K V).
Notation conf := (@conf K V).
Inductive mv := MvNew (t : nat) (h p al n : N) | MvWhole (t : nat) | MvCall (t : nat) (o : cop K V) | MvStep (t i : nat) | MvRet (t : nat).
Definition zeros (t : table K V) : list N := map (fun _ => 0) (a_groups (arr t)).
Definition mvstep (m : mv) (C : conf) : option (option (event K V) * conf) :=
  match m with
  | MvNew t h p al n => match nth_error (th C) t with Some Idle => Some (Some (ECall t (Whole (New h p al n))), set_th C t (AtW (New h p al n))) | _ => None end
  | MvWhole t =>
      match nth_error (th C) t, boxes C with
      | Some (AtW (New h p al n)), [] =>
          match wexec c (New h p al n) [] 0%nat with
          | Ret v [Some tab] _ => Some (Some (ELin t (AWhole (Done v))), Conf [Some (MkSh tab (zeros tab))] (FoaModel.set_nth (th C) t (RetW (Done v))))
          | _ => None end
      | _, _ => None end
  | MvCall t o => match nth_error (th C) t, box C 0 with Some Idle, Some _ => Some (Some (ECall t (OnC 0 o)), set_th C t (ConcModel.At 0 o LEnter)) | _, _ => None end
  | MvStep t i =>
      match nth_error (th C) t with
      | Some (ConcModel.At d o l) =>
          match box C d with
          | Some s => match lstep c (free_for C t d) s o l i false with
              | Step e l' a => match apply e s with Some s' => Some (option_map (ELin t) a, set_box (set_th C t (ConcModel.At d o l')) d s') | None => None end
              | _ => None end
          | None => None end
      | _ => None end
  | MvRet t =>
      match nth_error (th C) t with
      | Some (ConcModel.At d o (LRet r)) => Some (Some (ERet t (AnsC r)), set_th C t Idle)
      | Some (RetW r) => Some (Some (ERet t (AnsW r)), set_th C t Idle)
      | _ => None end
  end.
Definition may (m : mv) (C : conf) : Prop := match m with MvWhole t => forall h p al n, nth_error (th C) t = Some (AtW (New h p al n)) -> agree c h p /\ size_ok c n | _ => True end.
Lemma mvstep_ok m C e C' : may m C -> mvstep m C = Some (e, C') -> gstep c C e C'.
Proof.
  destruct m as [t h p al n|t|t o|t i|t]; cbn [mvstep]; intros My.
  - destruct (nth_error (th C) t) as [[| | |]|] eqn:E; try discriminate. intros [= <- <-]. eapply g_wcall; eassumption.
  - destruct (nth_error (th C) t) as [[| |o|]|] eqn:E; try discriminate. destruct o as [|h p al n| | | | | | | | |]; try discriminate. destruct (boxes C) as [|] eqn:B; [|discriminate].
    destruct (wexec c (New h p al n) [] 0%nat) as [v w n'| |] eqn:X; try discriminate. destruct w as [|[tab|] [|]]; try discriminate. intros [= <- <-].
    assert (idle_world C (New h p al n) = []) as Iw by (unfold idle_world; rewrite B; reflexivity).
    apply (g_whole c C t (New h p al n) 0%nat (Done v) [Some tab]); [exact E|rewrite Iw; split; [apply (My _ _ _ _ E)|exact I]|rewrite Iw, X; split; reflexivity|].
    rewrite Iw. split; [reflexivity|]. intros d L. destruct d as [|d]; [|cbn in L; lia]. unfold box. rewrite B. cbn. exists (zeros tab). split; [reflexivity|apply map_length].
  - destruct (nth_error (th C) t) as [[| | |]|] eqn:E; try discriminate. destruct (box C 0) eqn:B; [|discriminate]. intros [= <- <-]. eapply g_call; eassumption.
  - destruct (nth_error (th C) t) as [[|d o l| |]|] eqn:E; try discriminate. destruct (box C d) as [s|] eqn:B; [|discriminate].
    destruct (lstep c (free_for C t d) s o l i false) as [| |ef l' a] eqn:L; try discriminate. destruct (apply ef s) as [s'|] eqn:A; [|discriminate].
    intros [= <- <-]. eapply g_local; eassumption.
  - destruct (nth_error (th C) t) as [[|d o l| |r]|] eqn:E; try discriminate.
    + destruct l; try discriminate. intros [= <- <-]. eapply g_ret; eassumption.
    + intros [= <- <-]. eapply g_wret; eassumption.
Qed.
(** [counters_fit], decided *)
Definition fits (C : conf) : bool := forallb (fun p =>
  match p with
  | ConcModel.At d _ (LCnt x _) => match box C d with
      | Some s => match nth_error (cnt s) (N.to_nat (position (x_h x) (a_gsi (arr (tb s))))) with Some m => m - x_cg x <? 2 ^ 32 | None => true end
      | None => true end
  | _ => true end) (th C).
Lemma fits_ok C : fits C = true -> counters_fit C.
Proof.
  intros H t d o x n s m Ht Hb Hm. unfold fits in H. rewrite forallb_forall in H. apply nth_error_In in Ht. specialize (H _ Ht). cbn in H.
  rewrite Hb, Hm in H. apply N.ltb_lt. exact H.
Qed.
(** one container at most: the function objects of its creation *)
Variables (h0 p0 : N).
Definition fine (m : mv) (C : conf) : bool :=
  match m with MvWhole t => match nth_error (th C) t with Some (AtW (New h p al n)) => (h =? h0) && (p =? p0) && (n =? 10) | _ => false end | _ => true end.
Hypothesis Ag : agree c h0 p0.
Hypothesis Sz : size_ok c 10.
Lemma fine_may m C : fine m C = true -> may m C.
Proof.
  destruct m; cbn [fine may]; try exact (fun _ => I). destruct (nth_error (th C) t) as [[| |o|]|]; try discriminate. destruct o; try discriminate. intros H h' p' al' n' [= -> -> _ ->].
  apply andb_prop in H as [H H3]. apply andb_prop in H as [H1 H2]. apply N.eqb_eq in H1, H2, H3. subst. split; assumption.
Qed.
Fixpoint playm (ms : list mv) (C : conf) : option (list (event K V) * conf) :=
  match ms with
  | [] => Some ([], C)
  | m :: r => if fine m C then
      match mvstep m C with
      | Some (e, C1) => if fits C1 then match playm r C1 with Some (es, C2) => Some (match e with Some x => x :: es | None => es end, C2) | None => None end else None
      | None => None end else None
  end.
Lemma playm_runs ms : forall n es0 C es C', runs_with c counters_fit n es0 C -> playm ms C = Some (es, C') -> runs_with c counters_fit n (es0 ++ es) C'.
Proof.
  induction ms as [|m ms IH]; intros n es0 C es C' R H; cbn [playm] in H.
  - injection H as <- <-. rewrite app_nil_r. exact R.
  - destruct (fine m C) eqn:F; [|discriminate H]. destruct (mvstep m C) as [[e C1]|] eqn:E; [|discriminate]. destruct (fits C1) eqn:Ok; [|discriminate].
    destruct (playm ms C1) as [[es1 C2]|] eqn:E1; [|discriminate]. injection H as <- <-.
    pose proof (r_snoc c counters_fit n es0 C e C1 R (mvstep_ok _ _ _ _ (fine_may _ _ F) E) (fits_ok _ Ok)) as R1. specialize (IH _ _ _ _ _ R1 E1).
    destruct e; cbn in IH |- *; [rewrite <- app_assoc in IH; exact IH|rewrite app_nil_r in IH; exact IH].
Qed.
(** the moves of thread t alone until it is about to return; slots are scanned in increasing order *)
Fixpoint solo (fuel t : nat) (C : conf) : list mv :=
  match fuel with
  | O => []
  | S f => match nth_error (th C) t with
      | Some (ConcModel.At _ _ l) =>
          let m := match l with LScan _ (i :: _) _ => MvStep t i | LRet _ => MvRet t | _ => MvStep t 0 end in
          match l with LRet _ => [m] | _ => match mvstep m C with Some (_, C1) => m :: solo f t C1 | None => [] end end
      | _ => [] end
  end.
(** complete calls of threads, one after another *)
Fixpoint calls_in_turn (l : list (nat * cop K V)) (C : conf) : list mv :=
  match l with
  | [] => []
  | (t, o) :: r =>
      match mvstep (MvCall t o) C with
      | Some (_, C1) => let ms := MvCall t o :: solo 1000 t C1 in
          match playm ms C with Some (_, C2) => ms ++ calls_in_turn r C2 | None => [] end
      | None => [] end
  end.
End Run.
