(** The calls of the hash function by single-key operations of concurrent containers (C66): executions of ConcModel.v with two counters per thread, of the calls of the hash function
    with the key of the operation in progress, and of the growths of the container by it (rehash_if_full). The hash values of elements that a growth moves are not counted here. *)
From Coq Require Import NArith Bool List Arith Lia.
From Verif Require Import SizeModel FoaModel FoaBase FoaSpec FoaWorld ConcSpec ConcModel ConcInv.
Import ListNotations.
Local Open Scope nat_scope.
Section H.
Context {K V : Type} (c : Cfg K V).
Notation conf := (@conf K V).
Notation loc := (@loc K V).
Notation event := (event K V).
Definition is_hash (l : loc) : bool := match l with LHash => true | _ => false end.
Definition is_full (l : loc) : bool := match l with LFull => true | _ => false end.
Definition is_enter (l : loc) : bool := match l with LEnter => true | _ => false end.
Definition at_loc (q : loc -> bool) (C : conf) (t : nat) : bool := match nth_error (th C) t with Some (ConcModel.At _ (Point _) l) => q l | _ => false end.
(** concurrent_table.hpp l.1206-1214, 910-928, 1682-1690: auto hash=this->hash_for(k): the step that leaves LHash, whether it throws or not *)
Definition hashes (C C' : conf) (t : nat) : nat := if at_loc is_hash C t && negb (at_loc is_hash C' t) then 1 else 0.
(** concurrent_table.hpp l.1597-1611: rehash_if_full() returns, and the loop starts again *)
Definition grows (C C' : conf) (t : nat) : nat := if at_loc is_full C t && at_loc is_enter C' t then 1 else 0.
Definition since (e : option event) (u : nat -> nat) (t : nat) : nat := match e with Some (ECall t' _) => if t' =? t then 0 else u t | _ => u t end.
(** h t, g t: how often the call of thread t in progress, or its last one, has hashed its key and has grown the container *)
Inductive hashruns (P : conf -> Prop) (n : nat) : list event -> conf -> (nat -> nat) -> (nat -> nat) -> Prop :=
| hr_nil : P (Conf [] (repeat Idle n)) -> hashruns P n [] (Conf [] (repeat Idle n)) (fun _ => 0) (fun _ => 0)
| hr_snoc es C h g e C' : hashruns P n es C h g -> gstep c C e C' -> P C' ->
    hashruns P n (es ++ match e with Some x => [x] | None => [] end) C' (fun t => since e h t + hashes C C' t) (fun t => since e g t + grows C C' t).
Lemma hash_run P n es C h g : hashruns P n es C h g -> runs_with c P n es C.
Proof. induction 1; [now constructor|econstructor; eassumption]. Qed.
Lemma run_hash P n es C : runs_with c P n es C -> exists h g, hashruns P n es C h g.
Proof. induction 1 as [H|es C e C' R (h & g & IH) St H]; [do 2 eexists; now constructor|do 2 eexists; econstructor; eassumption]. Qed.

Definition inserts (p : pop K V) : bool := match p with PEmplace _ _ _ _ _ => true | _ => false end.
Definition ins_loc (l : loc) : bool :=
  match l with LCount _ | LRes _ | LChk _ _ | LIns _ | LAvail _ | LSkip _ | LCnt _ _ | LCons _ _ | LUndo _ _ _ | LUndoUnl _ _ | LFail _ | LOut | LFull => true | _ => false end.
Definition hspec (p : pop K V) (l : loc) (h g : nat) : Prop :=
  h = (if is_enter l || is_hash l then g else S g) /\ (inserts p = false -> g = 0 /\ ins_loc l = false).
Lemma pstep_h free s p l i thr e l' a h g : pstep c free s p l i thr = Step e l' a -> hspec p l h g ->
  hspec p l' (h + if is_hash l && negb (is_hash l') then 1 else 0) g /\ is_full l && is_enter l' = false.
Proof.
  unfold hspec. intros E [U N]. destruct l; cbn [pstep] in E; unfold go, not_found, visit_slot in E;
    repeat match type of E with
           | context [match ?y with _ => _ end] => match y with context [match _ with _ => _ end] => fail 1 | _ => destruct y eqn:? end
           end; cbn iota beta in E; try discriminate E; try (injection E as <- <- <-); cbn in U, N |- *; (split; [|reflexivity]); split; try lia;
    try (intros X; destruct (N X); split; congruence); try (intros X; destruct (N X); split; [assumption|reflexivity]); try discriminate.
Qed.
Definition IH (C : conf) (h g : nat -> nat) : Prop := forall t d p l, nth_error (th C) t = Some (ConcModel.At d (Point p) l) -> hspec p l (h t) (g t).
Lemma same_h C C' t : nth_error (th C') t = nth_error (th C) t -> hashes C C' t = 0 /\ grows C C' t = 0.
Proof.
  intros H. unfold hashes, grows, at_loc. rewrite H. destruct (nth_error (th C) t) as [[|d [p|x md f|] l| |]|]; try (split; reflexivity). destruct l; split; reflexivity.
Qed.
Lemma ih_step C h g e C' : gstep c C e C' -> IH C h g -> IH C' (fun t => since e h t + hashes C C' t) (fun t => since e g t + grows C C' t).
Proof.
  intros St H t d p l Ht.
  assert (forall t1, t <> t1 -> (t1 =? t) = false) as Ne by (intros; apply Nat.eqb_neq; congruence).
  destruct St as [C t1 d1 o s Ht1 Hb|C t1 d1 o l1 s i thr e l' a s' Ht1 Hb Hs Ha|C t1 d1 o s n1 t' n' cn Ht1 Hb Hal Hr Hc|
    C t1 d1 o s n1 kd t' n' cn Ht1 Hb Hal Hr Hc|C t1 d1 o r Ht1|C t1 o Ht1|C t1 o n1 r w bs Ht1 Hp He Hbk|C t1 r Ht1];
  cbn [set_box set_th th] in Ht; (destruct (Nat.eq_dec t t1) as [->|N];
    [|match goal with |- hspec _ _ (_ + hashes ?A ?B ?x) _ => destruct (same_h A B x) as [-> ->]; [cbn [set_box set_th th]; now rewrite others_err by exact N|] end;
      rewrite others_err in Ht by exact N; rewrite !Nat.add_0_r;
      match goal with |- hspec _ _ (since ?e _ _) _ => replace (since e h t) with (h t); [replace (since e g t) with (g t); [eapply H; exact Ht|]|] end;
      try destruct a; cbn [option_map since]; rewrite ?(Ne _ N); reflexivity]);
  rewrite (self_err _ _ _ _ Ht1) in Ht; try discriminate Ht.
  - injection Ht as <- -> <-. unfold hashes, grows, at_loc. rewrite Ht1. cbn. rewrite Nat.eqb_refl. split; [reflexivity|auto].
  - injection Ht as <- -> ->. unfold hashes, grows, at_loc. cbn [set_box set_th th]. rewrite Ht1, (self_err _ _ _ _ Ht1). cbn [lstep] in Hs.
    replace (since (option_map (ELin t1) a) h t1) with (h t1) by (destruct a; reflexivity). replace (since (option_map (ELin t1) a) g t1) with (g t1) by (destruct a; reflexivity).
    destruct (pstep_h _ _ _ _ _ _ _ _ _ _ _ Hs (H _ _ _ _ Ht1)) as [X Y]. rewrite Y, Nat.add_0_r. exact X.
  - injection Ht as <- -> <-. unfold hashes, grows, at_loc. cbn [set_box set_th th]. rewrite Ht1, (self_err _ _ _ _ Ht1). cbn. destruct (H _ _ _ _ Ht1) as [X Y]. cbn in X, Y.
    split; [cbn; lia|intros Z; destruct (Y Z); discriminate].
  - injection Ht as <- -> <-. unfold hashes, grows, at_loc. cbn [set_box set_th th]. rewrite Ht1, (self_err _ _ _ _ Ht1). cbn. destruct (H _ _ _ _ Ht1) as [X Y]. cbn in X, Y.
    split; [cbn; lia|intros Z; destruct (Y Z); discriminate].
Qed.
Lemma ih_runs P n es C h g : hashruns P n es C h g -> IH C h g.
Proof.
  induction 1 as [H|es C h g e C' R I St H]; [|apply ih_step; assumption]. intros t d p l Ht. cbn [th] in Ht. apply nth_error_In, repeat_spec in Ht. discriminate.
Qed.
End H.
