(** The arguments of insertions into concurrent containers (C69): executions of ConcModel.v with a counter per thread, of the calls of constructors
    with the arguments of the insertion in progress. *)
From Coq Require Import NArith Bool List Arith Lia.
From Verif Require Import SizeModel FoaModel FoaBase FoaSpec FoaWorld ConcSpec ConcModel ConcInv.
Import ListNotations.
Local Open Scope nat_scope.
Section A.
Context {K V : Type} (c : Cfg K V).
Notation conf := (@conf K V).
Notation loc := (@loc K V).
Notation event := (event K V).
(** concurrent_table.hpp l.1713-1714: insert, try_emplace, ... pass their arguments to construct_element, and nowhere else (key_from only reads them).
    The step that does it is the one that leaves this position. *)
Definition is_cons (l : loc) : bool := match l with LCons _ _ => true | _ => false end.
Definition constructing (C : conf) (t : nat) : bool := match nth_error (th C) t with Some (ConcModel.At _ (Point (PEmplace _ _ _ _ _)) l) => is_cons l | _ => false end.
Definition constructs (C C' : conf) (t : nat) : nat := if constructing C t && negb (constructing C' t) then 1 else 0.
(** u t: how often the call of thread t in progress, or its last one, has used its arguments *)
Definition before (e : option event) (u : nat -> nat) (t : nat) : nat := match e with Some (ECall t' _) => if t' =? t then 0 else u t | _ => u t end.
Inductive argruns (P : conf -> Prop) (n : nat) : list event -> conf -> (nat -> nat) -> Prop :=
| ar_nil : P (Conf [] (repeat Idle n)) -> argruns P n [] (Conf [] (repeat Idle n)) (fun _ => 0)
| ar_snoc es C u e C' : argruns P n es C u -> gstep c C e C' -> P C' ->
    argruns P n (es ++ match e with Some x => [x] | None => [] end) C' (fun t => before e u t + constructs C C' t).
Lemma arg_run P n es C u : argruns P n es C u -> runs_with c P n es C.
Proof. induction 1; [now constructor|econstructor; eassumption]. Qed.
Lemma run_arg P n es C : runs_with c P n es C -> exists u, argruns P n es C u.
Proof. induction 1 as [H|es C e C' R [u IH] St H]; [eexists; now constructor|eexists; econstructor; eassumption]. Qed.

(** what the position of an insertion says about its arguments *)
Definition uspec (l : loc) (k : nat) : Prop :=
  match l with
  | LUndo _ _ QThrow | LUndoUnl _ QThrow | LFail QThrow => k = 1
  | LUnl _ _ RIns | LDone RIns | LRet RIns => k = 1
  | LUnl _ _ RThrew | LDone RThrew | LRet RThrew => k <= 1
  | _ => k = 0
  end.
Lemma pstep_u free s x key v f1 f2 l i thr e l' a k : pstep c free s (PEmplace x key v f1 f2) l i thr = Step e l' a -> uspec l k ->
  uspec l' (k + if is_cons l && negb (is_cons l') then 1 else 0).
Proof.
  intros E U. destruct l; cbn [pstep] in E; unfold go, not_found, visit_slot in E;
    repeat match type of E with
           | context [match ?y with _ => _ end] => match y with context [match _ with _ => _ end] => fail 1 | _ => destruct y eqn:? end
           end; cbn iota beta in E; try discriminate E; try (injection E as <- <- <-); cbn in U |- *; try lia; try (rewrite Nat.add_0_r; exact U).
Qed.
Definition IA (C : conf) (u : nat -> nat) : Prop := forall t d x key v f1 f2 l, nth_error (th C) t = Some (ConcModel.At d (Point (PEmplace x key v f1 f2)) l) -> uspec l (u t).
Lemma same_thread C C' t : nth_error (th C') t = nth_error (th C) t -> constructs C C' t = 0.
Proof. intros H. unfold constructs, constructing. rewrite H. destruct (match nth_error (th C) t with Some _ => _ | None => _ end); reflexivity. Qed.
Lemma ia_step C u e C' : gstep c C e C' -> IA C u -> IA C' (fun t => before e u t + constructs C C' t).
Proof.
  intros St H t d x key v f1 f2 l Ht.
  assert (forall t1, t <> t1 -> (t1 =? t) = false) as Ne by (intros; apply Nat.eqb_neq; congruence).
  destruct St as [C t1 d1 o s Ht1 Hb|C t1 d1 o l1 s i thr e l' a s' Ht1 Hb Hs Ha|C t1 d1 o s n1 t' n' cn Ht1 Hb Hal Hr Hc|
    C t1 d1 o s n1 kd t' n' cn Ht1 Hb Hal Hr Hc|C t1 d1 o r Ht1|C t1 o Ht1|C t1 o n1 r w bs Ht1 Hp He Hbk|C t1 r Ht1];
  cbn [set_box set_th th] in Ht; (destruct (Nat.eq_dec t t1) as [->|N];
    [|rewrite same_thread by (cbn [set_box set_th th]; now rewrite others_err by exact N); rewrite others_err in Ht by exact N; rewrite Nat.add_0_r;
      replace (before _ u t) with (u t); [eapply H; exact Ht|try destruct a; cbn [option_map before]; rewrite ?(Ne _ N); reflexivity]]);
  rewrite (self_err _ _ _ _ Ht1) in Ht; try discriminate Ht.
  - injection Ht as <- -> <-. unfold constructs, constructing. rewrite Ht1. cbn. rewrite Nat.eqb_refl. reflexivity.
  - injection Ht as <- -> ->. unfold constructs, constructing. cbn [set_box set_th th]. rewrite Ht1, (self_err _ _ _ _ Ht1).
    replace (before (option_map (ELin t1) a) u t1) with (u t1) by (destruct a; reflexivity). cbn [lstep] in Hs. eapply pstep_u; [exact Hs|]. eapply H. exact Ht1.
  - injection Ht as <- -> <-. unfold constructs, constructing. cbn [set_box set_th th]. rewrite Ht1. cbn. rewrite Nat.add_0_r. exact (H _ _ _ _ _ _ _ _ Ht1).
  - injection Ht as <- -> <-. unfold constructs, constructing. cbn [set_box set_th th]. rewrite Ht1. cbn. rewrite Nat.add_0_r. pose proof (H _ _ _ _ _ _ _ _ Ht1) as X. cbn in X. lia.
Qed.
Lemma ia_runs P n es C u : argruns P n es C u -> IA C u.
Proof.
  induction 1 as [H|es C u e C' R IH St H]; [|apply ia_step; assumption]. intros t d x key v f1 f2 l Ht. cbn [th] in Ht. apply nth_error_In, repeat_spec in Ht. discriminate.
Qed.
End A.
