(** Every sequentially consistent step is a step of WeakModel.v: a thread may always read the current values. *)
From Coq Require Import NArith Bool List Arith Lia.
From Verif Require Import SizeModel GroupModel FoaModel FoaBase FoaFind FoaArr FoaSpec FoaWorld FoaExamples ConcSpec ConcModel ConcSys ConcExec ConcWrap
  WeakModel WeakHb WeakSee WeakExec WeakLin WeakExamples.
Import ListNotations.
Local Open Scope N_scope.
Notation set_nth := FoaModel.set_nth.

Section SC.
Context {K V : Type} (c : Cfg K V) (st : bool).
Notation W := (@W K V). Notation conf := (@conf K V). Notation wact := (@wact K V).
Notation wruns := (@wruns K V c st). Notation wstep := (@wstep K V c st). Notation sees := (@sees K V st). Notation readable := (@readable K V st).
Notation made_known := (@made_known K V st). Notation knows := (@knows K V st).
Implicit Type w : W.

(** sequentially consistent continuations of configuration C, without effects of operations on whole containers *)
Inductive continues (P : conf -> Prop) (C : conf) : list (event K V) -> conf -> Prop :=
| c_nil : continues P C [] C
| c_snoc es C1 e C2 : continues P C es C1 -> gstep c C1 e C2 -> (forall t r, e <> Some (ELin t (AWhole r))) -> P C2 ->
    continues P C (es ++ match e with Some x => [x] | None => [] end) C2.

Lemma at_end w : length (w_past w) = length (w_log w) -> at_time w (length (w_log w)) = Some (w_now w).
Proof. intros L. unfold at_time. rewrite <- L. apply nth_end. Qed.
Lemma readable_now w t d v s : length (w_past w) = length (w_log w) -> box (w_now w) d = Some s -> readable w t d v (length (w_log w)) s.
Proof.
  intros L B. split; [exists (w_now w); split; [apply at_end, L|exact B]|]. intros i u a Li Hi _. apply nth_lt in Hi. lia.
Qed.
Lemma sees_now w t d s : length (w_past w) = length (w_log w) -> box (w_now w) d = Some s -> sees w t d s.
Proof.
  intros L B. pose proof (fun v => readable_now w t d v s L B) as R. split; intros; try (eexists _, s; split; [apply R|reflexivity]).
  exists (length (w_log w)), s. split; [apply R|]. unfold same_box. repeat split.
Qed.
Lemma made_keep w C t a u d : (forall d, ~ creates a d) -> made_known w u d -> made_known (ext w C t a) u d.
Proof.
  intros N M i v b H Hc. unfold ext in *. cbn [w_log] in *. apply nth_snoc_cases in H as [H|[-> H]].
  - apply knows_app. eapply M; eauto.
  - injection H as -> ->. destruct (N _ Hc).
Qed.
Lemma set_len {X} (l : list X) i x : length (set_nth l i x) = length l.
Proof.
  unfold set_nth. rewrite app_length, firstn_length. pose proof (skipn_length i l) as E. destruct (skipn i l); cbn [length] in *; lia.
Qed.
Definition Ready w : Prop := length (w_past w) = length (w_log w) /\ forall t d, (t < length (th (w_now w)))%nat -> made_known w t d.
Lemma ready_ext w C t a : Ready w -> length (th C) = length (th (w_now w)) -> (forall d, ~ creates a d) -> Ready (ext w C t a).
Proof.
  intros [L M] E N. split.
  - unfold ext. cbn [w_past w_log]. rewrite !app_length. cbn. lia.
  - intros u d Lu. unfold ext in Lu; cbn [w_now] in Lu. rewrite E in Lu. apply made_keep; auto.
Qed.
Lemma sc_step w e C : Ready w -> gstep c (w_now w) e C -> (forall t r, e <> Some (ELin t (AWhole r))) ->
  exists w', wstep w w' /\ w_now w' = C /\ Ready w' /\ history (w_log w') = history (w_log w) ++ filter visible match e with Some x => [x] | None => [] end.
Proof.
  intros [L M] S N. remember (w_now w) as C0 eqn:EC. 
  assert (Fin : forall C t a, wstep w (ext w C t a) -> length (th C) = length (th (w_now w)) -> (forall d, ~ creates a d) -> forall es, calls (t, a) = filter visible es ->
    exists w', wstep w w' /\ w_now w' = C /\ Ready w' /\ history (w_log w') = history (w_log w) ++ filter visible es).
  { intros C1 t a X E F es Hc. exists (ext w C1 t a). split; [exact X|]. split; [reflexivity|]. split; [apply ready_ext; [split; [exact L|subst C0; exact M]|exact E|exact F]|]. unfold ext. cbn [w_log]. unfold history at 1. rewrite flat_map_app. cbn [flat_map]. rewrite app_nil_r, Hc. reflexivity. }
  destruct S as [C0 t d o s Ht B|C0 t d o l s i thr e l' a s' Ht B S A|C0 t d o s n t' n' cn Ht B Al S Lc|C0 t d o s n kd t' n' cn Ht B Al S Lc|C0 t d o r Ht|C0 t o Ht|C0 t o n r w1 bs Ht P R Pb|C0 t r Ht]; subst C0.
  - eapply Fin; [eapply w_call; [exact Ht|exact B|]|apply set_len|intros d0 X; exact X|reflexivity]. apply M. apply nth_error_Some. rewrite Ht. discriminate.
  - eapply Fin; [eapply (w_local _ _ w t d o l s s (length (w_log w)) i thr e l' a s'); [exact Ht|exact B|apply sees_now; assumption|reflexivity|reflexivity|reflexivity| |exact S|exact A]|cbn; apply set_len|intros d0 X; exact X|].
    + intros h x u m _ _. exists s. split; [apply readable_now; assumption|reflexivity].
    + destruct a; reflexivity.
  - eapply Fin; [eapply w_full; eassumption|cbn; apply set_len|intros d0 X; exact X|reflexivity].
  - eapply Fin; [eapply w_full_exn; eassumption|cbn; apply set_len|intros d0 X; exact X|reflexivity].
  - eapply Fin; [eapply w_ret; eassumption|apply set_len|intros d0 X; exact X|reflexivity].
  - eapply Fin; [eapply w_begin; eassumption|apply set_len|intros d0 X; exact X|reflexivity].
  - destruct (N t r eq_refl).
  - eapply Fin; [eapply w_end; eassumption|apply set_len|intros d0 X; exact X|reflexivity].
Qed.
Lemma sc_run (P : conf -> Prop) n w es C : wruns P n w -> Ready w -> continues P (w_now w) es C ->
  exists w', wruns P n w' /\ w_now w' = C /\ Ready w' /\ history (w_log w') = history (w_log w) ++ filter visible es.
Proof.
  intros R Y X. induction X as [|es C1 e C2 X IH S N Hp].
  - exists w. rewrite app_nil_r. auto.
  - destruct IH as (w1 & R1 & <- & Y1 & H1). destruct (sc_step w1 e C2 Y1 S N) as (w2 & S2 & <- & Y2 & H2). exists w2.
    split; [eapply wr_snoc; eassumption|]. split; [reflexivity|]. split; [exact Y2|]. rewrite H2, H1, filter_app, app_assoc. reflexivity.
Qed.
Lemma run_len (P : conf -> Prop) n w : wruns P n w -> length (w_past w) = length (w_log w).
Proof. intros R. induction R as [|w w' R IH S _]; [reflexivity|]. destruct S; cbn; rewrite !app_length; cbn; lia. Qed.
End SC.
