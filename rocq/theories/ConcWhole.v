(** Concurrent containers: operations on whole containers. *)
From Coq Require Import NArith Bool List Arith Lia Permutation.
From Verif Require Import FloatModel SizeModel SizeProofs GroupModel GroupSpec FoaModel FoaGroup FoaBase FoaFind FoaArr FoaInv FoaRehash FoaOps FoaCopy FoaAssign FoaMerge FoaIterModel FoaIter FoaSpec FoaWorld FoaApi FoaRun ConcSpec ConcModel.
Import ListNotations.
Local Open Scope N_scope.

Section Whole.
Context {K V : Type} (c : Cfg K V).
Hypothesis HC : good_cfg c.
Notation table := (table K V).

Lemma assign_list_ok (t : table) es n : Inv c t -> size_ok c (ceil_div_mlf (N.of_nat (length es))) ->
  FoaBase.outcome (bind (conc_assign_list c es) (fun _ => ret VUnit) t n)
    (fun v t' => Spec1 c (AssignList es) t (Done v) t') (fun kd t' => (kd = KAlloc \/ raised c kd) /\ Spec1 c (AssignList es) t (Threw kd) t').
Proof.
  intros H Hs. unfold conc_assign_list. rewrite bind_bind. eapply outcome_bind; [eapply outcome_weaken; [apply (clear_ok c t n (inv_w c t H))| |]|].
  - intros r t' X. exact X.
  - intros kd t' [].
  - intros u t1 n1 (I1 & Id1 & E1 & Em1 & _). cbv beta in *. rewrite bind_bind.
    assert (FoaBase.outcome (noshrink_reserve c (N.of_nat (length es)) t1 n1)
      (fun _ t' => Inv c t' /\ Ids t1 t' /\ elems (arr t') = []) (fun kd t' => kd = KAlloc /\ t' = t1 /\ es <> [])) as X.
    { destruct es as [|e es]; [cbn [FoaBase.outcome]; split; [exact I1|]; split; [apply Ids_refl|exact E1]|].
      eapply outcome_weaken; [apply (noshrink_req c HC t1 _ n1 I1 E1 Em1 Hs)| |]; [intros ? ? (A & B & D & _); auto|intros ? ? (A & B & _)].
      split; [exact A|]. split; [exact B|discriminate]. }
    eapply outcome_bind; [eapply outcome_weaken; [apply X| |]|].
    + intros r t' Y. exact Y.
    + intros kd t' (-> & -> & F). split; [now left|]. split; [exact I1|]. split; [exact Id1|]. rewrite E1. cbn [FoaSpec.spec1].
      destruct es as [|e es]; [destruct (F eq_refl)|]. exists [], e, es, []. split; [reflexivity|]. split; [apply Permutation_refl|left; reflexivity].
    + intros u1 t2 n2 (I2 & Id2 & E2). cbv beta in *.
      eapply outcome_bind; [eapply outcome_weaken; [apply (insert_range_ok c HC es t2 [] n2 I2)| |]|].
      * rewrite E2. constructor.
      * intros r t' Y. exact Y.
      * intros kd t' (I & Id & R & Y). split; [exact R|]. split; [exact I|]. split; [eapply ids_trans; [exact Id1|eapply ids_trans; eauto]|].
        rewrite (id_p _ _ Id2), (id_p _ _ Id1) in Y. exact Y.
      * intros u' t' n3 (I & Id & P). cbn [ret FoaBase.outcome]. split; [exact I|]. split; [eapply ids_trans; [exact Id1|eapply ids_trans; eauto]|].
        rewrite (id_p _ _ Id2), (id_p _ _ Id1) in P. exact P.
Qed.
Lemma wexec_ok o w n : WInv c w -> wpre c o w -> OK c w o (wexec c o w n).
Proof.
  intros W [P P2]. destruct o as [i o|h p al m|j al|j|j al|i|i j|i j|i j|i j|i j eeq]; try (apply (exec_ok c HC); assumption).
  destruct o; try (apply (exec_ok c HC); assumption). cbn [pre wexec] in *. destruct P as (t & Hs & Hp). pose proof (W i t Hs) as H. pose proof (slot_err _ _ _ Hs) as [_ L].
  unfold OK, run1. rewrite Hs. pose proof (assign_list_ok t l n H P2) as X.
  assert (forall r t', Spec1 c (AssignList l) t r t' -> WInv c (set w i (Some t')) /\ spec (keqf c) (moves c) (look_all c w) (On i (AssignList l)) r (look_all c (set w i (Some t')))) as Z.
  { intros r t' (I & Id & S). split; [apply winv_set; assumption|]. cbn [FoaSpec.spec]. exists (look c t), (elems (arr t')).
    split; [apply look_slot; exact Hs|]. rewrite look_set. cbn [option_map]. rewrite (view_ids c t t' I Id), (look_eq c t H). cbn [v_hash v_pred v_alloc v_elems]. auto. }
  destruct (bind _ _ t n) as [v t' n'|kd t' n'|]; cbn [FoaBase.outcome] in *; [auto| |exact X]. destruct X as [R X]. auto.
Qed.
End Whole.
