(** * The arguments of insertions into concurrent containers (C69, continued).
    [argruns] are the executions of ConcModel.v with, for each thread, the number of times the insertion it is executing has passed its arguments to a
    constructor. However often an insertion starts again because others inserted meanwhile, or because the container grew, it does so at most once: once
    if it inserts, never if it finds an equivalent element, and never if growing the container fails: the caller still has its arguments. *)
From Coq Require Import NArith Bool List Arith Lia.
From Verif Require Import SizeModel FoaModel FoaBase FoaArr FoaSpec FoaWorld FoaExamples
  ConcSpec ConcModel ConcInv ConcVisit ConcExec ConcWrap ConcExamples ConcArg.
Import ListNotations.
Local Open Scope nat_scope.

Section S.
Context {K V : Type} (c : Cfg K V).
(** every execution has such counters *)
Theorem C69_every_concurrent_run_is_counted : forall P n es C, runs_with c P n es C <-> exists u, argruns c P n es C u.
Proof. intros P n es C. split; [apply run_arg|intros [u H]; eapply arg_run; exact H]. Qed.
(** an insertion that returns *)
Theorem C69_concurrent_insertion_uses_its_arguments_iff_it_inserts : forall P n es C u t d x k v f1 f2 l r C',
  argruns c P n es C u -> nth_error (th C) t = Some (ConcModel.At d (Point (PEmplace x k v f1 f2)) l) -> gstep c C (Some (ERet t (AnsC r))) C' ->
  match r with RIns => u t = 1 | RThrew => u t <= 1 | _ => u t = 0 end.
Proof.
  intros P n es C u t d x k v f1 f2 l r C' R Ht St.
  assert (l = LRet r) as ->.
  { inversion St; subst; try (match goal with a : option _ |- _ => destruct a end; discriminate); congruence. }
  pose proof (ia_runs c P n es C u R _ _ _ _ _ _ _ _ Ht) as U. destruct r; exact U.
Qed.
(** at every moment of the call, also while it starts again *)
Theorem C69_concurrent_arguments_at_most_once : forall P n es C u t d x k v f1 f2 l,
  argruns c P n es C u -> nth_error (th C) t = Some (ConcModel.At d (Point (PEmplace x k v f1 f2)) l) -> u t <= 1.
Proof.
  intros P n es C u t d x k v f1 f2 l R Ht. pose proof (ia_runs c P n es C u R _ _ _ _ _ _ _ _ Ht) as U. destruct l; cbn in U; try lia;
  match type of U with context [match ?q with _ => _ end] => destruct q; lia end.
Qed.
(** growing the container fails: the insertion has not used its arguments *)
Theorem C69_concurrent_failed_growth_keeps_arguments : forall P n es C u t d x k v f1 f2 e C',
  argruns c P n es C u -> nth_error (th C) t = Some (ConcModel.At d (Point (PEmplace x k v f1 f2)) LFull) -> gstep c C e C' ->
  nth_error (th C') t = Some (ConcModel.At d (Point (PEmplace x k v f1 f2)) (LRet RThrew)) -> P C' ->
  exists es' u', argruns c P n es' C' u' /\ u' t = 0.
Proof.
  intros P n es C u t d x k v f1 f2 e C' R Ht St Ht' HP. do 2 eexists. split; [eapply ar_snoc; eassumption|].
  pose proof (ia_runs c P n es C u R _ _ _ _ _ _ _ _ Ht) as U. cbn in U. unfold constructs, constructing. rewrite Ht, Ht'. cbn. rewrite Nat.add_0_r.
  unfold before. destruct e as [[t1 o|t1 a|t1 r]|]; auto. destruct (t1 =? t); auto.
Qed.
End S.

(** thread 0 inserts 5; thread 1 inserts 7 meanwhile and thread 0 starts again; both insert: each has used its arguments once *)
Definition inserted := until 0 never (do_call 1 (ins1 7) (until 0 at_ins (then_ (MCall 0 0 (ins1 5)) r0))).
Example C69_concurrent_case : exists es u C', argruns wcfg counters_fit 3 es (snd inserted) u /\ u 0 = 1 /\
  gstep wcfg (snd inserted) (Some (ERet 0 (AnsC RIns))) C'.
Proof.
  assert (exists es, runs_with wcfg counters_fit 3 es (snd inserted)) as [es R].
  { eexists. eapply (played nothrow false 3 (fst inserted)); vm_compute; reflexivity. }
  destruct (run_arg _ _ _ _ _ R) as [u U].
  assert (nth_error (th (snd inserted)) 0 = Some (ConcModel.At 0 (ins1 5%N) (LRet RIns))) as Ht by (vm_compute; reflexivity).
  exists es, u, (set_th (snd inserted) 0 Idle). assert (gstep wcfg (snd inserted) (Some (ERet 0 (AnsC RIns))) (set_th (snd inserted) 0 Idle)) as G by (eapply g_ret; exact Ht).
  split; [exact U|]. split; [|exact G]. exact (C69_concurrent_insertion_uses_its_arguments_iff_it_inserts wcfg _ _ _ _ _ _ _ _ _ _ _ _ _ _ _ U Ht G).
Qed.
(** an insertion into a container without arrays, whose allocation of the first ones throws *)
Definition no_memory : kind -> nat -> bool := fun k n => match k with KAlloc => 1000 <=? n | _ => false end.
Definition empty := then_ (MRet 0) (then_ (MWhole 0 0) (then_ (MWCall 0 (New 1 0 0 0%N)) ([], start 3))).
Definition growing := until 0 (fun l => match l with LFull => true | _ => false end) (then_ (MCall 0 0 (ins1 5%N)) empty).
Example C69_concurrent_failed_growth_case : exists es u C C', argruns (ecfg no_memory false) counters_fit 3 es C u /\
  nth_error (th C) 0 = Some (ConcModel.At 0 (ins1 5%N) LFull) /\ gstep (ecfg no_memory false) C (Some (ELin 0 (APoint RThrew))) C' /\
  nth_error (th C') 0 = Some (ConcModel.At 0 (ins1 5%N) (LRet RThrew)) /\ counters_fit C'.
Proof.
  destruct (play no_memory false fitb (fst growing) (start 3)) as [[es C]|] eqn:E; [|vm_compute in E; discriminate E].
  assert (runs_with (ecfg no_memory false) counters_fit 3 es C) as R by (eapply played; [vm_compute; reflexivity|exact E]).
  destruct (run_arg _ _ _ _ _ R) as [u U]. vm_compute in E. injection E as <- <-.
  eexists _, u, _, _. split; [exact U|]. split; [reflexivity|]. split; [eapply (do_move_ok no_memory false (MFull 0 1000)); vm_compute; reflexivity|].
  split; [vm_compute; reflexivity|apply fitb_ok; vm_compute; reflexivity].
Qed.
Print Assumptions C69_every_concurrent_run_is_counted.
Print Assumptions C69_concurrent_insertion_uses_its_arguments_iff_it_inserts.
Print Assumptions C69_concurrent_arguments_at_most_once.
Print Assumptions C69_concurrent_failed_growth_keeps_arguments.
Print Assumptions C69_concurrent_case.
Print Assumptions C69_concurrent_failed_growth_case.
