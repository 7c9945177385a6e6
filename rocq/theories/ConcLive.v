(** Insertions can retry forever: two threads inserting different keys whose probe sequences start at the same group can make each
    other restart without end, since an attempt that fails also increments the insertion counter (concurrent_table.hpp l.1707-1712). *)
From Coq Require Import NArith Bool List Arith Lia.
From Verif Require Import SizeModel GroupModel FoaModel FoaArr FoaSpec FoaWorld FoaExamples ConcSpec ConcModel ConcVisit ConcExec ConcWrap.
Import ListNotations.
Local Open Scope N_scope.

(** threads 0 and 1 are about to reserve a slot; thread 2 has inserted key 9 after thread 0 read the counter and before thread 1 did *)
Definition q0 := until 1 at_ins (then_ (MCall 1 0 (ins1 7)) (do_call 2 (ins1 9) (until 0 at_ins (then_ (MCall 0 0 (ins1 5))
  (then_ (MRet 0) (then_ (MWhole 0 0) (then_ (MWCall 0 (New 1 0 0 10)) ([], start 3)))))))).
Definition k0 : conf := Eval vm_compute in snd q0.
Definition n0 : list move := Eval vm_compute in fst q0.
Definition cg_of (p : @pc N N) (m : N) : pc :=
  match p with
  | At d o (LIns x) => At d o (LIns (Ctx (x_h x) m (x_pb x)))
  | At d o (LCnt x n) => At d o (LCnt (Ctx (x_h x) m (x_pb x)) n)
  | _ => p end.
(** counter value m, remembered values a and b *)
Definition shape (C : @conf N N) (m a b : N) : conf :=
  match boxes C, th C with
  | [Some s], [p; q; r] => Conf [Some (MkSh (tb s) (m :: tl (cnt s)))] [cg_of p a; cg_of q b; r]
  | _, _ => C end.
(** one failing attempt of thread t (0 or 1), in three parts *)
Definition ta (t : nat) : list move := fst (until t at_cnt ([], k0)).
Definition ka (t : nat) : conf := snd (until t at_cnt ([], k0)).
Definition kb (t : nat) : conf := snd (then_ (MLocal t 0 false) ([], match t with O => ka 0 | _ => shape (ka 1) 2 2 1 end)).
Definition tc (t : nat) : list move := fst (until t at_ins ([], kb t)).
Definition ka0 : conf := Eval vm_compute in ka 0. Definition ka1 : conf := Eval vm_compute in ka 1.
Definition kb0 : conf := Eval vm_compute in kb 0. Definition kb1 : conf := Eval vm_compute in kb 1.
Definition ta0 : list move := Eval vm_compute in ta 0. Definition ta1 : list move := Eval vm_compute in ta 1.
Definition tc0 : list move := Eval vm_compute in tc 0. Definition tc1 : list move := Eval vm_compute in tc 1.

Lemma next_ne m : ((m + 1) mod 2 ^ 32 =? m mod 2 ^ 32) = false.
Proof.
  apply N.eqb_neq. intros E. change (2 ^ 32) with 4294967296 in E.
  pose proof (N.div_mod (m + 1) 4294967296 ltac:(discriminate)). pose proof (N.div_mod m 4294967296 ltac:(discriminate)). lia.
Qed.
Notation fplay := (play nothrow false fitb).
Definition lk (t : nat) : conf := match fplay (removelast (match t with O => ta0 | _ => ta1 end)) k0 with Some (_, C) => C | None => start 0 end.
Definition ki0 : conf := Eval vm_compute in lk 0. Definition ki1 : conf := Eval vm_compute in lk 1.
Definition cg_av (p : @pc N N) (m : N) : pc := match p with At d o (LAvail x) => At d o (LAvail (Ctx (x_h x) m (x_pb x))) | _ => cg_of p m end.
Definition shape' (C : @conf N N) (m a b : N) : conf :=
  match boxes C, th C with
  | [Some s], [p; q; r] => Conf [Some (MkSh (tb s) (m :: tl (cnt s)))] [cg_av p a; cg_av q b; r]
  | _, _ => C end.
Lemma i0 m a b : fplay (removelast ta0) (shape k0 m a b) = Some ([], shape' ki0 m a b). Proof. vm_compute. reflexivity. Qed.
Lemma i1 m a b : fplay (removelast ta1) (shape k0 m a b) = Some ([], shape' ki1 m a b). Proof. vm_compute. reflexivity. Qed.
Lemma j0 m a b : do_move nothrow false (last ta0 (MRet 9)) (shape' ki0 m a b) = Some (None, shape ka0 m a b). Proof. vm_compute. reflexivity. Qed.
Lemma j1 m a b : do_move nothrow false (last ta1 (MRet 9)) (shape' ki1 m a b) = Some (None, shape ka1 m a b). Proof. vm_compute. reflexivity. Qed.
Lemma fit0 m b : counters_fit (shape ka0 (m + 1) m b).
Proof.
  intros t d o x n s m' Ht Hb Hm. destruct t as [|[|[|t]]]; cbn in Ht; try discriminate Ht; [|destruct t; discriminate Ht]. injection Ht as <- <- <- <-.
  cbn in Hb. injection Hb as <-. cbn [x_h tb arr a_gsi cnt tl x_cg] in *. change (N.to_nat (position 0 63)) with 0%nat in Hm. injection Hm as <-.
  replace (m + 1 - m) with 1 by lia. reflexivity.
Qed.
Lemma fit1 m a : counters_fit (shape ka1 (m + 1) a m).
Proof.
  intros t d o x n s m' Ht Hb Hm. destruct t as [|[|[|t]]]; cbn in Ht; try discriminate Ht; [|destruct t; discriminate Ht]. injection Ht as <- <- <- <-.
  cbn in Hb. injection Hb as <-. cbn [x_h tb arr a_gsi cnt tl x_cg] in *. change (N.to_nat (position 0 63)) with 0%nat in Hm. injection Hm as <-.
  replace (m + 1 - m) with 1 by lia. reflexivity.
Qed.
Lemma b0 m b : do_move nothrow false (MLocal 0 0 false) (shape ka0 (m + 1) m b) = Some (None, shape kb0 (m + 1 + 1) 0 b).
Proof.
  unfold do_move, shape, ka0, kb0. cbn [boxes th nth_error box cg_of x_h x_pb cnt tl tb].
  unfold lstep, pstep. cbn [tb cnt arr a_gsi x_h x_cg]. change (N.to_nat (position 0 63)) with 0%nat. cbn [nth_error].
  rewrite next_ne. cbn [negb apply cnt nth_error tb option_map]. reflexivity.
Qed.
Lemma b1 m a : do_move nothrow false (MLocal 1 0 false) (shape ka1 (m + 1) a m) = Some (None, shape kb1 (m + 1 + 1) a 0).
Proof.
  unfold do_move, shape, ka1, kb1. cbn [boxes th nth_error box cg_of x_h x_pb cnt tl tb].
  unfold lstep, pstep. cbn [tb cnt arr a_gsi x_h x_cg]. change (N.to_nat (position 0 63)) with 0%nat. cbn [nth_error].
  rewrite next_ne. cbn [negb apply cnt nth_error tb option_map]. reflexivity.
Qed.
Lemma d0 m a b : fplay tc0 (shape kb0 m a b) = Some ([], shape k0 m m b). Proof. vm_compute. reflexivity. Qed.
Lemma d1 m a b : fplay tc1 (shape kb1 m a b) = Some ([], shape k0 m a m). Proof. vm_compute. reflexivity. Qed.

Lemma fitk m a b : counters_fit (shape kb0 m a b) /\ counters_fit (shape kb1 m a b).
Proof. split; apply fitb_ok; vm_compute; reflexivity. Qed.
Lemma live_round n es m : runs_with wcfg counters_fit n es (shape k0 (m + 1) m (m + 1)) ->
  runs_with wcfg counters_fit n es (shape k0 (m + 2 + 1) (m + 2) (m + 2 + 1)).
Proof.
  intros R. pose proof (play_runs nothrow false _ _ fitb_ok _ n es _ _ _ R (i0 _ _ _)) as R1.
  pose proof (r_snoc _ _ n _ _ _ _ R1 (do_move_ok _ _ _ _ _ _ (j0 _ _ _)) (fit0 _ _)) as R2.
  pose proof (r_snoc _ _ n _ _ _ _ R2 (do_move_ok _ _ _ _ _ _ (b0 m _)) (proj1 (fitk _ _ _))) as R3.
  pose proof (play_runs nothrow false _ _ fitb_ok _ n _ _ _ _ R3 (d0 _ _ _)) as R4.
  pose proof (play_runs nothrow false _ _ fitb_ok _ n _ _ _ _ R4 (i1 _ _ _)) as R5.
  pose proof (r_snoc _ _ n _ _ _ _ R5 (do_move_ok _ _ _ _ _ _ (j1 _ _ _)) (fit1 _ _)) as R6.
  pose proof (r_snoc _ _ n _ _ _ _ R6 (do_move_ok _ _ _ _ _ _ (b1 (m + 1) _)) (proj2 (fitk _ _ _))) as R7.
  pose proof (play_runs nothrow false _ _ fitb_ok _ n _ _ _ _ R7 (d1 _ _ _)) as R8.
  rewrite !app_nil_r in R8. replace (m + 2 + 1) with (m + 1 + 1 + 1) by lia. replace (m + 2) with (m + 1 + 1) by lia. exact R8.
Qed.
Definition f0 : list (event N N) := Eval vm_compute in match mplay n0 (start 3) with Some (es, _) => es | None => [] end.
Lemma live_start : fplay n0 (start 3) = Some (f0, shape k0 1 0 1). Proof. vm_compute. reflexivity. Qed.
Lemma live n : runs_with wcfg counters_fit 3 f0 (shape k0 (2 * n + 1) (2 * n) (2 * n + 1)).
Proof.
  induction n as [|n IH] using N.peano_ind.
  - exact (played nothrow false 3 n0 _ _ eq_refl live_start).
  - replace (2 * N.succ n) with (2 * n + 2) by lia. apply live_round. exact IH.
Qed.
