(** Conversions between concurrent and non-concurrent containers: concurrent_table.hpp l.500-523, table.hpp l.378-380, 589-610. *)
From Coq Require Import NArith Bool List Arith Lia Permutation.
From Verif Require Import FloatModel SizeModel SizeProofs GroupModel GroupSpec FoaModel FoaGroup FoaBase FoaFind FoaArr FoaInv FoaRehash FoaOps FoaCopy FoaSpec FoaWorld FoaApi FoaRun
  ConcSpec ConcModel ConcInv ConcSys ConcSys2 ConcLin1 ConcLin3 ConcProps.
Import ListNotations.
Local Open Scope m_scope.
Local Open Scope N_scope.

Section Conv.
Context {K V : Type} (c : Cfg K V).
Notation table := (table K V).
Notation Sh := (@Sh K V).

(** concurrent_table.hpp l.275-305 [set_group_access]: zeroed counters; the shared dummy ones, without allocation, if there are no elements (ordinary pointers) *)
Definition new_counters {St} (a : arrays K V) : M St (list N) :=
  match a_elems a with Some _ => tick c KAlloc | None => ret tt end ;;; ret (map (fun _ => 0) (a_groups a)).
(** concurrent_table.hpp l.500-523: concurrent container from a non-concurrent one (state: x). As for moves (FoaModel.move_construct), the moved-from
    hash and predicate objects are taken to keep their value. *)
Definition to_concurrent : M table Sh :=
  x <- get ;;
  ah <- new_arrays c (aid x) 0 ;;
  n <- new_counters (arr x) ;;
  put (Tab (hid x) (pid x) (aid x) ah (init_ml ah) 0) ;;;
  ret (MkSh (Tab (hid x) (pid x) (aid x) (arr x) (ml x) (sz x)) n).
(** table.hpp l.378-380, 589-610: non-concurrent container from a concurrent one (state: x, no other thread inside) *)
Definition to_plain : M Sh table :=
  s <- get ;;
  let x := tb s in
  ah <- new_arrays c (aid x) 0 ;;
  n <- new_counters ah ;;
  put (MkSh (Tab (hid x) (pid x) (aid x) ah (init_ml ah) 0) n) ;;;
  ret (Tab (hid x) (pid x) (aid x) (arr x) (ml x) (sz x)).

(** both are the move construction of FoaModel; the first may also fail to allocate the locks and counters *)
Lemma to_concurrent_eq (x : table) n :
  to_concurrent x n = match move_construct c x n with
    | Ret t x' n' => match a_elems (arr x) with
        | Some _ => if throws c KAlloc n' then Exn KAlloc x (S n') else Ret (MkSh t (map (fun _ => 0) (a_groups (arr x)))) x' (S n')
        | None => Ret (MkSh t (map (fun _ => 0) (a_groups (arr x)))) x' n' end
    | Exn k x' n' => Exn k x' n' | Undef => Undef end.
Proof.
  unfold to_concurrent, move_construct, new_counters, new_arrays. rewrite !bind_get, N.eqb_refl, !bind_ret. unfold bind, put, ret, tick.
  destruct (a_elems (arr x)); [|reflexivity]. destruct (throws c KAlloc n); reflexivity.
Qed.
Lemma to_plain_eq (s : Sh) n :
  to_plain s n = match move_construct c (tb s) n with
    | Ret t x' n' => Ret t (MkSh x' (map (fun _ => 0) (a_groups (arr x')))) n'
    | Exn k x' n' => Exn k s n' | Undef => Undef end.
Proof.
  unfold to_plain, move_construct, new_counters, new_arrays. rewrite !bind_get. cbv zeta. rewrite !N.eqb_refl, !bind_ret. reflexivity.
Qed.

Hypothesis HC : good_cfg c.
Notation conf := (@conf K V).
(** move construction, as a step of thread t *)
Lemma conv_gstep (C : conf) t d s k t' x' k' cx cn : GInv c C -> nth_error (th C) t = Some (AtW (MoveConstruct d)) -> box C d = Some s -> existsb (inside d) (th C) = false ->
  move_construct c (tb s) k = Ret t' x' k' -> length cx = length (a_groups (arr x')) -> length cn = length (a_groups (arr t')) ->
  gstep c C (Some (ELin t (AWhole (Done VUnit)))) (Conf (set (boxes C) d (Some (MkSh x' cx)) ++ [Some (MkSh t' cn)]) (FoaModel.set_nth (th C) t (RetW (Done VUnit)))).
Proof.
  intros G Ht Hb Hi E L1 L2. pose proof (box_lt _ _ _ Hb) as Ld.
  assert (slot (idle_world C (MoveConstruct d)) d = Some (tb s)) as Hs by (rewrite idle_slot, Hb; cbn [busy]; change (busy (MoveConstruct d) d) with (@inside K V d); rewrite Hi; reflexivity).
  eapply g_whole with (n := k) (w := set (idle_world C (MoveConstruct d)) d (Some x') ++ [Some t']); [exact Ht|split; [exists (tb s); exact Hs|exact I]| |].
  - cbn [wexec exec]. unfold bind, run1. rewrite Hs, E. cbn [push ret returned]. auto.
  - split; [rewrite !app_length, !set_len by (rewrite ?idle_len; exact Ld); rewrite idle_len; reflexivity|].
    intros d' L. rewrite app_length, set_len, idle_len in L by (rewrite idle_len; exact Ld). cbn [length] in L.
    destruct (Nat.eq_dec d' (length (boxes C))) as [->|N].
    + assert (slot (idle_world C (MoveConstruct d)) (length (boxes C)) = None) as ->.
      { unfold slot. replace (nth_error _ _) with (@None (option table)); [reflexivity|]. symmetry. apply nth_error_None. rewrite idle_len. lia. }
      assert (box C (length (boxes C)) = None) as ->.
      { unfold box. replace (nth_error _ _) with (@None (option Sh)); [reflexivity|]. symmetry. apply nth_error_None. lia. }
      unfold slot. rewrite nth_error_app2 by (rewrite set_len, idle_len; rewrite ?idle_len; lia). rewrite set_len, idle_len by (rewrite ?idle_len; lia). rewrite Nat.sub_diag. cbn [nth_error].
      exists cn. split; [|exact L2]. rewrite nth_error_app2 by (rewrite set_len; lia). rewrite set_len by lia. rewrite Nat.sub_diag. reflexivity.
    + assert (d' < length (boxes C))%nat as L' by lia.
      assert (slot (set (idle_world C (MoveConstruct d)) d (Some x') ++ [Some t']) d' = if Nat.eqb d' d then Some x' else slot (idle_world C (MoveConstruct d)) d') as ->.
      { unfold slot at 1. rewrite nth_error_app1 by (rewrite set_len, idle_len; rewrite ?idle_len; lia). fold (slot (set (idle_world C (MoveConstruct d)) d (Some x')) d'). apply slot_set. rewrite idle_len. exact Ld. }
      rewrite nth_error_app1 by (rewrite set_len; lia). rewrite set_err by exact Ld. destruct (Nat.eqb_spec d' d) as [->|N'].
      * rewrite Hs. eauto.
      * rewrite idle_slot. destruct (box C d') as [s'|] eqn:Eb.
        -- assert (nth_error (boxes C) d' = Some (Some s')) as En by (unfold box in Eb; destruct (nth_error (boxes C) d'); congruence).
           destruct (existsb (busy (MoveConstruct d) d') (th C)); [exact En|]. exists (cnt s'). split; [destruct s'; exact En|]. destruct (gi_box _ _ G d' s' Eb) as [k2 Hk]. apply (cb_cnt _ _ _ _ (proj1 Hk)).
        -- unfold box in Eb. destruct (nth_error (boxes C) d') eqn:En; [congruence|]. apply nth_error_None in En. lia.
Qed.
Lemma conv_same (C : conf) d s k : GInv c C -> box C d = Some s -> existsb (inside d) (th C) = false ->
  exists x' k', move_construct c (tb s) k = Ret (tb s) x' k' /\ hid x' = hid (tb s) /\ pid x' = pid (tb s) /\ aid x' = aid (tb s) /\ elems (arr x') = [] /\ sz x' = 0.
Proof.
  intros G Hb Hi. destruct (gi_box _ _ G d s Hb) as [k0 Hk].
  assert (Inv c (tb s)) as H by (eapply out_inv; [exact Hk|]; apply (not_busy C (MoveConstruct d)); exact Hi).
  pose proof (move_construct_ok c (tb s) k H) as X. destruct (move_construct c (tb s) k) as [t x' k'|kd x' k'|]; cbn [FoaBase.outcome] in X; [|destruct X|destruct X].
  destruct X as (-> & _ & [A B D] & E1 & E2). exists x', k'. auto 8.
Qed.
Lemma conv_run n es (C : conf) t d s k t' x' k' cx cn : runs_with c counters_fit n es C -> nth_error (th C) t = Some (AtW (MoveConstruct d)) -> box C d = Some s -> existsb (inside d) (th C) = false ->
  move_construct c (tb s) k = Ret t' x' k' -> length cx = length (a_groups (arr x')) -> length cn = length (a_groups (arr t')) ->
  exists C', runs_with c counters_fit n (es ++ [ELin t (AWhole (Done VUnit))]) C' /\
    nth_error (boxes C') d = Some (Some (MkSh x' cx)) /\ nth_error (boxes C') (length (boxes C)) = Some (Some (MkSh t' cn)) /\
    (forall d', d' <> d -> (d' < length (boxes C))%nat -> nth_error (boxes C') d' = nth_error (boxes C) d').
Proof.
  intros R Ht Hb Hi E L1 L2. assert (GInv c C) as G by (eapply (reach_ginv c HC counters_fit); [auto|exact R]). assert (counters_fit C) as Fit by (destruct R; assumption).
  pose proof (box_lt _ _ _ Hb) as Ld. pose proof (conv_gstep C t d s k t' x' k' cx cn G Ht Hb Hi E L1 L2) as St.
  assert (forall d', d' <> d -> (d' < length (boxes C))%nat -> nth_error (set (boxes C) d (Some (MkSh x' cx)) ++ [Some (MkSh t' cn)]) d' = nth_error (boxes C) d') as Same.
  { intros d' N L. rewrite nth_error_app1 by (rewrite set_len; lia). rewrite set_err by exact Ld. destruct (Nat.eqb_spec d' d); [contradiction|reflexivity]. }
  eexists. split; [eapply (r_snoc c counters_fit n es C (Some _)); [exact R|exact St|]|].
  - intros t1 d1 o x i s1 m Ht1 Hb1 Hm. cbn [th] in Ht1. destruct (Nat.eq_dec t1 t) as [->|N]; [erewrite self_err in Ht1 by exact Ht; discriminate|].
    rewrite others_err in Ht1 by exact N. destruct (gi_at _ _ G _ _ _ _ Ht1) as [s0 Hb0]. pose proof (box_lt _ _ _ Hb0) as L0.
    assert (d1 <> d) as Nd. { intros ->. assert (existsb (inside d) (th C) = true); [|congruence]. apply existsb_exists. exists (ConcModel.At d o (LCnt x i)). split; [eapply nth_error_In; exact Ht1|]. cbn [inside outside]. rewrite Nat.eqb_refl. reflexivity. }
    eapply Fit; [exact Ht1| |exact Hm]. unfold box in Hb1 |- *. cbn [boxes] in Hb1. rewrite Same in Hb1 by assumption. exact Hb1.
  - cbn [boxes]. split; [rewrite nth_error_app1 by (rewrite set_len; lia); rewrite set_err by exact Ld; rewrite Nat.eqb_refl; reflexivity|].
    split; [rewrite nth_error_app2 by (rewrite set_len; lia); rewrite set_len by exact Ld; rewrite Nat.sub_diag; reflexivity|exact Same].
Qed.
End Conv.
