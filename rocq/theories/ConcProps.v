(** Concurrent containers: consequences of the invariant. *)
From Coq Require Import NArith Bool List Arith Lia ZifyBool ZifyNat ZifyN Permutation.
From Verif Require Import FloatModel SizeModel SizeProofs GroupModel GroupSpec FoaModel FoaGroup FoaBase FoaFind FoaArr FoaInv FoaRehash FoaSpec FoaWorld FoaRun
  ConcSpec ConcModel ConcWhole ConcInv ConcStep ConcStep2 ConcStep3 ConcSys ConcSys2 ConcLin1 ConcLin2 ConcLin3.
Import ListNotations.
Local Open Scope N_scope.
Notation set_nth := FoaModel.set_nth.

Section Props.
Context {K V : Type} (c : Cfg K V).
Hypothesis HC : good_cfg c.
Notation table := (table K V).
Notation Sh := (@Sh K V).
Notation pop := (pop K V). Notation cop := (cop K V). Notation loc := (@loc K V). Notation cres := (cres K V).
Notation CInv := (CInv c).
Notation conf := (@conf K V). Notation pc := (@pc K V).
Notation Inv := (Inv c). Notation GInv := (GInv c).
Notation event := (event K V).

(** *** uniqueness, size *)
Lemma ginv_uniq C d s : GInv C -> box C d = Some s -> forall i j e e', i <> j ->
  get_cell (arr (tb s)) i = Some (Live e) -> get_cell (arr (tb s)) j = Some (Live e') -> keqf c (pid (tb s)) (fst e) (fst e') = false.
Proof.
  intros G Hb i j e e' N Hi Hj. destruct (gi_box _ _ G d s Hb) as [k [B U]].
  assert (forall i x, get_cell (arr (tb s)) i = Some x -> nth_error (cells (A s)) i = Some x) as Z.
  { intros i0 x H. unfold get_cell in H. unfold cells, A. destruct (a_elems (arr (tb s))); [exact H|discriminate]. }
  destruct (keqf c (pid (tb s)) (fst e) (fst e')) eqn:E; [|reflexivity]. exfalso. apply N.
  apply (cu_uniq _ _ _ _ U i j (fst e) (fst e')); [left; exists e; auto|left; exists e'; auto|exact E].
Qed.
Lemma wt_inside (C : conf) d : wsum wt (views C d) <= N.of_nat (length (filter (inside d) (th C))).
Proof.
  unfold views. induction (th C) as [|p l IH]; cbn [map wsum filter]; [reflexivity|].
  assert (went wt (view d p) <= (if inside d p then 1 else 0)).
  { destruct p as [|d' o l'| |]; cbn [view went inside]; try reflexivity. destruct (Nat.eqb d' d); cbn [andb went]; [|lia]. destruct l'; cbn; lia. }
  destruct (inside d p); cbn [length]; lia.
Qed.
Lemma ginv_size C d s : GInv C -> box C d = Some s ->
  let m := N.of_nat (length (elems (arr (tb s)))) in
  m <= ml (tb s) /\ m <= sz (tb s) <= m + N.of_nat (length (filter (inside d) (th C))) /\ ml (tb s) <= capacity (arr (tb s)) /\ capacity (arr (tb s)) < 2 ^ 64.
Proof.
  intros G Hb. destruct (gi_box _ _ G d s Hb) as [k [B U]]. pose proof (cb_sz _ _ _ _ B) as E1. pose proof (cb_adm _ _ _ _ B) as E2. pose proof (cb_ml _ _ _ _ B) as E3.
  pose proof (wt_inside C d) as E4. unfold A in *. cbn zeta.
  assert (init_ml (arr (tb s)) <= capacity (arr (tb s)) /\ capacity (arr (tb s)) < 2 ^ 64) as [E5 E6].
  { destruct (cb_fr _ _ _ _ B) as [[-> E]|[HS _]].
    - unfold A in E. rewrite E. cbn. lia.
    - destruct (init_ml_shape _ _ HS) as [_ X]. destruct (cap_shape _ _ HS) as [Y _]. unfold A in *. split; [apply X|]. rewrite Y. pose proof (sh_k _ _ HS).
      assert (2 ^ k <= 2 ^ 60) by (apply N.pow_le_mono_r; lia). change (2 ^ 60) with 1152921504606846976 in *. change (2 ^ 64) with 18446744073709551616. lia. }
  repeat split; lia.
Qed.
Lemma no_inside (C : conf) d : existsb (inside d) (th C) = false -> Out (views C d).
Proof.
  intros H t o' l E. apply view_at in E. destruct (outside l) eqn:El; [reflexivity|exfalso].
  assert (existsb (inside d) (th C) = true); [|congruence]. apply existsb_exists. exists (At d o' l). split; [eapply nth_error_In; exact E|].
  unfold inside. rewrite Nat.eqb_refl, El. reflexivity.
Qed.
Lemma full_room t n : Inv t -> match rehash_if_full c t n with Ret _ t' _ => sz t' < ml t' | _ => True end.
Proof.
  intros I. unfold rehash_if_full. destruct (sz t =? ml t) eqn:E; [|pose proof (i_szml _ _ I); apply N.eqb_neq in E; lia].
  destruct (growth_ok c t HC I) as (Hp & Hm & Hb & Hr). set (m := growth_request (sz t)) in *.
  destruct (N.le_gt_cases (groups_for m) (gmax c)) as [Lg|Lg].
  - specialize (Hr Lg). pose proof (unchecked_rehash_ok c t m n HC I Hm Hb ltac:(lia) ltac:(lia)) as X.
    destruct (unchecked_rehash c m t n); auto. cbn in X. destruct X as (_ & _ & _ & Es & El & Ec). rewrite El. unfold init_ml. rewrite Ec.
    replace (m =? 0) with false by (symmetry; apply N.eqb_neq; lia). lia.
  - destruct (unchecked_rehash c m t n) eqn:Eu; auto. exfalso. revert Eu. unfold unchecked_rehash. rewrite bind_get.
    pose proof (new_arrays_ok c (aid t) m t n HC Hm Hb) as X. unfold bind at 1. destruct (new_arrays c (aid t) m t n); try discriminate.
    cbn in X. destruct X as (_ & [[C _] | (_ & k & Eg & Hk & Lt & FR)]); lia.
Qed.

(** *** nothing undefined happens *)
Lemma ginv_defined C t d o l s : GInv C -> counters_fit C -> nth_error (th C) t = Some (At d o l) -> box C d = Some s ->
  l <> LFull -> (forall r, l <> LRet r) -> forall i thr,
  match lstep c (free_for C t d) s o l i thr with
  | Blocked => True | Ub => False | Step e _ _ => apply e s <> None end.
Proof.
  intros G NW Ht Hb Nf Nr i thr. destruct (gi_box _ _ G d s Hb) as [k Hk]. pose proof (proj2 (view_at C d t o l) Ht) as Hv.
  assert (nowrap s l) as Hn by (destruct l; try exact I; cbn [nowrap]; intros m Hm; eapply NW; [exact Ht|exact Hb|exact Hm]).
  pose proof (lstep_ok c k s (views C d) t o l (free_for C t d) i thr Hk Hv (fun g x => free_ok C t d g x) Hn Nf Nr) as X.
  destruct (lstep _ _ _ _ _ _ _); cbn in *; auto. destruct X as (s' & E & _). congruence.
Qed.
Lemma ginv_defined_full C t d o s n : GInv C -> nth_error (th C) t = Some (At d o LFull) -> box C d = Some s -> alone C t d = true ->
  rehash_if_full c (tb s) n <> Undef.
Proof.
  intros G Ht Hb Hal E. destruct (gi_box _ _ G d s Hb) as [k Hk]. pose proof (alone_out C t d o LFull Ht eq_refl Hal) as Ho.
  pose proof (full_ok c HC (tb s) n (out_inv c k s _ Hk Ho)) as X. rewrite E in X. exact X.
Qed.
Lemma ginv_defined_whole C o n : GInv C -> wpre c o (idle_world C o) -> wexec c o (idle_world C o) n <> Undef.
Proof. intros G P E. pose proof (wexec_ok c HC o _ n (idle_winv c C o G) P) as X. unfold OK in X. rewrite E in X. exact X. Qed.

(** *** accesses to a slot *)
(** the slot used by the next step of a thread on container d, and whether exclusively *)
Definition slot_use (d : nat) (p : pc) : option (nat * bool) :=
  match p with
  | At d' o l => if Nat.eqb d' d then
      match l with
      | LCheck x (n :: _) | LCmp x n _ => Some (slot_index (x_g x) n, false)
      | LCall x n => Some (slot_index (x_g x) n, mode o)
      | LMl g n _ | LReset g n _ | LUndo g n _ => Some (slot_index g n, true)
      | LCnt x n | LCons x n => Some (slot_index (x_g x) n, true)
      | BElem g (n :: _) _ => Some (slot_index g n, mode o)
      | _ => None
      end else None
  | _ => None end.
Lemma use_lock k s vs t o l d i w : CInv k s vs -> nth_error vs t = Some (Some (o, l)) -> slot_use d (At d o l) = Some (i, w) ->
  exists x, lock_of o l = Some ((i / 15)%nat, x) /\ (w = true -> x = true).
Proof.
  intros [B U] Ht Hu. destruct (cb_ti _ _ _ _ B _ _ _ Ht) as [W T]. cbn [slot_use] in Hu. rewrite Nat.eqb_refl in Hu.
  destruct l; try discriminate Hu.
  all: cbn [lock_of].
  all: try (destruct m as [|n m]; [discriminate Hu|]); try (destruct ms as [|n ms]; [discriminate Hu|]).
  all: injection Hu as <- <-; destruct o as [p|bx md f|]; cbn [wf ConcInv.TI] in W, T; try contradiction.
  all: assert (n < 15)%nat as Ln; [|rewrite slot_div by exact Ln; eexists; split; [reflexivity|first [discriminate|intros E; exact E|reflexivity]]].
  - apply (lk_m _ _ _ _ _ _ T n). now left.
  - apply (proj2 T).
  - apply (lk_m _ _ _ _ _ _ (proj1 T) n). now left.
  - apply (proj1 T).
  - apply (proj1 (proj2 T)).
  - apply (proj1 T).
  - apply (proj1 (proj2 T)).
  - apply (cl_raw _ _ _ _ _ _ T).
  - apply (cl_raw _ _ _ _ _ _ T).
  - apply (proj1 T).
  - apply (proj2 (proj2 (proj2 T))). now left.
Qed.
Lemma ginv_exclusive C t t' p p' d i w w' : GInv C -> t <> t' -> nth_error (th C) t = Some p -> nth_error (th C) t' = Some p' ->
  slot_use d p = Some (i, w) -> slot_use d p' = Some (i, w') -> w = false /\ w' = false.
Proof.
  intros G N H H' U U'.
  assert (forall q a, slot_use d q = Some a -> exists o l, q = At d o l) as Z.
  { intros q a E. destruct q as [|d1 o l| |]; try discriminate. cbn [slot_use] in E. destruct (Nat.eqb_spec d1 d) as [->|]; [eauto|discriminate]. }
  destruct (Z _ _ U) as (o & l & ->), (Z _ _ U') as (o' & l' & ->). destruct (gi_at _ _ G _ _ _ _ H) as [s Hb]. destruct (gi_box _ _ G d s Hb) as [k Hk].
  apply view_at in H, H'. destruct (use_lock _ _ _ _ _ _ _ _ _ Hk H U) as (x & L & Lw), (use_lock _ _ _ _ _ _ _ _ _ Hk H' U') as (x' & L' & Lw').
  destruct (cb_lock _ _ _ _ (proj1 Hk) t t' (i / 15)%nat x x' N) as [E E']; [exists o, l; auto|exists o', l'; auto|].
  split; [destruct w|destruct w']; auto; [rewrite Lw in E by reflexivity|rewrite Lw' in E' by reflexivity]; discriminate.
Qed.
(** elements are only changed through these accesses *)
Lemma writes_declared free (s : Sh) o l i thr e l' a j x d : lstep c free s o l i thr = Step e l' a -> e = ECell j x -> slot_use d (At d o l) = Some (j, true).
Proof.
  intros Hs ->. cbn [slot_use]. rewrite Nat.eqb_refl. destruct o as [p|bx md f|]; cbn [lstep] in Hs.
  - destruct l; cbn [pstep] in Hs; unfold not_found, go in Hs; try discriminate Hs;
    try (repeat match type of Hs with context [match ?y with _ => _ end] => destruct y; try discriminate Hs end; fail).
    + destruct (get_cell _ _) as [[| |e1]|]; try discriminate Hs. unfold visit_slot in Hs. cbn [mode].
      destruct p as [b k f|k f|b k v f1 f2]; cbn [exclusive].
      * destruct (f e1) as [v b']. destruct b; [injection Hs as <- _ _ _; reflexivity|discriminate].
      * destruct (f e1) as [v [[|]|]]; injection Hs as <- _ _ _; reflexivity.
      * destruct (f2 e1) as [v' b']. destruct b; [injection Hs as <- _ _ _; reflexivity|discriminate].
    + destruct p as [| |b k v f1 f2]; try discriminate Hs. destruct (get_cell _ _) as [[| |e1]|]; try discriminate Hs. destruct thr; [discriminate Hs|].
      destruct (f1 (k, v)) as [v' b']. injection Hs as <- _ _ _. reflexivity.
  - destruct l; cbn [bstep] in Hs; unfold go in Hs; try discriminate Hs;
    try (repeat match type of Hs with context [match ?y with _ => _ end] => destruct y; try discriminate Hs end; fail).
    destruct ms as [|n ms]; [discriminate Hs|]. destruct (get_cell _ _) as [[| |e1]|]; try discriminate Hs. destruct (f (length acc) e1) as [v ob].
    cbn [mode]. destruct (erases md ob) eqn:Ee.
    + injection Hs as <- _ _ _. destruct md; try discriminate Ee. reflexivity.
    + destruct (writes bx md) eqn:Ew; [|discriminate Hs]. injection Hs as <- _ _ _. reflexivity.
  - destruct l; cbn [sstep] in Hs; discriminate Hs.
Qed.

(** *** whole-container operations *)
Lemma ginv_whole C t o n r w bs : GInv C -> wpre c o (idle_world C o) -> returned (wexec c o (idle_world C o) n) r w -> put_back C (idle_world C o) w bs ->
  spec (keqf c) (moves c) (absw C) o r (absw (Conf bs (set_nth (th C) t (RetW r)))).
Proof.
  intros G Hp He Hbk. destruct (whole_cases c HC C o n r w bs G Hp He Hbk) as [Lb _]. destruct (whole_ok c HC C o n r w G Hp He) as [Wi Sp].
  rewrite <- (over_back c C o w bs G Wi Hbk); [|destruct Hbk as [Z _]; lia]. apply unmask; [apply mask_idle, G|exact Sp].
Qed.
End Props.
