(** Concurrent containers: visits, erasures, traversals and size() take a bounded number of steps, whatever the other threads do. *)
From Coq Require Import NArith Bool List Arith Lia Permutation.
From Verif Require Import FloatModel SizeModel SizeProofs GroupModel GroupSpec FoaModel FoaGroup FoaBase FoaFind FoaArr FoaInv FoaRehash FoaSpec FoaWorld FoaRun
  ConcSpec ConcModel ConcInv ConcStep ConcStep2 ConcStep3 ConcSys ConcSys2 ConcLin1 ConcLin2 ConcLin3 ConcProps ConcProgress ConcSolo.
Import ListNotations.
Local Open Scope nat_scope.
Notation set_nth := FoaModel.set_nth.

Section Bound.
Context {K V : Type} (c : Cfg K V).
Hypothesis HC : good_cfg c.
Notation Sh := (@Sh K V).
Notation pop := (pop K V). Notation cop := (cop K V). Notation loc := (@loc K V). Notation cres := (cres K V).
Notation conf := (@conf K V). Notation pc := (@pc K V).
Notation GInv := (GInv c).

(** the calls that may insert an element *)
Definition inserts (o : cop) : bool := match o with Point (PEmplace _ _ _ _ _) => true | _ => false end.
(** executions from [C] to [C'] during which thread [t] has a call on a container in progress and makes [m] steps; the other threads do what they like *)
Inductive walk (t : nat) (C : conf) : nat -> conf -> Prop :=
| w_nil : walk t C O C
| w_own m C1 e C2 : walk t C m C1 -> gstep c C1 e C2 -> counters_fit C2 -> nth_error (th C2) t <> nth_error (th C1) t ->
    (exists d o l, nth_error (th C2) t = Some (At d o l)) -> walk t C (S m) C2
| w_other m C1 e C2 : walk t C m C1 -> gstep c C1 e C2 -> counters_fit C2 -> nth_error (th C2) t = nth_error (th C1) t -> walk t C m C2.

Definition left_ (G : nat) (x : ctx) : nat := 80 * (G - 1 - N.to_nat (pb_step (x_pb x))).
Definition rank (G : nat) (l : loc) : nat :=
  match l with
  | LHash => 80 * G + 9
  | LScan x u _ => left_ G x + 43 + length u
  | LLock x m => left_ G x + 12 + 2 * length m
  | LCheck x m => left_ G x + 11 + 2 * length m
  | LCmp x _ m => left_ G x + 12 + 2 * length m
  | LOvf x => left_ G x + 10
  | LCall _ _ => 9
  | LMl g _ (KP _) => 7 | LReset g _ (KP _) => 6 | LDec g (KP _) => 5
  | LMl g _ (KB ms _) => 80 * (G - 1 - g) + 15 + 4 * length ms
  | LReset g _ (KB ms _) => 80 * (G - 1 - g) + 14 + 4 * length ms
  | LDec g (KB ms _) => 80 * (G - 1 - g) + 13 + 4 * length ms
  | BGrp g _ => 80 * (G - g) + 9
  | BMask g _ => 80 * (G - 1 - g) + 77
  | BElem g ms _ => 80 * (G - 1 - g) + 12 + 4 * length ms
  | SMl => 5 | SSz _ => 4
  | LUnl _ _ _ => 4 | LDone _ => 3 | LRet _ => 2
  | _ => 0
  end.

Lemma in_order_len m : length (in_order m) <= 15.
Proof.
  unfold in_order. assert (forall (f : nat -> bool) l, length (filter f l) <= length l) as H.
  { intros f l. induction l as [|x l IH]; cbn; [lia|]. destruct (f x); cbn; lia. }
  etransitivity; [apply H|]. unfold all15. rewrite seq_length. lia.
Qed.
Lemma mask_loop_len n m : length (mask_loop n m) <= n.
Proof. revert m. induction n as [|n IH]; intros m; cbn [mask_loop]; [cbn; lia|]. destruct (N.eqb m 0); cbn [length]; [lia|]. specialize (IH (N.land m (m - 1))). lia. Qed.
Ltac inj Hs := injection Hs as <- <- <-.

Lemma step_rank k s vs t o l free i thr e l' a : CInv c k s vs -> nth_error vs t = Some (Some (o, l)) -> inserts o = false -> outside l = false ->
  lstep c free s o l i thr = Step e l' a -> rank (N.to_nat (a_mask (arr (tb s)) + 1)) l' < rank (N.to_nat (a_mask (arr (tb s)) + 1)) l.
Proof.
  intros [B _] Hv Ni Ho Hs. destruct (cb_ti _ _ _ _ B _ _ _ Hv) as [W T]. pose proof (fr_geo c _ _ (cb_fr _ _ _ _ B)) as Ge.
  pose proof (ge_mask _ _ Ge) as Em. pose proof (ge_k _ _ Ge) as Hk. change (a_mask (A s)) with (a_mask (arr (tb s))) in Em.
  assert (N.to_nat (a_mask (arr (tb s)) + 1) = N.to_nat (2 ^ k)) as EG by (rewrite Em; pose proof (pow2_pos k); lia). rewrite EG.
  assert (2 ^ k <= 2 ^ 60)%N as Hb by (apply N.pow_le_mono_r; lia).
  assert (forall p x m, Look c k s p x m -> (pb_step (x_pb x) < 2 ^ k)%N) as Lk.
  { intros p x m [_ (j & Hj & ->) _]. exact Hj. }
  set (G := N.to_nat (2 ^ k)) in *.
  destruct o as [p|bx md f|]; cbn [lstep] in Hs.
  - assert (forall x e l' a, not_found p x = Step e l' a -> l' = LDone RNone) as NF by (unfold not_found; intros; destruct p; [injection H; auto|injection H; auto|discriminate Ni]).
    destruct l; cbn [pstep go] in Hs; try discriminate Hs; try discriminate Ho; cbn [wf] in W; try (destruct p; cbn in W; discriminate W || discriminate Ni);
      cbn [TI] in T.
    + destruct thr; [inj Hs; cbn; lia|]. assert (exists h, l' = LScan (Ctx h 0 (pb_init (position h (a_gsi (arr (tb s)))))) all15 []) as [h ->].
      { destruct p; [injection Hs as _ <- _; eauto|injection Hs as _ <- _; eauto|discriminate Ni]. }
      unfold rank, left_, pb_init. cbn [x_pb pb_step]. change (length all15) with 15. pose proof (pow_nat_pos k). fold G in H. lia.
    + destruct (thr && gives_up p); [inj Hs; cbn [rank]; lia|]. destruct u as [|y u].
      * destruct m as [|z m]; inj Hs; cbn [rank length]; [lia|]. pose proof (in_order_len (z :: m)). lia.
      * set (v := y :: u) in *. destruct (memb i v) eqn:Em'; [|discriminate]. destruct (get_group _ _) as [b|]; [|discriminate].
        assert (l' = LScan x (remove Nat.eq_dec i v) (if N.testbit (b_match b (x_h x)) (N.of_nat i) then i :: m else m)) as -> by (injection Hs as _ <- _; reflexivity).
        assert (In i v) as Hi by (unfold memb in Em'; apply existsb_exists in Em' as (z & Hz & Ez); apply Nat.eqb_eq in Ez; subst z; exact Hz).
        pose proof (remove_length_lt Nat.eq_dec v i Hi) as X. cbn [rank]. clear - X. lia.
    + destruct (free _ _); [|discriminate]. inj Hs. cbn [rank]. lia.
    + destruct m as [|n m]; [inj Hs; cbn [rank length]; lia|]. destruct (get_group _ _) as [b|]; [|discriminate]. destruct (b_is_occupied b n); inj Hs; cbn [rank length]; lia.
    + destruct (get_cell _ _) as [[| |e0]|]; try discriminate. destruct thr; [inj Hs; cbn [rank]; lia|]. destruct (keqf _ _ _ _); inj Hs; cbn [rank]; lia.
    + destruct (get_cell _ _) as [[| |e0]|]; try discriminate. unfold visit_slot in Hs. destruct p as [q k0 f|k0 f|]; [| |discriminate Ni].
      * destruct (f e0) as [v b]. inj Hs. cbn [rank]. lia.
      * destruct (f e0) as [v [[|]|]]; inj Hs; cbn [rank]; lia.
    + destruct (get_group _ _) as [b|]; [|discriminate]. destruct kt; [|contradiction]. inj Hs. cbn [rank]. lia.
    + destruct kt; [|contradiction]. inj Hs. cbn [rank]. lia.
    + destruct kt; [|contradiction]. inj Hs. cbn [rank]. lia.
    + destruct (get_group _ _) as [b|]; [|discriminate]. destruct (b_is_not_overflowed _ _); [rewrite (NF _ _ _ _ Hs); cbn [rank]; lia|].
      destruct (pb_next _ _) as [pb more] eqn:En. destruct more; [|rewrite (NF _ _ _ _ Hs); cbn [rank]; lia].
      inj Hs. cbn [rank]. change (length all15) with 15. unfold left_, set_pb. cbn [x_pb].
      pose proof (Lk _ _ _ T) as L. assert (pb_step pb = (pb_step (x_pb x) + 1) mod 2 ^ 64)%N as E1.
      { pose proof (f_equal (fun z => pb_step (fst z)) En) as E1. unfold pb_next in E1. cbn [fst pb_step] in E1. symmetry. exact E1. }
      assert ((pb_step (x_pb x) + 1) mod 2 ^ 64 <= a_mask (arr (tb s)))%N as E2.
      { pose proof (f_equal snd En) as E2. unfold pb_next in E2. cbn [snd] in E2. apply N.leb_le. exact E2. }
      rewrite N.mod_small in E1, E2 by (change (2 ^ 64)%N with (16 * 2 ^ 60)%N; lia). rewrite E1. rewrite Em in E2. unfold G. clear - L E2. lia.
    + inj Hs. cbn [rank]. lia.
    + inj Hs. cbn [rank]. lia.
  - destruct l; cbn [bstep go] in Hs; try discriminate Hs; try discriminate Ho; cbn [wf] in W; try contradiction; cbn [TI] in T.
    + destruct kt as [e0|ms acc]; [contradiction|]. destruct (get_group _ _) as [b|]; [|discriminate]. inj Hs. cbn [rank]. lia.
    + destruct kt as [e0|ms acc]; [contradiction|]. inj Hs. cbn [rank]. lia.
    + destruct kt as [e0|ms acc]; [contradiction|]. inj Hs. cbn [rank]. lia.
    + destruct (a_elems _); [|inj Hs; cbn [rank]; lia]. rewrite EG in Hs. destruct (Nat.eqb_spec g G) as [|Ne]; [inj Hs; cbn [rank]; lia|].
      destruct (free _ _); [|discriminate]. inj Hs. cbn [rank]. lia.
    + destruct (get_group _ _) as [b|]; [|discriminate]. set (w := mask_loop _ _) in Hs. pose proof (mask_loop_len 16 (match_really_occupied b (Nat.eqb (S g) (N.to_nat (a_mask (arr (tb s)) + 1))))) as L.
      fold w in L. clearbody w. inj Hs. cbn [rank]. lia.
    + destruct ms as [|n ms].
      * inj Hs. cbn [rank length]. destruct T as (T & _). lia.
      * destruct (get_cell _ _) as [[| |e0]|]; try discriminate. destruct (f _ e0) as [v ob]. inj Hs. destruct (erases md ob); [cbn [rank length]; lia|].
        destruct ob as [b|]; [|cbn [rank length]; lia]. destruct (goes_on md (Some b)); cbn [rank length]; lia.
    + inj Hs. cbn [rank]. lia.
    + inj Hs. cbn [rank]. lia.
  - destruct l; cbn [sstep go] in Hs; try discriminate Hs; try discriminate Ho; inj Hs; cbn [rank]; lia.
Qed.

(** while a thread is inside a container, the arrays of the container are not replaced *)
Lemma stay C e C' t d o l s : GInv C -> counters_fit C -> gstep c C e C' -> nth_error (th C) t = Some (At d o l) -> outside l = false -> box C d = Some s ->
  exists s', box C' d = Some s' /\ a_mask (arr (tb s')) = a_mask (arr (tb s)).
Proof.
  intros G NW Gs Ht Ho Hb.
  assert (forall t1 d1 o1, nth_error (th C) t1 = Some (At d1 o1 LFull) -> alone C t1 d1 = true -> d1 <> d) as Na.
  { intros t1 d1 o1 H1 Al ->. assert (t1 <> t) as N by (intros ->; rewrite Ht in H1; injection H1 as _ ->; discriminate Ho).
    unfold alone in Al. rewrite forallb_forall in Al. specialize (Al _ (in_others _ t1 t _ Ht (not_eq_sym N))). cbn [inside] in Al. rewrite Nat.eqb_refl, Ho in Al. discriminate. }
  destruct Gs as [C t1 d1 o1 s1 Ht1 Hb1|C t1 d1 o1 l1 s1 i thr e l' a s' Ht1 Hb1 Hs Ha|C t1 d1 o1 s1 n t' n' cn Ht1 Hb1 Hal Hr Hc|
    C t1 d1 o1 s1 n kd t' n' cn Ht1 Hb1 Hal Hr Hc|C t1 d1 o1 r Ht1|C t1 o1 Ht1|C t1 o1 n r w bs Ht1 Hp He Hbk|C t1 r Ht1]; try (exists s; split; [exact Hb|reflexivity]).
  - assert (box (set_th C t1 (At d1 o1 l')) d1 = Some s1) as Hb' by exact Hb1. rewrite (box_set _ _ _ _ _ Hb'). destruct (Nat.eqb_spec d d1) as [<-|_].
    + exists s'. split; [reflexivity|]. rewrite Hb in Hb1. injection Hb1 as <-. apply (apply_shape _ _ _ Ha).
    + exists s. split; [exact Hb|reflexivity].
  - pose proof (Na _ _ _ Ht1 Hal). assert (box (set_th C t1 (At d1 o1 LEnter)) d1 = Some s1) as Hb' by exact Hb1. rewrite (box_set _ _ _ _ _ Hb').
    destruct (Nat.eqb_spec d d1); [congruence|]. exists s. split; [exact Hb|reflexivity].
  - pose proof (Na _ _ _ Ht1 Hal). assert (box (set_th C t1 (At d1 o1 (LRet RThrew))) d1 = Some s1) as Hb' by exact Hb1. rewrite (box_set _ _ _ _ _ Hb').
    destruct (Nat.eqb_spec d d1); [congruence|]. exists s. split; [exact Hb|reflexivity].
  - destruct (whole_cases c HC C o1 n r w bs G Hp He Hbk) as [_ X]. destruct (X d) as [(s2 & E1 & _ & E2)|(Ou & _)].
    + exists s2. split; [exact E2|congruence].
    + pose proof (Ou t o l (proj2 (view_at C d t o l) Ht)). congruence.
Qed.

Lemma no_reenter free s o l i thr e a : lstep c free s o l i thr = Step e LEnter a -> False.
Proof.
  intros Hs. destruct o as [p|bx md f|]; cbn [lstep] in Hs.
  - destruct l; cbn [pstep go] in Hs; try discriminate Hs; unfold not_found, visit_slot in Hs; repeat (match type of Hs with context [match ?x with _ => _ end] => destruct x end; try discriminate Hs).
  - destruct l; cbn [bstep go] in Hs; try discriminate Hs; repeat (match type of Hs with context [match ?x with _ => _ end] => destruct x end; try discriminate Hs).
  - destruct l; cbn [sstep go] in Hs; discriminate Hs.
Qed.
Lemma full_from free s o l i thr e a : lstep c free s o l i thr = Step e LFull a -> l = LOut.
Proof.
  intros Hs. destruct o as [p|bx md f|]; cbn [lstep] in Hs.
  - destruct l; cbn [pstep go] in Hs; try discriminate Hs; unfold not_found, visit_slot in Hs; try reflexivity; repeat (match type of Hs with context [match ?x with _ => _ end] => destruct x end; try discriminate Hs).
  - destruct l; cbn [bstep go] in Hs; try discriminate Hs; repeat (match type of Hs with context [match ?x with _ => _ end] => destruct x end; try discriminate Hs).
  - destruct l; cbn [sstep go] in Hs; discriminate Hs.
Qed.
Lemma walk_rank C m C' t d o l s : GInv C -> counters_fit C -> nth_error (th C) t = Some (At d o l) -> outside l = false -> inserts o = false -> box C d = Some s ->
  walk t C m C' -> GInv C' /\ counters_fit C' /\ exists l', nth_error (th C') t = Some (At d o l') /\ m + rank (N.to_nat (a_mask (arr (tb s)) + 1)) l' <= rank (N.to_nat (a_mask (arr (tb s)) + 1)) l /\
    ((exists r, l' = LRet r) \/ outside l' = false /\ exists s', box C' d = Some s' /\ a_mask (arr (tb s')) = a_mask (arr (tb s))).
Proof.
  intros G NW Ht Ho Ni Hb Wk. induction Wk as [|m C1 e C2 Wk IH Gs Fit Ne (d2 & o2 & l2 & E2)|m C1 e C2 Wk IH Gs Fit Eq].
  - split; [exact G|]. split; [exact NW|]. exists l. split; [exact Ht|]. split; [lia|]. right. split; [exact Ho|]. eauto.
  - destruct IH as (G1 & F1 & l1 & E1 & R1 & X1). split; [eapply ginv_step; eassumption|]. split; [exact Fit|].
    assert (Hn := Ne). rewrite E1 in Ne.
    assert (forall t1 p q, nth_error (th C1) t1 = Some p -> th C2 = set_nth (th C1) t1 q -> t1 = t /\ p = At d o l1 /\ nth_error (th C2) t = Some q) as Own.
    { intros t1 p q H1 H2. destruct (Nat.eq_dec t1 t) as [->|N].
      - split; [reflexivity|]. split; [congruence|]. rewrite H2. eapply self_err; exact H1.
      - exfalso. apply Hn. rewrite H2. apply others_err. congruence. }
    destruct X1 as [[r ->]|[Ho1 (s1 & Hb1 & Em1)]].
    { exfalso. destruct Gs as [C1 t1 d1 o1 s1 Ht1 Hb1|C1 t1 d1 o1 l1 s1 i thr e l' a s' Ht1 Hb1 Hs Ha|C1 t1 d1 o1 s1 n t' n' cn Ht1 Hb1 Hal Hr Hc|
        C1 t1 d1 o1 s1 n kd t' n' cn Ht1 Hb1 Hal Hr Hc|C1 t1 d1 o1 r1 Ht1|C1 t1 o1 Ht1|C1 t1 o1 n r1 w bs Ht1 Hp He Hbk|C1 t1 r1 Ht1];
        destruct (Own _ _ _ Ht1 eq_refl) as (-> & P & Q); try discriminate P.
      - injection P as -> -> ->. destruct o; discriminate Hs.
      - rewrite E2 in Q. discriminate Q. }
    destruct (stay C1 e C2 t d o l1 s1 G1 F1 Gs E1 Ho1 Hb1) as (s2 & Hb2 & Em2).
    destruct (gi_box _ _ G1 d s1 Hb1) as [k Hk].
    destruct Gs as [C1 t1 d1 o1 s0 Ht1 Hb0|C1 t1 d1 o1 l0 s0 i thr e l' a s' Ht1 Hb0 Hs Ha|C1 t1 d1 o1 s0 n t' n' cn Ht1 Hb0 Hal Hr Hc|
      C1 t1 d1 o1 s0 n kd t' n' cn Ht1 Hb0 Hal Hr Hc|C1 t1 d1 o1 r1 Ht1|C1 t1 o1 Ht1|C1 t1 o1 n r1 w bs Ht1 Hp He Hbk|C1 t1 r1 Ht1];
      destruct (Own _ _ _ Ht1 eq_refl) as (-> & P & Q); try discriminate P; try (injection P as -> -> <-; discriminate Ho1).
    injection P as -> -> ->. assert (s0 = s1) by congruence. subst s0.
    pose proof (step_rank k s1 _ t o l1 _ _ _ _ _ _ Hk (proj2 (view_at C1 d t o l1) E1) Ni Ho1 Hs) as Rk. rewrite Em1 in Rk.
    exists l'. split; [exact Q|]. split; [lia|].
    destruct (outside l') eqn:Eo; [|right; split; [reflexivity|]; exists s2; split; [exact Hb2|congruence]].
    left. destruct l'; try discriminate Eo; [| |eauto].
    + exfalso. exact (no_reenter _ _ _ _ _ _ _ _ Hs).
    + exfalso. destruct (cb_ti _ _ _ _ (proj1 Hk) _ _ _ (proj2 (view_at C1 d t o l1) E1)) as [W _]. pose proof (full_from _ _ _ _ _ _ _ _ Hs) as ->.
      destruct o as [p|bx md f|]; [|destruct W|destruct W]. destruct p; discriminate W || discriminate Ni.
  - destruct IH as (G1 & F1 & l1 & E1 & R1 & X1). split; [eapply ginv_step; eassumption|]. split; [exact Fit|]. exists l1. rewrite Eq. split; [exact E1|]. split; [exact R1|].
    destruct X1 as [X1|[Ho1 (s1 & Hb1 & Em1)]]; [left; exact X1|right]. split; [exact Ho1|].
    destruct (stay C1 e C2 t d o l1 s1 G1 F1 Gs E1 Ho1 Hb1) as (s2 & Hb2 & Em2). exists s2. split; [exact Hb2|congruence].
Qed.

Lemma bounded C0 e C t d o s m C' : GInv C0 -> counters_fit C0 -> nth_error (th C0) t = Some (At d o LEnter) -> gstep c C0 e C -> counters_fit C ->
  nth_error (th C) t <> nth_error (th C0) t -> box C d = Some s -> inserts o = false -> walk t C m C' -> m <= 80 * length (a_groups (arr (tb s))) + 9.
Proof.
  intros G0 F0 H0 Gs Fit Ne Hb Ni Wk. pose proof (ginv_step c HC _ _ _ G0 F0 Gs) as G.
  assert (forall t1 p q, nth_error (th C0) t1 = Some p -> th C = set_nth (th C0) t1 q -> t1 = t /\ p = At d o LEnter /\ nth_error (th C) t = Some q) as Own.
  { intros t1 p q H1 H2. destruct (Nat.eq_dec t1 t) as [->|N].
    - split; [reflexivity|]. split; [congruence|]. rewrite H2. eapply self_err; exact H1.
    - exfalso. apply Ne. rewrite H2. apply others_err. congruence. }
  assert (exists l, nth_error (th C) t = Some (At d o l) /\ (l = LHash \/ l = BGrp 0 [] \/ l = SMl)) as (l & Ht & Hl).
  { destruct Gs as [C0 t1 d1 o1 s0 Ht1 Hb0|C0 t1 d1 o1 l0 s0 i thr e l' a s' Ht1 Hb0 Hs Ha|C0 t1 d1 o1 s0 n t' n' cn Ht1 Hb0 Hal Hr Hc|
      C0 t1 d1 o1 s0 n kd t' n' cn Ht1 Hb0 Hal Hr Hc|C0 t1 d1 o1 r1 Ht1|C0 t1 o1 Ht1|C0 t1 o1 n r1 w bs Ht1 Hp He Hbk|C0 t1 r1 Ht1];
      destruct (Own _ _ _ Ht1 eq_refl) as (-> & P & Q); try discriminate P.
    injection P as -> -> ->. exists l'. split; [exact Q|]. destruct o; cbn in Hs; injection Hs as _ <- _; auto. }
  assert (outside l = false) as Ho by (destruct Hl as [->|[->| ->]]; reflexivity).
  destruct (walk_rank C m C' t d o l s G Fit Ht Ho Ni Hb Wk) as (_ & _ & l' & _ & R & X).
  destruct (gi_box _ _ G d s Hb) as [k [B _]]. pose proof (fr_geo c _ _ (cb_fr _ _ _ _ B)) as Ge. pose proof (ge_mask _ _ Ge) as Em. pose proof (ge_groups _ _ Ge) as Eg.
  change (a_mask (A s)) with (a_mask (arr (tb s))) in Em. change (a_groups (A s)) with (a_groups (arr (tb s))) in Eg.
  assert (N.to_nat (a_mask (arr (tb s)) + 1) = length (a_groups (arr (tb s)))) as EG by (rewrite Eg, Em; pose proof (pow2_pos k); lia). rewrite EG in R.
  assert (rank (length (a_groups (arr (tb s)))) l <= 80 * length (a_groups (arr (tb s))) + 9) by (destruct Hl as [->|[->| ->]]; cbn [rank]; lia).
  lia.
Qed.
End Bound.
