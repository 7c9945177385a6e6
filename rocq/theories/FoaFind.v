(** Lookup and single-slot insertion. *)
From Coq Require Import NArith Bool List Arith Lia ZifyBool ZifyNat ZifyN Permutation.
From Verif Require Import SizeModel SizeProofs GroupModel GroupSpec FoaModel FoaGroup FoaBase.
Import ListNotations.
Local Open Scope N_scope.

Section Find.
Context {K V : Type} (c : Cfg K V).
Notation arrays := (arrays K V).
Notation table := (table K V).
Notation cell := (cell K V).

Definition equivalence (p : N) : Prop :=
  (forall x, keqf c p x x = true) /\ (forall x y, keqf c p x y = keqf c p y x) /\
  (forall x y z, keqf c p x y = true -> keqf c p y z = true -> keqf c p x z = true).
Definition compat (h p : N) : Prop :=
  equivalence p /\ forall x y, keqf c p x y = true -> hashf c h x = hashf c h y.

Definition raised (k : kind) : Prop := exists j, throws c k j = true.

Lemma tick_ok {St} k (s : St) n : outcome (tick c k s n) (fun _ s' => s' = s) (fun k' s' => k' = k /\ s' = s /\ raised k).
Proof. unfold tick, outcome. destruct (throws c k n) eqn:E; [repeat split; auto; exists n; exact E|reflexivity]. Qed.
Lemma tick_bind {St A} k (f : unit -> M St A) (s : St) n Q E :
  (forall n', outcome (f tt s n') Q E) -> (raised k -> E k s) -> outcome (bind (tick c k) f s n) Q E.
Proof.
  intros H1 H2. eapply outcome_bind; [eapply outcome_weaken; [apply tick_ok|intros a s' H; exact H|]|].
  - intros k' s' (-> & -> & Hr). auto.
  - intros [] s' n' ->. apply H1.
Qed.

Lemma find_in_group_ok {St} p (a : arrays) key g k : Shape k a -> forall ns (s : St) n,
  (forall m, In m ns -> exists e, nth_error (cells a) (slot_index g m) = Some (Live e)) ->
  outcome (find_in_group c p a key g ns s n)
    (fun r s' => s' = s /\ match r with
       | Some m => In m ns /\ exists e, nth_error (cells a) (slot_index g m) = Some (Live e) /\ keqf c p key (fst e) = true
       | None => forall m e, In m ns -> nth_error (cells a) (slot_index g m) = Some (Live e) -> keqf c p key (fst e) = false
       end)
    (fun kd s' => kd = KEq /\ s' = s /\ raised KEq).
Proof.
  intros HS. induction ns as [|m ns IH]; intros s n H.
  - cbn. split; [reflexivity|]. intros m e [].
  - cbn [find_in_group]. destruct (H m (or_introl eq_refl)) as [e He].
    unfold read_element. rewrite (get_cell_eq k) by exact HS. rewrite He. rewrite bind_ret.
    apply tick_bind; [|intros Hr; auto]. intros n'.
    destruct (keqf c p key (fst e)) eqn:Ek.
    + cbn. split; [reflexivity|]. split; [now left|]. exists e. auto.
    + eapply outcome_weaken; [apply IH; intros m' Hm'; apply H; now right| |auto].
      intros r s' [-> Hr]. split; [reflexivity|]. destruct r as [m'|].
      * destruct Hr as [Hin Hr]. split; [now right|exact Hr].
      * intros m' e' [<-|Hin] He'; [congruence|eauto].
Qed.

(** states visited by the prober *)
Definition pstate (k pos0 : N) (j : nat) : prober := {| pb_pos := probe_pos k pos0 j; pb_step := N.of_nat j |}.
Lemma pstate_next k pos0 j : k <= 60 -> N.of_nat j < 2 ^ k ->
  pb_next (pstate k pos0 j) (2 ^ k - 1) = (pstate k pos0 (S j), N.of_nat (S j) <? 2 ^ k).
Proof.
  intros Hk Hj. apply pb_next_spec; [lia|].
  assert (2 ^ k <= 2 ^ 60) by (apply N.pow_le_mono_r; lia). lia.
Qed.
Lemma pstate_group k pos0 j : (N.to_nat (probe_pos k pos0 j) < N.to_nat (2 ^ k))%nat.
Proof. pose proof (probe_pos_lt k pos0 j). lia. Qed.

Definition found (p : N) (a : arrays) (key : K) (r : option (nat * nat)) : Prop :=
  match r with
  | Some (g, m) => (m < 15)%nat /\ exists e, nth_error (cells a) (slot_index g m) = Some (Live e) /\ keqf c p key (fst e) = true
  | None => forall e, In e (elems a) -> keqf c p key (fst e) = false
  end.

Lemma find_loop_ok {St} h p k (a : arrays) key : compat h p -> GoodA c h k a ->
  let hash := hash_of c h key in let pos0 := position hash (64 - k) in
  forall fuel j (s : St) n, N.of_nat j < 2 ^ k -> (N.to_nat (2 ^ k) < j + fuel)%nat ->
  (forall j' i e, (j' < j)%nat -> nth_error (cells a) i = Some (Live e) ->
      probe_pos k pos0 j' = N.of_nat (i / 15) -> keqf c p key (fst e) = false) ->
  outcome (find_loop c fuel p a key hash (pstate k pos0 j) s n)
    (fun r s' => s' = s /\ found p a key r) (fun kd s' => kd = KEq /\ s' = s /\ raised KEq).
Proof.
  intros [[Kr [Ks Kt]] Hc] [HS HG] hash pos0. pose proof (sh_k _ _ HS) as Hk.
  induction fuel as [|fuel IH]; intros j s n Hj Hf Hbefore; [lia|].
  cbn [find_loop]. set (g := N.to_nat (pb_pos (pstate k pos0 j))).
  assert (g < N.to_nat (2 ^ k))%nat as Hg by apply pstate_group.
  rewrite (shape_get_group k) by assumption.
  pose proof (shape_grp_len _ _ _ HS Hg) as Lg.
  destruct (match_bits (grp a g) hash Lg) as [Mb _].
  assert (forall m, In m (tag_bits (N.eqb (low_class hash)) (grp a g)) -> (m < 15)%nat /\
            exists e, nth_error (cells a) (slot_index g m) = Some (Live e)) as Htag.
  { intros m Hm. unfold tag_bits in Hm. apply filter_In in Hm as [Hm1 Hm2]. apply in_seq in Hm1.
    apply N.eqb_eq in Hm2. assert (m < 15)%nat as Hm15 by lia. split; [exact Hm15|].
    pose proof (low_class_ge2 hash) as L2.
    assert (ctrl a (slot_index g m) = low_class hash) as Ec.
    { unfold ctrl. rewrite slot_div, slot_mod by exact Hm15. congruence. }
    assert (slot_index g m < length (cells a))%nat as Hlt.
    { destruct (Nat.lt_ge_cases (slot_index g m) (length (cells a))) as [|Ge]; [assumption|exfalso].
      assert (slot_index g m = length (cells a)) as Es.
      { rewrite (sh_cells _ _ HS) in *. unfold slot_index in *. lia. }
      rewrite Es, (sh_sent _ _ HS) in Ec. lia. }
    destruct (nth_error (cells a) (slot_index g m)) as [x|] eqn:Ex; [|apply nth_error_None in Ex; lia].
    pose proof (HG _ _ Ex) as Sx. destruct x as [| |e]; cbn [slot_ok] in Sx; [lia|destruct Sx|]. eauto. }
  (* elements of this group equivalent to the key are matched *)
  assert (forall i e, nth_error (cells a) i = Some (Live e) -> (i / 15)%nat = g -> keqf c p key (fst e) = true ->
            In (i mod 15)%nat (tag_bits (N.eqb (low_class hash)) (grp a g))) as Hall.
  { intros i e Hi Eg Ek. unfold tag_bits. apply filter_In. split; [apply in_seq; pose proof (mod15 i); lia|].
    pose proof (HG _ _ Hi) as [Ec _]. unfold ctrl in Ec. rewrite Eg in Ec. rewrite Ec.
    assert (hash_of c h (fst e) = hash) as ->.
    { unfold hash, hash_of. rewrite (Hc key (fst e)) by exact Ek. reflexivity. }
    apply N.eqb_refl. }
  assert (outcome ((if b_match (grp a g) hash =? 0 then ret None
                   else find_in_group c p a key g (mask_loop 16 (b_match (grp a g) hash))) s n)
    (fun r s' => s' = s /\ match r with
       | Some m => (m < 15)%nat /\ exists e, nth_error (cells a) (slot_index g m) = Some (Live e) /\ keqf c p key (fst e) = true
       | None => forall i e, nth_error (cells a) i = Some (Live e) -> (i / 15)%nat = g -> keqf c p key (fst e) = false
       end) (fun kd s' => kd = KEq /\ s' = s /\ raised KEq)) as Hgroup.
  { rewrite (mask_loop_nil (b_match (grp a g) hash)), Mb.
    destruct (tag_bits (N.eqb (low_class hash)) (grp a g)) as [|m0 ns] eqn:Et.
    - cbn. split; [reflexivity|]. intros i e Hi Eg. destruct (keqf c p key (fst e)) eqn:Ek; [|reflexivity].
      exfalso. rewrite <- Et in Hall. specialize (Hall i e Hi Eg Ek). rewrite Et in Hall. destruct Hall.
    - rewrite <- Et in *. eapply outcome_weaken.
      + apply (find_in_group_ok p a key g k HS). intros m Hm. apply Htag. exact Hm.
      + intros r s' [-> Hr]. split; [reflexivity|]. destruct r as [m|].
        * destruct Hr as [Hin Hr]. split; [apply Htag; exact Hin|exact Hr].
        * intros i e Hi Eg. destruct (keqf c p key (fst e)) eqn:Ek; [|reflexivity].
          rewrite <- Ek. apply (Hr (i mod 15)%nat e); [eauto|]. rewrite <- Eg, slot_of. exact Hi.
      + auto. }
  eapply outcome_bind; [exact Hgroup|]. clear Hgroup.
  intros r s' n' [-> Hr]. destruct r as [m|]; [cbn; auto|].
  assert (forall j' i e, (j' < S j)%nat -> nth_error (cells a) i = Some (Live e) ->
      probe_pos k pos0 j' = N.of_nat (i / 15) -> keqf c p key (fst e) = false) as Hbefore'.
  { intros j' i e Hj' Hi Ep. destruct (Nat.eq_dec j' j) as [->|]; [|apply (Hbefore j' i e); auto; lia].
    apply (Hr i e Hi). unfold g. cbn [pstate pb_pos]. rewrite Ep. lia. }
  (* an equivalent element lies further on its probe path *)
  assert (forall i e, nth_error (cells a) i = Some (Live e) -> keqf c p key (fst e) = true ->
    exists j1, (j < j1)%nat /\ N.of_nat j1 < 2 ^ k /\
      N.testbit (ovf a (N.to_nat (probe_pos k pos0 j))) (hash mod 8) = true) as Hfar.
  { intros i e Hi Ek. pose proof (HG _ _ Hi) as [_ (j1 & Hj1 & Ep & Hov)].
    assert (hash_of c h (fst e) = hash) as Eh.
    { unfold hash, hash_of. rewrite (Hc key (fst e)) by exact Ek. reflexivity. }
    rewrite Eh in *. fold pos0 in Ep, Hov.
    destruct (Nat.lt_ge_cases j j1) as [Lt|Ge].
    - exists j1. repeat split; auto.
    - exfalso. rewrite (Hbefore' j1 i e) in Ek; [discriminate|lia|exact Hi|exact Ep]. }
  rewrite not_overflowed_bit. fold (ovf a g).
  destruct (N.testbit (ovf a g) (hash mod 8)) eqn:Eov; cbn [negb].
  - rewrite (sh_mask _ _ HS), pstate_next by (lia || exact Hj).
    destruct (N.ltb_spec (N.of_nat (S j)) (2 ^ k)) as [Lt|Ge].
    + apply IH; [exact Lt|lia|exact Hbefore'].
    + cbn. split; [reflexivity|]. intros e He. apply in_elems in He as [i Hi].
      destruct (keqf c p key (fst e)) eqn:Ek; [|reflexivity].
      destruct (Hfar i e Hi Ek) as (j1 & ? & ? & _). lia.
  - cbn. split; [reflexivity|]. intros e He. apply in_elems in He as [i Hi].
    destruct (keqf c p key (fst e)) eqn:Ek; [|reflexivity].
    destruct (Hfar i e Hi Ek) as (j1 & _ & _ & Hb).
    change (N.to_nat (probe_pos k pos0 j)) with g in Hb. congruence.
Qed.

Lemma dummy_find {St} al p key hash fuel pos0 (s : St) n : pos0 < 2 -> (0 < fuel)%nat ->
  find_loop c fuel p (dummy_arrays al) key hash (pb_init pos0) s n = Ret None s n.
Proof.
  intros Hp Hf. destruct fuel as [|fuel]; [lia|]. cbn [find_loop].
  assert (get_group (@dummy_arrays K V al) (N.to_nat (pb_pos (pb_init pos0))) = Some b_dummy) as ->.
  { assert (pos0 = 0 \/ pos0 = 1) as [-> | ->] by lia; reflexivity. }
  assert (b_match b_dummy hash =? 0 = true) as ->.
  { rewrite mask_loop_nil. destruct (match_bits b_dummy hash eq_refl) as [-> _].
    pose proof (low_class_ge2 hash). unfold tag_bits.
    rewrite GroupProofs.filter_none; [reflexivity|]. intros x Hx. apply in_seq in Hx.
    apply N.eqb_neq. do 15 (destruct x as [|x]; [cbn; lia|]). lia. }
  rewrite bind_ret. rewrite not_overflowed_bit. change (nth 15 b_dummy 0) with 0. rewrite N.bits_0. reflexivity.
Qed.

(** ** insertion of one element in an array *)
Definition Ext (a a' : arrays) : Prop :=
  a_owner a' = a_owner a /\ a_gsi a' = a_gsi a /\ a_mask a' = a_mask a /\
  cells a' = cells a /\ (forall i, ctrl a' i = ctrl a i) /\
  (forall g j, N.testbit (ovf a g) j = true -> N.testbit (ovf a' g) j = true).

Lemma Ext_refl a : Ext a a. Proof. repeat split; auto. Qed.
Lemma Ext_trans a b d : Ext a b -> Ext b d -> Ext a d.
Proof.
  intros (A1 & A2 & A3 & A4 & A5 & A6) (B1 & B2 & B3 & B4 & B5 & B6). repeat split; try congruence; auto.
Qed.

Lemma ext_mark k a g hash : Shape k a -> (g < N.to_nat (2 ^ k))%nat ->
  let a' := upd_grp a g (b_mark_overflow (grp a g) hash) in
  Shape k a' /\ Ext a a' /\ N.testbit (ovf a' g) (hash mod 8) = true.
Proof.
  intros HS Hg a'. unfold a'. rewrite mark_overflow_eq. split; [apply shape_set_ovf; assumption|].
  split.
  - repeat split; auto.
    + intros i. apply (ctrl_set_ovf k); assumption.
    + intros g' j Hb. rewrite (ovf_set_ovf k) by assumption.
      destruct (Nat.eqb_spec g' g) as [->|]; [|exact Hb].
      rewrite lor_pow2_bit. unfold ovf in Hb. rewrite Hb. reflexivity.
  - rewrite (ovf_set_ovf k), Nat.eqb_refl by assumption.
    rewrite lor_pow2_bit, N.eqb_refl. apply orb_true_r.
Qed.

(** result of a successful placement in slot i *)
Record Placed (k hash : N) (e : K * V) (a a' : arrays) (i : nat) : Prop := {
  pl_shape : Shape k a';
  pl_owner : a_owner a' = a_owner a;
  pl_lt : (i < length (cells a))%nat;
  pl_free : nth_error (cells a) i = Some Raw;
  pl_cells : cells a' = set_nth (cells a) i (Live e);
  pl_ctrl : forall j, ctrl a' j = if Nat.eqb j i then low_class hash else ctrl a j;
  pl_ovf : forall g j, N.testbit (ovf a g) j = true -> N.testbit (ovf a' g) j = true;
  pl_reach : Reach k a' hash (i / 15)
}.

Lemma emplace_loop_ok kd hash e k a0 : hash < 2 ^ 64 ->
  let pos0 := position hash (64 - k) in
  (exists i, (i < length (cells a0))%nat /\ ctrl a0 i = 0) ->
  (forall i, (i < length (cells a0))%nat -> ctrl a0 i = 0 -> nth_error (cells a0) i = Some Raw) ->
  forall fuel j a n, Shape k a -> Ext a0 a -> N.of_nat j < 2 ^ k -> (N.to_nat (2 ^ k) < j + fuel)%nat ->
  (forall j', (j' < j)%nat -> N.testbit (ovf a (N.to_nat (probe_pos k pos0 j'))) (hash mod 8) = true) ->
  (forall j' i, (j' < j)%nat -> (i < length (cells a0))%nat -> (i / 15)%nat = N.to_nat (probe_pos k pos0 j') -> ctrl a0 i <> 0) ->
  outcome (emplace_loop c fuel kd hash e (pstate k pos0 j) a n)
    (fun l a' => (snd l < 15)%nat /\ Placed k hash e a0 a' (slot_index (fst l) (snd l)))
    (fun kd' a' => kd' = kd /\ raised kd /\ Shape k a' /\ Ext a0 a').
Proof.
  intros Hh pos0 (i0 & Hi0 & Hc0) Hraw. 
  induction fuel as [|fuel IH]; intros j a n HS HE Hj Hf Hmarks Hfull; [lia|].
  pose proof (sh_k _ _ HS) as Hk.
  cbn [emplace_loop]. rewrite bind_get. set (g := N.to_nat (pb_pos (pstate k pos0 j))).
  assert (g < N.to_nat (2 ^ k))%nat as Hg by apply pstate_group.
  rewrite (shape_get_group k) by assumption.
  pose proof (shape_grp_len _ _ _ HS Hg) as Lg.
  destruct HE as (E1 & E2 & E3 & E4 & E5 & E6).
  destruct (available_bits (grp a g) Lg) as [Mb _].
  rewrite (mask_loop_nil (b_match_available (grp a g))), Mb.
  destruct (tag_bits (N.eqb 0) (grp a g)) as [|m ns] eqn:Et; cbn [negb].
  - (* full group: mark and go on *)
    destruct (ext_mark k a g hash HS Hg) as (HS' & HE' & Hbit).
    unfold bind at 1. rewrite (put_group_eq k) by assumption.
    set (a' := upd_grp a g (b_mark_overflow (grp a g) hash)) in *.
    assert (Ext a0 a') as HE0 by (eapply Ext_trans; [|exact HE']; repeat split; auto).
    rewrite (sh_mask _ _ HS), pstate_next by (lia || exact Hj). cbn [fst].
    assert (forall i, (i < length (cells a0))%nat -> (i / 15)%nat = g -> ctrl a0 i <> 0) as Hg0.
    { intros i Hi Eg C. rewrite <- E5 in C. unfold ctrl in C. rewrite Eg in C.
      assert (In (i mod 15)%nat (tag_bits (N.eqb 0) (grp a g))) as Hin.
      { unfold tag_bits. apply filter_In. split; [apply in_seq; pose proof (mod15 i); lia|]. rewrite C. reflexivity. }
      rewrite Et in Hin. destruct Hin. }
    assert (forall j' i, (j' < S j)%nat -> (i < length (cells a0))%nat -> (i / 15)%nat = N.to_nat (probe_pos k pos0 j') -> ctrl a0 i <> 0) as Hfull'.
    { intros j' i Hj' Hi Eg. destruct (Nat.eq_dec j' j) as [->|]; [|apply (Hfull j'); auto; lia].
      apply Hg0; assumption. }
    apply IH; auto.
    + (* there is a next group: otherwise everything is full *)
      destruct (N.lt_ge_cases (N.of_nat (S j)) (2 ^ k)) as [|Ge]; [assumption|exfalso].
      destruct (probe_covers k pos0 (i0 / 15)) as (j1 & Hj1 & Ep).
      { assert (i0 < length (cells a))%nat as Hi0' by (rewrite E4; exact Hi0).
        pose proof (shape_div _ _ _ HS Hi0'). lia. }
      apply (Hfull' j1 i0); auto; [lia|]. rewrite Ep. lia.
    + lia.
    + intros j' Hj'. destruct (Nat.eq_dec j' j) as [->|]; [exact Hbit|].
      destruct HE' as (_ & _ & _ & _ & _ & X). apply X. apply Hmarks. lia.
  - (* a free slot *)
    assert (countr_zero (b_match_available (grp a g)) = m) as -> by (apply (mask_loop_hd _ m ns); rewrite Mb; reflexivity).
    assert (In m (tag_bits (N.eqb 0) (grp a g))) as Hm by (rewrite Et; now left).
    unfold tag_bits in Hm. apply filter_In in Hm as [Hm1 Hm2]. apply in_seq in Hm1.
    assert (m < 15)%nat as Hm15 by lia. apply N.eqb_eq in Hm2.
    set (i := slot_index g m).
    assert (ctrl a i = 0) as Ci. { unfold ctrl, i. rewrite slot_div, slot_mod by exact Hm15. congruence. }
    assert (i < length (cells a))%nat as Hi.
    { destruct (Nat.lt_ge_cases i (length (cells a))) as [|Ge]; [assumption|exfalso].
      assert (i = length (cells a)) as Es.
      { rewrite (sh_cells _ _ HS) in *. unfold i, slot_index in *. lia. }
      rewrite Es, (sh_sent _ _ HS) in Ci. discriminate. }
    assert (nth_error (cells a) i = Some Raw) as Ri.
    { rewrite E4 in *. apply Hraw; [exact Hi|]. rewrite <- E5. exact Ci. }
    unfold construct_element. rewrite bind_bind, bind_get, (get_cell_eq k) by exact HS. rewrite Ri.
    rewrite bind_bind. apply tick_bind.
    2:{ intros Hr. split; [reflexivity|]. split; [exact Hr|]. split; [exact HS|]. repeat split; auto. }
    intros n'. unfold bind at 1. rewrite (put_cell_eq k) by assumption.
    unfold bind at 1. rewrite (put_group_eq k) by (auto using shape_upd_cell). cbn [ret outcome fst snd].
    split; [exact Hm15|]. fold i. rewrite grp_upd_cell, b_set_eq.
    change (upd_grp (upd_cell a i (Live e)) g (set_nth (grp a g) m (low_class hash)))
      with (upd_cell (upd_grp a g (set_nth (grp a g) m (low_class hash))) i (Live e)).
    assert (Shape k (upd_grp a g (set_nth (grp a g) m (low_class hash)))) as HS'.
    { apply shape_set_byte; auto. left. fold i. lia. }
    constructor.
    + apply shape_upd_cell. exact HS'.
    + exact E1.
    + rewrite <- E4. exact Hi.
    + rewrite <- E4. exact Ri.
    + rewrite cells_upd_cell, cells_upd_grp, E4. reflexivity.
    + intros j0. rewrite ctrl_upd_cell, (ctrl_set_byte k), E5 by assumption. reflexivity.
    + intros g0 j0 Hb. rewrite ovf_upd_cell, (ovf_set_byte k) by assumption. apply E6. exact Hb.
    + unfold i. rewrite slot_div by exact Hm15. exists j. split; [exact Hj|]. split.
      * unfold g. cbn [pstate pb_pos]. fold pos0. lia.
      * intros j' Hj'. rewrite ovf_upd_cell, (ovf_set_byte k) by assumption. apply Hmarks. exact Hj'.
Qed.

Lemma emplace_at_ok kd hash e k a n : hash < 2 ^ 64 -> Shape k a ->
  (exists i, (i < length (cells a))%nat /\ ctrl a i = 0) ->
  (forall i, (i < length (cells a))%nat -> ctrl a i = 0 -> nth_error (cells a) i = Some Raw) ->
  outcome (nosize_unchecked_emplace_at c kd (position hash (64 - k)) hash e a n)
    (fun l a' => (snd l < 15)%nat /\ Placed k hash e a a' (slot_index (fst l) (snd l)))
    (fun kd' a' => kd' = kd /\ raised kd /\ Shape k a' /\ Ext a a').
Proof.
  intros Hh HS Hf Hr. unfold nosize_unchecked_emplace_at. rewrite bind_get.
  pose proof (sh_k _ _ HS) as Hk. rewrite (sh_groups _ _ HS).
  pose proof (emplace_loop_ok kd hash e k a Hh Hf Hr (S (N.to_nat (2 ^ k))) 0 a n HS (Ext_refl a)) as L.
  unfold pb_init. unfold pstate in L. rewrite probe_pos_0 in L by (apply position_lt; [exact Hh|lia]).
  apply L.
  - pose proof (pow2_pos k). lia.
  - lia.
  - intros j' C. lia.
  - intros j' i C. lia.
Qed.

(** ** consequences for good arrays *)
Lemma reach_mono k (a a' : arrays) hash g : (forall g j, N.testbit (ovf a g) j = true -> N.testbit (ovf a' g) j = true) ->
  Reach k a hash g -> Reach k a' hash g.
Proof. intros H (j & H1 & H2 & H3). exists j. repeat split; auto. Qed.

Lemma good_ext h k a a' : GoodA c h k a -> Shape k a' -> Ext a a' -> GoodA c h k a'.
Proof.
  intros [HS HG] HS' (E1 & E2 & E3 & E4 & E5 & E6). split; [exact HS'|].
  intros i x Hi. rewrite E4 in Hi. pose proof (HG i x Hi) as Sx.
  destruct x as [| |e]; cbn [slot_ok] in *; [rewrite E5; exact Sx|exact Sx|].
  destruct Sx as [A B]. rewrite E5. split; [exact A|]. eapply reach_mono; eauto.
Qed.

Lemma good_placed h k a a' e i : GoodA c h k a -> Placed k (hash_of c h (fst e)) e a a' i ->
  GoodA c h k a' /\ Permutation (elems a') (e :: elems a).
Proof.
  intros [HS HG] P. destruct P. split.
  - split; [assumption|]. intros i' x Hx. rewrite pl_cells0 in Hx. rewrite set_nth_err in Hx by assumption.
    destruct (Nat.eqb_spec i' i) as [->|Hn].
    + injection Hx as <-. cbn [slot_ok]. rewrite pl_ctrl0, Nat.eqb_refl. auto.
    + pose proof (HG i' x Hx) as Sx. apply Nat.eqb_neq in Hn.
      destruct x as [| |e']; cbn [slot_ok] in *; [rewrite pl_ctrl0, Hn; exact Sx|exact Sx|].
      destruct Sx as [A B]. rewrite pl_ctrl0, Hn. split; [exact A|]. eapply reach_mono; eauto.
  - unfold elems at 1. rewrite pl_cells0. apply (elems_set_live a i e). assumption.
Qed.

Lemma good_free h k a : GoodA c h k a -> (length (elems a) < length (cells a))%nat ->
  exists i, (i < length (cells a))%nat /\ ctrl a i = 0.
Proof.
  intros [HS HG] Hlt.
  destruct (existsb (fun i => match nth_error (cells a) i with Some Raw => true | _ => false end) (seq 0 (length (cells a)))) eqn:Ex.
  - apply existsb_exists in Ex as (i & Hi & Hr). apply in_seq in Hi. exists i. split; [lia|].
    destruct (nth_error (cells a) i) as [[| |]|] eqn:Ei; try discriminate. apply (HG i Raw Ei).
  - exfalso. rewrite (elems_full a) in Hlt; [lia|]. intros i x Hi Hl.
    pose proof (HG i x Hi) as Sx. destruct x as [| |e]; cbn in *; [|exact Sx|discriminate].
    assert (existsb (fun i => match nth_error (cells a) i with Some Raw => true | _ => false end) (seq 0 (length (cells a))) = true) as C; [|congruence].
    apply existsb_exists. exists i. rewrite Hi. split; [|reflexivity]. apply in_seq.
    assert (i < length (cells a))%nat; [|lia]. apply nth_error_Some. congruence.
Qed.
Lemma good_raw h k a i : GoodA c h k a -> (i < length (cells a))%nat -> ctrl a i = 0 -> nth_error (cells a) i = Some Raw.
Proof.
  intros [HS HG] Hi Hc. destruct (nth_error (cells a) i) as [x|] eqn:E; [|apply nth_error_None in E; lia].
  pose proof (HG i x E) as Sx. destruct x as [| |e]; cbn in Sx; [reflexivity|destruct Sx|].
  destruct Sx as [A _]. pose proof (low_class_ge2 (hash_of c h (fst e))). lia.
Qed.

Lemma emplace_good kd h k a e n : GoodA c h k a -> (length (elems a) < length (cells a))%nat ->
  outcome (nosize_unchecked_emplace_at c kd (position (hash_of c h (fst e)) (64 - k)) (hash_of c h (fst e)) e a n)
    (fun l a' => (snd l < 15)%nat /\ Placed k (hash_of c h (fst e)) e a a' (slot_index (fst l) (snd l)) /\
                 GoodA c h k a' /\ Permutation (elems a') (e :: elems a))
    (fun kd' a' => kd' = kd /\ raised kd /\ GoodA c h k a' /\ Ext a a').
Proof.
  intros HG Hlt. eapply outcome_weaken.
  - apply emplace_at_ok.
    + apply hash_lt.
    + apply HG.
    + eapply good_free; eauto.
    + intros i. eapply good_raw; eauto.
  - intros l a' [H1 H2]. destruct (good_placed _ _ _ _ _ _ HG H2). auto.
  - intros kd' a' (H1 & H2 & H3 & H4). split; [exact H1|]. split; [exact H2|]. split; [eapply good_ext; eauto|exact H4].
Qed.

End Find.
