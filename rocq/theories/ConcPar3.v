(** Traversals with an execution policy: an element present throughout is visited once. *)
From Coq Require Import NArith Bool List Arith Lia Permutation.
From Verif Require Import FloatModel SizeModel SizeProofs GroupModel GroupSpec FoaModel FoaGroup FoaBase FoaFind FoaArr FoaInv FoaRehash FoaSpec FoaWorld FoaRun
  ConcSpec ConcModel ConcInv ConcStep ConcStep2 ConcStep3 ConcSys ConcSys2 ConcLin1 ConcLin2 ConcLin3 ConcVisit ConcProps ConcLog ConcProgress ConcPar ConcParModel ConcPar2.
From Verif Require ConcBulkModel ConcBulk ConcBulk2.
Import ListNotations.
Notation set_nth := FoaModel.set_nth.
Notation place := ConcBulkModel.place.

Section Par3.
Context {K V : Type} (c : Cfg K V).
Hypothesis HC : good_cfg c.
Notation Sh := (@Sh K V).
Notation pop := (pop K V). Notation cop := (cop K V). Notation loc := (@loc K V). Notation cres := (cres K V).
Notation conf := (@conf K V). Notation pc := (@pc K V).
Notation GInv := (GInv c). Notation CInv := (CInv c).
Notation event := (event K V).
Notation At := ConcModel.At.
Notation calls := (list ((K * V) * bool)).
Notation pcall := (@pcall K V). Notation pconf := (@pconf K V). Notation pevent := (@pevent K V).
Notation pstep := (pstep c). Notation visits := (visits c). Notation present := (present c).

(** calls of the function on the element in slot i, by job j *)
Definition own (i j : nat) : nat := if Nat.eqb (i / 15) j then 1%nat else 0%nat.
Definition JV (p : N) (q : K) (i j : nat) (l : loc) : Prop :=
  match l with
  | BGrp g acc => visits p q acc = if Nat.eqb g (S j) then own i j else 0%nat
  | BMask _ acc => visits p q acc = 0%nat
  | BElem _ ms acc | LMl _ _ (KB ms acc) | LReset _ _ (KB ms acc) | LDec _ (KB ms acc) => visits p q acc = if memb (i mod 15) ms then 0%nat else own i j
  | LUnl _ _ (RBulk acc _) | LDone (RBulk acc _) => (visits p q acc <= own i j)%nat
  | _ => True
  end.
Lemma jv_step k s vs t x md f j l free e l' a q i e0 : CInv k s vs -> nth_error vs t = Some (Some (Bulk x md f, l)) ->
  bstep free s (writes x md) md f l = Step e l' a -> nth_error (cells (A s)) i = Some (Live e0) -> keqf c (pid (tb s)) q (fst e0) = true ->
  JobOK j l -> running j l = true -> (j < N.to_nat (a_mask (arr (tb s)) + 1))%nat ->
  JV (pid (tb s)) q i j l -> JV (pid (tb s)) q i j l'.
Proof.
  intros [B U] Ht Hs Hi Hq J R Lj Hv. set (p := pid (tb s)) in *. destruct (cb_ti _ _ _ _ B _ _ _ Ht) as [W T]. pose proof (cb_fr _ _ _ _ B) as Fk. pose proof (fr_geo _ _ _ Fk) as G.
  pose proof (nth_error_Some_lt _ _ _ Hi) as Li. pose proof (cell_group c k s i Fk Li) as Gi.
  destruct l; cbn [JobOK running] in J, R; try contradiction; try discriminate R; cbn [ConcInv.TI wf] in W, T; try contradiction; cbn [bstep] in Hs; change (arr (tb s)) with (A s) in Hs.
  - destruct (get_group _ _); [|discriminate]. injection Hs as <- <- <-. destruct kt; exact Hv.
  - injection Hs as <- <- <-. destruct kt; exact Hv.
  - destruct kt; [discriminate|]. injection Hs as <- <- <-. exact Hv.
  - (* BGrp *) apply Nat.eqb_eq in R. subst g. destruct J as [J|[_ ->]]; [lia|]. destruct (a_elems (A s)) eqn:Ea.
    2:{ unfold cells in Li. rewrite Ea in Li. cbn in Li. lia. }
    destruct (Nat.eqb_spec j (N.to_nat (a_mask (A s) + 1))) as [E|E]; [change (arr (tb s)) with (A s) in Lj; lia|]. destruct (free j _); [|discriminate]. injection Hs as <- <- <-. reflexivity.
  - (* BMask *) destruct J as [-> ->]. destruct T as [T1 T2]. rewrite (geo_get k) in Hs by assumption. pose proof (geo_len _ _ _ G T1) as Lb. rewrite really_occupied_bits in Hs by exact Lb.
    injection Hs as <- <- <-. cbn [JV]. pose proof (fr_shape _ _ _ Fk T2) as HS. rewrite (ge_mask _ _ G). pose proof (pow_nat_pos k) as P2.
    replace (2 ^ k - 1 + 1)%N with (2 ^ k)%N by lia. change (visits p q []) with 0%nat. unfold own. destruct (Nat.eqb_spec (i / 15) j) as [E|E].
    2:{ destruct (memb _ _); reflexivity. }
    match goal with |- context [occ_bits ?b ?lst] => change (occ_bits b lst) with (occ_bits b (Nat.eqb (S j) (N.to_nat (2 ^ k)))) end.
    assert (memb (i mod 15) (occ_bits (grp (A s) j) (Nat.eqb (S j) (N.to_nat (2 ^ k)))) = true) as ->; [|reflexivity].
    apply memb_in, occ_in. pose proof (mod15 i). split; [assumption|]. destruct (cb_live _ _ _ _ B i e0 Hi) as [E1 _]. unfold ctrl in E1. rewrite E in E1. rewrite E1.
    split; [pose proof (low_class_ge2 (hash_of c (hid (tb s)) (fst e0))); lia|]. intros El. apply Nat.eqb_eq in El. rewrite (sh_cells _ _ HS) in Li.
    pose proof (Nat.div_mod i 15 ltac:(lia)). lia.
  - (* BElem *) subst g. destruct T as (T1 & T2 & T3 & T4). cbn [JV] in Hv. destruct ms as [|n ms].
    + injection Hs as <- <- <-. cbn [JV]. rewrite Nat.eqb_refl. exact Hv.
    + destruct (T4 n ltac:(now left)) as [Ln (e1 & E1)]. pose proof (fr_shape _ _ _ Fk T2) as HS. rewrite (get_cell_eq k) in Hs by exact HS. rewrite E1 in Hs.
      destruct (f (length acc) e1) as [v ob] eqn:Ef. inversion T3 as [|? ? Nin Nd]; subst.
      set (d := erases md ob) in *. set (acc' := acc ++ [(e1, d)]) in *.
      assert (visits p q acc' = if memb (i mod 15) ms then 0%nat else own i j) as Z.
      { unfold acc'. rewrite visits_snoc, Hv. cbn [memb existsb]. fold (memb (i mod 15) ms). destruct (Nat.eq_dec i (slot_index j n)) as [E|N].
        - assert (own i j = 1%nat) as Eo by (unfold own; rewrite E, slot_div, Nat.eqb_refl by exact Ln; reflexivity). assert ((i mod 15)%nat = n) as Em by (rewrite E; apply slot_mod, Ln). rewrite Em, Nat.eqb_refl. cbn [orb].
          assert (e1 = e0) as -> by congruence. unfold p in Hq |- *. rewrite Hq. destruct (memb n ms) eqn:En; [apply memb_in in En; contradiction|]. lia.
        - assert (keqf c p q (fst e1) = false) as Hn.
          { destruct (keqf c p q (fst e1)) eqn:E; [exfalso|reflexivity]. apply N. apply (cu_uniq _ _ _ _ U i (slot_index j n) (fst e0) (fst e1)); [left; eauto|left; eauto|].
            eapply equiv_same; [apply (cb_compat _ _ _ _ B)|exact Hq|exact E]. }
          rewrite Hn, Nat.add_0_r. unfold own. destruct (Nat.eqb_spec (i mod 15) n) as [Em|Em]; [|reflexivity].
          destruct (Nat.eqb_spec (i / 15) j) as [Eg|Eg]; [|cbn [orb]; destruct (memb (i mod 15) ms); reflexivity]. destruct N. unfold slot_index. pose proof (Nat.div_mod i 15 ltac:(lia)). lia. }
      assert (visits p q acc' <= own i j)%nat as Z1 by (rewrite Z; match goal with |- context [if ?b then _ else _] => destruct b end; lia).
      injection Hs as <- <- <-. destruct d; [exact Z|]. destruct ob as [b|]; [|exact Z1].
      destruct (goes_on md (Some b)); [exact Z|exact Z1].
  - destruct r; try contradiction. injection Hs as <- <- <-. exact Hv.
Qed.
(** an element present before and after a step of a thread stays in its slot while a thread is inside *)
Lemma same_slot C e C' t d o l q s s' i0 e0 i1 e1 : GInv C -> gstep c C e C' -> nth_error (th C) t = Some (At d o l) -> outside l = false ->
  box C d = Some s -> nth_error (cells (A s)) i0 = Some (Live e0) -> keqf c (pid (tb s)) q (fst e0) = true ->
  box C' d = Some s' -> nth_error (cells (A s')) i1 = Some (Live e1) -> keqf c (pid (tb s)) q (fst e1) = true -> i0 = i1.
Proof.
  intros G St Ht0 Hi0 Hb0 Hl0 Hq0 Hb1 Hl1 Hq1. destruct (gi_box _ _ G d s Hb0) as [k Hk]. pose proof Hk as [B U].
  assert (forall i2 e2, nth_error (cells (A s)) i2 = Some (Live e2) -> keqf c (pid (tb s)) q (fst e2) = true -> i0 = i2) as Un.
  { intros i2 e2 H2 Q2. apply (cu_uniq _ _ _ _ U i0 i2 (fst e0) (fst e2)); [left; eauto|left; eauto|]. eapply equiv_same; [apply (cb_compat _ _ _ _ B)|exact Hq0|exact Q2]. }
  assert (box C' d = box C d -> i0 = i1) as Same by (intros E; apply (Un i1 e1); [congruence|exact Hq1]).
  destruct St as [C t1 d1 o1 s1 Ht Hb|C t1 d1 o1 l1 s1 i thr e l' a s1' Ht Hb Hs Ha|C t1 d1 o1 s1 n t' n' cn Ht Hb Hal Hr Hc|
    C t1 d1 o1 s1 n kd t' n' cn Ht Hb Hal Hr Hc|C t1 d1 o1 r Ht|C t1 o1 Ht|C t1 o1 n r w bs Ht Hp He Hbk|C t1 r Ht]; try (apply Same; reflexivity).
  - rewrite (box_set (set_th C t1 (At d1 o1 l')) d1 s1' s1) in Hb1, Same by exact Hb. destruct (Nat.eqb_spec d d1) as [->|N]; [|apply Same; reflexivity].
    assert (s1 = s) as -> by congruence. injection Hb1 as ->. pose proof (proj2 (view_at C d1 t1 o1 l1) Ht) as Hv.
    pose proof (lin_ok c k s (views C d1) t1 o1 l1 (free_for C t1 d1) i thr Hk Hv) as X. rewrite Hs in X. cbn [lin_good] in X. destruct X as (_ & _ & X3). specialize (X3 s' Ha).
    apply (cu_uniq _ _ _ _ U i0 i1 (fst e0) (fst e1)); [left; eauto| |].
    + destruct (X3 i1 e1 Hl1) as [(e2 & E1 & E2)|(p2 & x2 & n2 & -> & -> & E1 & E2)]; [left; exists e2; auto|right; exists t1, p2, x2, n2; auto].
    + eapply equiv_same; [apply (cb_compat _ _ _ _ B)|exact Hq0|exact Hq1].
  - rewrite (box_set (set_th C t1 (At d1 o1 LEnter)) d1 _ s1) in Same by exact Hb. destruct (Nat.eqb_spec d d1) as [->|N]; [|apply Same; reflexivity].
    destruct (inside_not_out C t d1 o l Ht0 Hi0). exact (alone_out C t1 d1 o1 LFull Ht eq_refl Hal).
  - rewrite (box_set (set_th C t1 (At d1 o1 (LRet RThrew))) d1 _ s1) in Same by exact Hb. destruct (Nat.eqb_spec d d1) as [->|N]; [|apply Same; reflexivity].
    destruct (inside_not_out C t d1 o l Ht0 Hi0). exact (alone_out C t1 d1 o1 LFull Ht eq_refl Hal).
  - destruct (whole_cases c HC C o1 n r w bs G Hp He Hbk) as [_ Hw]. destruct (Hw d) as [(s2 & E1 & _ & E2)|(E & _)].
    + apply Same. unfold box at 1. cbn [boxes]. congruence.
    + destruct (inside_not_out C t d o l Ht0 Hi0 E).
Qed.

(** *** the sum over the jobs *)
Lemma visits_app p q (a b : calls) : visits p q (a ++ b) = (visits p q a + visits p q b)%nat.
Proof. unfold ConcVisit.visits. rewrite filter_app, app_length. reflexivity. Qed.
Lemma sum_le p q i0 (rs : list calls) : forall a, (forall j x, nth_error rs j = Some x -> (visits p q x <= if Nat.eqb i0 (a + j) then 1 else 0)%nat) ->
  (visits p q (concat rs) <= if Nat.leb a i0 then 1 else 0)%nat.
Proof.
  induction rs as [|r rs IH]; intros a H; [cbn; lia|]. cbn [concat]. rewrite visits_app. pose proof (H 0%nat r eq_refl) as H0. rewrite Nat.add_0_r in H0.
  assert (visits p q (concat rs) <= if Nat.leb (S a) i0 then 1 else 0)%nat as H1 by (apply IH; intros j x E; replace (S a + j)%nat with (a + S j)%nat by lia; apply H, E).
  destruct (Nat.eqb_spec i0 a), (Nat.leb_spec (S a) i0), (Nat.leb_spec a i0); lia.
Qed.
Lemma sum_ge p q (rs : list calls) j x : nth_error rs j = Some x -> (visits p q x <= visits p q (concat rs))%nat.
Proof. revert j. induction rs as [|r rs IH]; intros [|j] E; try discriminate; cbn [concat]; rewrite visits_app; [injection E as ->; lia|]. specialize (IH j E). lia. Qed.

(** *** the invariant *)
Definition PV (C : conf) (b : pcall) (p : N) (q : K) : Prop :=
  match p_st b with
  | PWaiting => True
  | PRun => forall s i e, box C (p_d b) = Some s -> nth_error (cells (A s)) i = Some (Live e) -> keqf c p q (fst e) = true -> forall j t l, job_at b C j t l -> JV p q i j l
  | POut r => forall rs, jobs_at b C (map out_of rs) -> (visits p q (concat (map fst rs)) <= 1)%nat /\ (r = true -> visits p q (concat (map fst rs)) = 1%nat)
  end.
Lemma get_cells (s : Sh) i e : get_cell (arr (tb s)) i = Some (Live e) -> nth_error (cells (A s)) i = Some (Live e).
Proof. unfold get_cell, cells, A. destruct (a_elems (arr (tb s))); [auto|discriminate]. Qed.
Lemma map_out (rs rs' : list (calls * bstat)) : map out_of rs = map (@out_of K V) rs' -> rs = rs'.
Proof. revert rs'. induction rs as [|r rs IH]; intros [|r' rs'] H; try discriminate; [reflexivity|]. cbn in H. injection H as H1 H2 H3. f_equal; [destruct r, r'; cbn in *; congruence|apply IH, H3]. Qed.
(** a step by which the jobs do not move *)
Lemma pv_other C e C' (b : pcall) p q : GInv C -> gstep c C e C' -> POK b C -> (forall t, In t (p_ts b) -> nth_error (th C') t = nth_error (th C) t) ->
  present C (p_d b) p q -> PV C b p q -> PV C' b p q.
Proof.
  intros G St Ok E Pr. unfold PV, POK in *. destruct (p_st b) as [| |r]; auto.
  - intros H s' i1 e1 Hb1 Hi1 Hq1 j t l [J1 J2]. rewrite E in J2 by (eapply nth_error_In; exact J1).
    destruct Pr as (s & i0 & e0 & Hb & Hp & Hi0 & Hq0). apply get_cells in Hi0. destruct Ok as (s0 & ls & Hb0 & _ & _ & Hls & Hok).
    pose proof (Hok j l (jobs_get _ _ _ _ _ _ Hls (conj J1 J2))) as Jl. subst p.
    rewrite <- (same_slot C e C' t (p_d b) _ l q s s' i0 e0 i1 e1 G St J2 (job_inside _ _ Jl) Hb Hi0 Hq0 Hb1 Hi1 Hq1).
    exact (H s i0 e0 Hb Hi0 Hq0 j t l (conj J1 J2)).
  - intros H rs Hj. apply H. eapply jobs_same; [|exact Hj]. intros t Ht. symmetry. apply E, Ht.
Qed.
Lemma pv_step PC a es PC' u b p q : GInv (pcf PC) -> PInv PC -> pstep PC a es PC' -> nth_error (pars PC) u = Some (Some b) -> present (pcf PC) (p_d b) p q ->
  PV (pcf PC) b p q -> (forall r rs, ~ In (PRet u r rs) es) -> exists b', nth_error (pars PC') u = Some (Some b') /\ p_d b' = p_d b /\ PV (pcf PC') b' p q.
Proof.
  intros G I St Hb Pr HV Nr. destruct (pi_ok _ I u b Hb) as [ND Ok].
  assert (forall u1 o, nth_error (pars PC) u1 <> None -> u1 <> u -> nth_error (set_nth (pars PC) u1 o) u = Some (Some b)) as Oth.
  { intros u1 o N1 N2. rewrite set_nth_err by (apply nth_error_Some; exact N1). destruct (Nat.eqb_spec u u1); [congruence|exact Hb]. }
  assert (forall o, nth_error (set_nth (pars PC) u o) u = Some o) as Self by (intros o; eapply self_err; exact Hb).
  assert (forall C', (forall t, In t (p_ts b) -> nth_error (th C') t = nth_error (th (pcf PC)) t) -> box C' (p_d b) = box (pcf PC) (p_d b) -> PV C' b p q) as Still.
  { intros C' E Eb. unfold PV in *. destruct (p_st b) as [| |r]; auto.
    - intros s i e. rewrite Eb. intros H1 H2 H3 j t l [J1 J2]. rewrite E in J2 by (eapply nth_error_In; exact J1). apply (HV s i e H1 H2 H3 j t l). split; assumption.
    - intros rs Hj. apply HV. eapply jobs_same; [|exact Hj]. intros t Ht. symmetry. apply E, Ht. }
  destruct St as
   [C B e C' H Ho|C B u1 d x m f s Hu Hbx|C B u1 b1 ts m Hu Hs Hm L NDt Hi|C B u1 b1 j t l e C' l' Hu Hs Hj Hr Hy Nt|C B u1 b1 ls rs Hu Hs Hj L Hend|C B u1 b1 r rs Hu Hs Hj]; cbn [pcf pars set_p] in *.
  - exists b. split; [exact Hb|]. split; [reflexivity|]. eapply pv_other; [exact G|exact H|exact Ok| |exact Pr|exact HV]. intros t Ht. apply Ho. exists u, b. auto.
  - exists b. split; [apply Oth; congruence|]. split; [reflexivity|exact HV].
  - destruct (Nat.eq_dec u1 u) as [->|N].
    2:{ exists b. split; [apply Oth; congruence|]. split; [reflexivity|]. apply Still; [|unfold box; rewrite ConcBulk.place_boxes; reflexivity].
      intros t Ht. apply ConcBulk.place_out. intros Ht'. destruct (pok_jobs b C Ok) as [ls Hls]. apply In_nth_error in Ht as [j Hj].
      assert (j < length (p_ts b))%nat as Lj by (apply nth_error_Some; congruence). destruct (nth_error ls j) as [l|] eqn:El; [|apply nth_error_None in El; destruct Hls as [Ll _]; lia].
      destruct (proj2 Hls j l El) as (t1 & T1 & T2). assert (t1 = t) by congruence. subst t1. rewrite (Hi t Ht') in T2. discriminate. }
    assert (b1 = b) as -> by congruence. eexists. split; [apply Self|]. split; [reflexivity|]. destruct Pr as (s & i0 & e0 & Hbx & Hp & Hi0 & Hq0).
    unfold groups_of in Hm. rewrite Hbx in Hm. unfold get_cell in Hi0. destruct (a_elems (arr (tb s))) as [el|]; [|discriminate]. injection Hm as <-.
    unfold PV. cbn [upd p_st p_d]. destruct (Nat.eqb_spec (N.to_nat (a_mask (arr (tb s)) + 1)) 0) as [Z|_]; [lia|].
    intros s1 i e _ _ _ j t l [J1 J2]. cbn [p_ts upd] in J1, J2. change (job (upd b ts PRun) j) with (job b j) in J2.
    assert (j < length ts)%nat as Lj by (apply nth_error_Some; congruence).
    rewrite (ConcBulk.place_in ts C _ j t (At (p_d b) (job b j) (BGrp j [])) NDt J1) in J2.
    + injection J2 as <-. cbn [JV]. destruct (Nat.eqb_spec j (S j)); [lia|]. reflexivity.
    + apply jobs_to_get. rewrite nth_error_map, seq_at by lia. reflexivity.
    + rewrite (Hi t) by (eapply nth_error_In; exact J1). discriminate.
  - pose proof (by_job_gstep c _ _ _ _ _ Hy) as Gs. destruct (Nat.eq_dec u1 u) as [->|N].
    2:{ exists b. split; [apply Oth; congruence|]. split; [reflexivity|]. eapply pv_other; [exact G|exact Gs|exact Ok| |exact Pr|exact HV].
      intros t' Ht'. eapply by_job_others; [exact Hy|]. intros ->. apply N. eapply (pi_disj _ I); [exact Hu|exact Hb| |exact Ht']. destruct Hj as [Z _]. eapply nth_error_In; exact Z. }
    assert (b1 = b) as -> by congruence. exists b. split; [apply Self|]. split; [reflexivity|]. unfold PV, POK in *. rewrite Hs in *.
    destruct Ok as (s0 & ls & Hb0 & Ne & Ll & Hls & Hok). pose proof (jobs_get _ _ _ _ _ _ Hls Hj) as Ej. pose proof (Hok _ _ Ej) as Jl.
    intros s' i1 e1 Hb1 Hi1 Hq1 j1 t1 l1 [J1 J2]. destruct Pr as (s & i0 & e0 & Hbx & Hp & Hi0 & Hq0). apply get_cells in Hi0. assert (s0 = s) as -> by congruence. subst p.
    rewrite <- (same_slot C e C' t (p_d b) _ l q s s' i0 e0 i1 e1 G Gs (proj2 Hj) (job_inside _ _ Jl) Hbx Hi0 Hq0 Hb1 Hi1 Hq1).
    destruct (Nat.eq_dec t1 t) as [->|Ntt].
    + assert (j1 = j) as -> by (destruct Hj as [Z _]; eapply NoDup_nth_error; [exact ND|apply nth_error_Some; congruence|congruence]).
      assert (j < length ls)%nat as Lj by (apply nth_error_Some; congruence). pose proof (HV s i0 e0 Hbx Hi0 Hq0 j t l Hj) as Vl.
      destruct Hj as [Z1 Z2]. destruct Hy as [d o l2 s2 ef l' a s2' Y1 Y2 Y3 Y4]. rewrite Z2 in Y1. injection Y1 as <- <- <-. assert (s2 = s) as -> by congruence.
      cbn [set_box set_th th] in J2. rewrite (self_err _ _ _ _ Z2) in J2. injection J2 as <-.
      destruct (gi_box _ _ G _ s Hbx) as [k Hk]. destruct Hls as [Lls _].
      eapply jv_step; [exact Hk|exact (proj2 (view_at C _ t _ l) Z2)|exact Y3|exact Hi0|exact Hq0|exact Jl|exact Hr|lia|exact Vl].
    + rewrite (by_job_others c _ _ _ _ _ Hy _ Ntt) in J2. apply (HV s i0 e0 Hbx Hi0 Hq0 j1 t1 l1). split; assumption.
  - destruct (Nat.eq_dec u1 u) as [->|N].
    2:{ exists b. split; [apply Oth; congruence|]. split; [reflexivity|]. apply Still; [|unfold box; rewrite ConcBulk.place_boxes; reflexivity].
      intros t' Ht'. apply ConcBulk.place_out. intros Ht2. apply N. eapply (pi_disj _ I); [exact Hu|exact Hb|exact Ht2|exact Ht']. }
    assert (b1 = b) as -> by congruence. eexists. split; [apply Self|]. split; [reflexivity|]. unfold PV, POK in HV, Ok |- *. rewrite Hs in HV, Ok. cbn [upd p_st].
    destruct Ok as (s0 & ls0 & Hb0 & Ne & Ll & Hls & Hok). pose proof (jobs_uniq _ _ _ _ Hj Hls) as <-. destruct Pr as (s & i0 & e0 & Hbx & Hp & Hi0 & Hq0). apply get_cells in Hi0. assert (s0 = s) as -> by congruence.
    intros rs0 Hj0. assert (rs0 = rs) as ->.
    { apply map_out. eapply jobs_uniq; [exact Hj0|]. apply (jobs_place b); [rewrite map_length; rewrite L; apply Hj|exact ND|eapply jobs_lt; exact Hj]. }
    assert (forall j r, nth_error rs j = Some r -> (visits p q (fst r) <= own i0 j)%nat /\ (existsb halted rs = false -> visits p q (fst r) = own i0 j)) as Each.
    { intros j r Er. assert (j < length ls)%nat as Lj by (rewrite <- L; apply nth_error_Some; congruence). destruct (nth_error ls j) as [l|] eqn:El; [|apply nth_error_None in El; lia].
      destruct (proj2 Hj j l El) as (t & T). pose proof (HV s i0 e0 Hbx Hi0 Hq0 j t l T) as Vl. pose proof (Hok j l El) as Jl. specialize (Hend j l r El Er).
      destruct l; cbn [ended] in Hend; try contradiction.
      - cbn [JV] in Vl. destruct Hend as [[-> ->]|(-> & St' & ->)]; cbn [fst].
        + rewrite Nat.eqb_refl in Vl. split; [lia|intros _; exact Vl].
        + destruct (Nat.eqb_spec j (S j)); [lia|]. split; [lia|]. intros Z. congruence.
      - destruct r0 as [| | | | | |acc st|]; try contradiction. destruct st; try contradiction. subst r. cbn [JV fst] in *. split; [exact Vl|]. intros Z.
        assert (existsb halted rs = true) as Z' by (apply existsb_exists; exists (acc, BHalted); split; [eapply nth_error_In; exact Er|reflexivity]). congruence. }
    split.
    + pose proof (sum_le p q (i0 / 15) (map fst rs) 0) as S. cbn [plus] in S. assert (visits p q (concat (map fst rs)) <= if Nat.leb 0 (i0 / 15) then 1 else 0)%nat as S'.
      { apply S. intros j x Ex. rewrite nth_error_map in Ex. destruct (nth_error rs j) as [r|] eqn:Er; [|discriminate]. injection Ex as <-. apply (Each j r Er). }
      exact S'.
    + intros Hr. apply negb_true_iff in Hr. destruct (gi_box _ _ G _ s Hbx) as [k [Bk _]]. pose proof (cb_fr _ _ _ _ Bk) as Fk.
      pose proof (cell_group c k s i0 Fk (nth_error_Some_lt _ _ _ Hi0)) as Gi.
      assert (i0 / 15 < length rs)%nat as Lj. { rewrite L. destruct Hls as [Z _]. rewrite Z, Ll. change (arr (tb s)) with (A s). rewrite (ge_mask _ _ (fr_geo _ _ _ Fk)). pose proof (pow_nat_pos k). lia. }
      destruct (nth_error rs (i0 / 15)) as [r|] eqn:Er; [|apply nth_error_None in Er; lia]. destruct (Each _ _ Er) as [_ E1]. specialize (E1 Hr). unfold own in E1. rewrite Nat.eqb_refl in E1.
      assert (nth_error (map fst rs) (i0 / 15) = Some (fst r)) as Em by (rewrite nth_error_map, Er; reflexivity). pose proof (sum_ge p q _ _ _ Em) as S.
      pose proof (sum_le p q (i0 / 15) (map fst rs) 0) as S2. cbn [plus] in S2. assert (visits p q (concat (map fst rs)) <= if Nat.leb 0 (i0 / 15) then 1 else 0)%nat as S'.
      { apply S2. intros j x Ex. rewrite nth_error_map in Ex. destruct (nth_error rs j) as [r'|] eqn:Er'; [|discriminate]. injection Ex as <-. apply (Each j r' Er'). }
      cbn [Nat.leb] in S'. lia.
  - destruct (Nat.eq_dec u1 u) as [->|N]; [destruct (Nr r (map fst rs)); now left|].
    exists b. split; [apply Oth; congruence|]. split; [reflexivity|]. apply Still; [|unfold box; rewrite ConcBulk.place_boxes; reflexivity].
    intros t' Ht'. apply ConcBulk.place_out. intros Ht2. apply N. eapply (pi_disj _ I); [exact Hu|exact Hb|exact Ht2|exact Ht'].
Qed.
End Par3.
