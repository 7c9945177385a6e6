(** Assignment, swap, merge, comparison, erase_if. *)
From Coq Require Import NArith ZArith Bool List Arith Lia ZifyBool ZifyNat ZifyN Permutation.
From Verif Require Import FloatModel SizeModel SizeProofs GroupModel GroupSpec FoaModel FoaGroup FoaBase FoaFind FoaArr FoaInv FoaRehash FoaOps FoaCopy.
Import ListNotations.
Local Open Scope N_scope.

Section Assign.
Context {K V : Type} (c : Cfg K V).
Notation arrays := (arrays K V).
Notation table := (table K V).
Notation cell := (cell K V).
Hypothesis HC : good_cfg c.

Lemma inv_sethp t h p : Inv c t -> elems (arr t) = [] -> compat c h p -> Inv c (set_hp t h p).
Proof.
  intros H Ee Hc. destruct H. constructor; cbn [set_hp arr hid pid aid ml sz]; auto.
  - destruct i_arr as [E | (k & [HS HG] & Hk)]; [left; exact E|right]. exists k. split; [|exact Hk]. split; [exact HS|].
    intros i x Hx. specialize (HG i x Hx). destruct x as [| |e]; cbn [slot_ok] in *; auto.
    exfalso. assert (In e (elems (arr t))) as I by (apply in_elems; eauto). rewrite Ee in I. destruct I.
  - rewrite Ee. constructor.
Qed.

(** the empty table without storage *)
Lemma inv_dummy h p al : compat c h p -> Inv c (Tab h p al (dummy_arrays al) (init_ml (dummy_arrays (K:=K) (V:=V) al)) 0).
Proof.
  intros Hc. constructor; cbn [arr hid pid aid ml sz]; try reflexivity; [exact Hc|left; reflexivity|constructor].
Qed.

(** ** copy assignment *)
Definition CopyFail (x t t' : table) : Prop :=
  Inv c t' /\ hid t' = hid x /\ pid t' = pid x /\ (aid t' = aid t \/ aid t' = aid x) /\
  exists rest, Permutation (elems (arr x)) (elems (arr t') ++ rest).

Lemma copy_assign_ok (x t : table) n : Inv c x -> Inv c t ->
  outcome (copy_assign c x t n)
    (fun _ t' => Inv c t' /\ hid t' = hid x /\ pid t' = pid x /\ aid t' = (if pocca c then aid x else aid t) /\
                 Permutation (elems (arr t')) (elems (arr x)))
    (fun kd t' => (kd = KAlloc \/ raised c kd) /\ CopyFail x t t').
Proof.
  intros Hx H. unfold copy_assign.
  eapply outcome_bind; [eapply outcome_weaken; [apply (clear_ok c t n (inv_w c t H))| |]|].
  { intros u t' X. exact X. } { intros kd t' []. }
  intros u t1 n1 (I1 & [A1 A2 A3] & Ee1 & Em1 & Es1 & Ec1). rewrite bind_modify.
  set (t2 := set_hp t1 (hid x) (pid x)).
  assert (Inv c t2) as I2 by (apply inv_sethp; auto; apply Hx).
  eapply outcome_bind with (Q' := fun _ t' => Inv c t' /\ hid t' = hid x /\ pid t' = pid x /\
     aid t' = (if pocca c then aid x else aid t) /\ elems (arr t') = [] /\ ml t' = init_ml (arr t')).
  - destruct (pocca c); [|cbn [ret outcome t2 set_hp hid pid aid arr ml]; repeat (split; [auto|]); auto].
    rewrite bind_get. change (aid t2) with (aid t1). destruct (N.eqb_spec (aid t1) (aid x)) as [Ea|Na]; cbn [negb].
    + rewrite bind_ret. cbn [modify outcome]. rewrite <- Ea. unfold t2.
      split; [|cbn [set_al set_hp hid pid aid arr ml]; repeat (split; [auto|]); auto].
      assert (set_al (set_hp t1 (hid x) (pid x)) (aid t1) = t2) as -> by reflexivity. exact I2.
    + destruct (small_ceil c HC (sz x) (inv_small c x Hx)) as [C1 C2].
      unfold ceil_div_mlf_ok. apply N.ltb_lt in C1 as C1b. rewrite C1b. cbn [negb]. rewrite bind_bind.
      eapply outcome_bind; [eapply outcome_weaken; [apply (new_arrays_ok c (aid x) _ t2 n1 HC C1 C2)| |]|].
      * intros a s' X. exact X.
      * intros kd s' (-> & -> & F). split; [now left|]. split; [exact I2|]. split; [reflexivity|]. split; [reflexivity|].
        split; [left; exact A3|]. unfold t2. cbn [set_hp arr]. rewrite Ee1. exists (elems (arr x)). reflexivity.
      * intros na t0 n2 (-> & X). rewrite bind_bind.
        destruct (pre_empty_raw c t2 (inv_pre c t2 I2) Ee1) as [_ Hraw].
        unfold bind at 1. rewrite delete_ok.
        2:{ destruct Hraw as [|Hraw]; [left; assumption|right]. split; [exact Hraw|apply (i_owner _ _ I2)]. }
        rewrite bind_modify. cbn [modify outcome].
        destruct X as [[_ ->] | (Hpos & k & Eg & Hk & Lt & FR)].
        -- split; [|cbn [set_al set_ml set_arr t2 set_hp hid pid aid arr ml]; repeat (split; [reflexivity|]); reflexivity].
           pose proof (inv_dummy (hid x) (pid x) (aid x) (i_compat _ _ Hx)) as D.
           unfold set_al, set_ml, set_arr, t2, set_hp. cbn [hid pid aid arr ml sz]. rewrite Es1. exact D.
        -- assert (set_al (set_ml (set_arr t2 na) (init_ml na)) (aid x) =
                   set_ml (set_arr (Tab (hid x) (pid x) (aid x) (dummy_arrays (aid x)) (init_ml (dummy_arrays (K:=K) (V:=V) (aid x))) 0) na) (init_ml na)) as ->.
           { unfold set_al, set_ml, set_arr, t2, set_hp. cbn [hid pid aid arr ml sz]. rewrite Es1. reflexivity. }
           split; [apply (fresh_inv c _ k); [apply inv_dummy; apply Hx|reflexivity|exact Hk|exact FR]|].
           cbn [set_ml set_arr hid pid aid arr ml]. repeat (split; [reflexivity|]). split; [eapply fresh_elems; eauto|reflexivity].
  - intros _ t3 n2 (I3 & B1 & B2 & B3 & Ee3 & Em3).
    assert (aid t3 = aid t \/ aid t3 = aid x) as B4 by (rewrite B3; destruct (pocca c); auto).
    eapply outcome_bind; [eapply outcome_weaken; [apply (noshrink_ok c HC t3 (sz x) n2 I3 Ee3 Em3 (inv_small c x Hx))| |]|].
    + intros u' t' X. exact X.
    + intros kd t' (-> & -> & F). split; [now left|]. split; [exact I3|]. split; [exact B1|]. split; [exact B2|]. split; [exact B4|].
      rewrite Ee3. exists (elems (arr x)). reflexivity.
    + intros _ t4 n3 (I4 & [D1 D2 D3] & Ee4 & Em4 & L4 & _).
      eapply outcome_weaken; [apply (copy_elements_ok c x t4 n3 Hx I4 Ee4); [congruence|congruence|exact L4]| |].
      * intros _ t5 (I5 & [E1 E2 E3] & P). split; [exact I5|]. split; [congruence|]. split; [congruence|]. split; [congruence|exact P].
      * intros kd t5 (Hk & R & [I5 [E1 E2 E3] Sub]). split; [now right|]. split; [exact I5|]. split; [congruence|]. split; [congruence|].
        split; [|exact Sub]. destruct B4; [left|right]; congruence.
Qed.

(** ** move assignment *)
Lemma move_assign_ok (t x : table) n : Inv c x -> Inv c t ->
  outcome (move_assign c (t, x) n)
    (fun _ s => Inv c (fst s) /\ hid (fst s) = hid x /\ pid (fst s) = pid x /\ aid (fst s) = (if pocma c then aid x else aid t) /\
                Permutation (elems (arr (fst s))) (elems (arr x)) /\
                Inv c (snd s) /\ hid (snd s) = hid t /\ pid (snd s) = pid t /\ aid (snd s) = aid x /\ elems (arr (snd s)) = [] /\
                (pocma c = true \/ aid t = aid x -> arr (fst s) = arr x))
    (fun kd s => pocma c = false /\ aid t <> aid x /\ Inv c (fst s) /\ hid (fst s) = hid x /\ pid (fst s) = pid x /\ aid (fst s) = aid t /\
                ((kd = KAlloc /\ elems (arr (fst s)) = [] /\ snd s = set_hp x (hid t) (pid t)) \/
                 (raised c kd /\ (exists rest, Permutation (elems (arr x)) (elems (arr (fst s)) ++ rest)) /\
                  Inv c (snd s) /\ hid (snd s) = hid t /\ pid (snd s) = pid t /\ aid (snd s) = aid x /\ elems (arr (snd s)) = []))).
Proof.
  intros Hx H. unfold move_assign.
  eapply outcome_bind with (Q' := fun _ s => exists t1, s = (t1, x) /\ Inv c t1 /\ Ids t t1 /\ elems (arr t1) = [] /\ ml t1 = init_ml (arr t1) /\ sz t1 = 0).
  { unfold on_fst. apply outcome_lens. cbn [fst snd]. eapply outcome_weaken; [apply (clear_ok c t n (inv_w c t H))| |auto].
    - intros u t1 (A & B & D & F & G & _). exists t1. auto 7.
    - intros kd t' []. }
  intros _ s n1 (t1 & -> & I1 & [A1 A2 A3] & Ee1 & Em1 & Es1). rewrite bind_get. cbn [fst snd].
  destruct (pre_empty_raw c t1 (inv_pre c t1 I1) Ee1) as [_ Hraw].
  destruct (pocma c || (aid t1 =? aid x)) eqn:Eb.
  - unfold new_arrays. rewrite N.eqb_refl, bind_ret. unfold swap_hp. rewrite bind_modify, bind_get. cbn [fst snd set_hp arr aid].
    unfold bind at 1. rewrite delete_ok.
    2:{ destruct Hraw as [|Hraw]; [left; assumption|right]. split; [exact Hraw|apply (i_owner _ _ I1)]. }
    rewrite !bind_modify. cbn [modify outcome fst snd set_al set_sz set_ml set_arr set_hp arr aid hid pid ml sz].
    assert ((if pocma c then aid x else aid t1) = aid x) as Eal.
    { destruct (pocma c); [reflexivity|]. cbn in Eb. apply N.eqb_eq. exact Eb. }
    rewrite Eal. split; [destruct x; exact Hx|]. split; [reflexivity|]. split; [reflexivity|].
    split; [rewrite <- A3; symmetry; exact Eal|]. split; [reflexivity|].
    split; [rewrite A1, A2; apply inv_dummy; apply H|]. do 4 (split; [auto|]). auto.
  - apply orb_false_iff in Eb as [Eb1 Eb2]. apply N.eqb_neq in Eb2. rewrite Eb1.
    unfold swap_hp. rewrite bind_modify, bind_get. cbn [fst snd set_hp sz].
    set (t2 := set_hp t1 (hid x) (pid x)). set (x2 := set_hp x (hid t1) (pid t1)).
    assert (Inv c t2) as I2 by (apply inv_sethp; auto; apply Hx).
    change (sz x2) with (sz x).
    unfold bind at 1, on_fst at 1, lens at 1. cbn [fst snd].
    pose proof (noshrink_ok c HC t2 (sz x) n1 I2 Ee1 Em1 (inv_small c x Hx)) as Y.
    destruct (noshrink_reserve c (sz x) t2 n1) as [u t3 n2|kd t3 n2|]; cbn [outcome] in Y; [| |destruct Y].
    + destruct Y as (I3 & [B1 B2 B3] & Ee3 & Em3 & L3 & _).
      assert (compat c (hid t1) (pid t1)) as Hcp by apply I1.
      eapply outcome_weaken; [apply (move_elements_hp_ok c t3 x (hid t1) (pid t1) n2 Hcp Hx I3 Ee3 B1 B2 L3)| |].
      * intros _ s (I & [D1 D2 D3] & P & Ix & [F1 F2 F3] & Ex). cbn [set_hp hid pid aid] in *. unfold t2 in *. cbn [set_hp hid pid aid] in *.
        split; [exact I|]. split; [congruence|]. split; [congruence|]. split; [congruence|]. split; [exact P|]. split; [exact Ix|].
        split; [congruence|]. split; [congruence|]. split; [congruence|]. split; [exact Ex|]. intros [C|C]; congruence.
      * intros kd s (Hk & R & [I [D1 D2 D3] Sub] & Ix & [F1 F2 F3] & Ex). cbn [set_hp hid pid aid] in *. unfold t2 in *. cbn [set_hp hid pid aid] in *.
        split; [reflexivity|]. split; [congruence|]. split; [exact I|]. split; [congruence|]. split; [congruence|]. split; [congruence|].
        right. split; [exact R|]. split; [exact Sub|]. split; [exact Ix|]. split; [congruence|]. split; [congruence|]. split; [congruence|exact Ex].
    + destruct Y as (-> & -> & F). cbn [outcome fst snd]. split; [reflexivity|]. split; [congruence|]. split; [exact I2|].
      split; [reflexivity|]. split; [reflexivity|]. split; [exact A3|]. left. split; [reflexivity|]. split; [exact Ee1|].
      unfold x2. congruence.
Qed.

(** ** swap *)
Lemma swap_ok (t x : table) n : Inv c x -> Inv c t -> pocs c = true \/ aid t = aid x ->
  outcome (swap_tables c (t, x) n) (fun _ s => s = (x, t)) (fun _ _ => False).
Proof.
  intros Hx H Hal. unfold swap_tables. rewrite bind_get. cbn [fst snd].
  destruct (pocs c) eqn:Ep.
  - rewrite bind_modify. unfold swap_hp. rewrite !bind_modify. cbn [modify outcome fst snd set_al set_hp set_arr set_ml set_sz hid pid aid arr ml sz].
    destruct t, x. reflexivity.
  - destruct Hal as [C|E]; [discriminate|]. apply N.eqb_eq in E as E'. rewrite E', bind_ret. unfold swap_hp. rewrite !bind_modify.
    cbn [modify outcome fst snd set_al set_hp set_arr set_ml set_sz hid pid aid arr ml sz].
    destruct t, x. cbn in E. subst. reflexivity.
Qed.
End Assign.
