(** Programs over several closed-addressing containers: every operation meets its specification, in every reachable state. *)
From Coq Require Import NArith ZArith Bool List Arith Lia Permutation.
From Verif Require Import FloatModel HashArithModel HashArithProofs FoaModel FoaGroup FoaBase FcaLinks FcaLinksProofs FcaModel FcaInv FcaIter FcaTab FcaRehash FcaOps FcaIns FcaIns2 FcaHandle FcaErase FcaErase2 FcaCopy FcaMove FcaMerge FcaQuery FcaEq FcaSpec FcaWorld FcaApi.
Import ListNotations.
Local Open Scope m_scope.
Local Open Scope nat_scope.

Section Run.
Context {K V : Type} (c : FCfg K V).
Notation node := (node K V).
Notation table := (FcaModel.table K V).
Notation cb := (base c).
Notation St := (table * heap)%type.
Notation St2 := ((table * table) * heap)%type.
Notation TInv := (TInv c). Notation raised := (raised c).
Notation SI := (SI c).
Notation mworld := (@mworld K V).
Notation el := (@el K V).
Notation spec := (FcaSpec.spec (V:=V) (keqf cb) (multi c) (leftover c) (pocca cb) (pocma cb)).
Implicit Types (t x : table) (y z : node) (w : mworld).

Definition cont (o : option table) : list node := match o with Some t => contents t | None => [] end.
Definition hnd (o : option node) : list node := match o with Some y => [y] | None => [] end.
Definition all w : list node := flat_map cont (tabs w) ++ flat_map hnd (hands w).
Definition slot_ok (o : option table) : Prop := match o with Some t => TInv t (contents t) | None => True end.
Record WI w : Prop := {
  wi_t : Forall slot_ok (tabs w);
  wi_ids : NoDup (map nd_id (all w));
  wi_next : Forall (fun y => nd_id y < next (hp w)) (all w);
  wi_live : live (hp w) = length (all w)
}.
Definition MLW w : Prop := Forall (fun o => match o with Some t => MLok t | None => True end) (tabs w).
Definition Good w o res w' : Prop := WI w' /\ spec (look_all w) o res (look_all w') /\ (no_new_arena c o w -> MLW w -> MLW w').

Lemma contents_eq t l : TInv t l -> contents t = l.
Proof. intros T. unfold contents. rewrite (elements_ok t l (ci_b _ _ _ (ti_c _ _ _ T)) (ci_ids _ _ _ (ti_c _ _ _ T)) (ti_size _ _ _ T)). reflexivity. Qed.
Lemma set_split {A} (l : list A) i a : nth_error l i = Some a -> exists l1 l2, l = l1 ++ a :: l2 /\ length l1 = i /\ forall b, FcaSpec.set l i b = l1 ++ b :: l2.
Proof.
  intros H. destruct (nth_error_split l i H) as (l1 & l2 & -> & L). exists l1, l2. split; [reflexivity|]. split; [exact L|]. intros b. unfold FcaSpec.set.
  subst i. rewrite firstn_app, firstn_all, Nat.sub_diag. cbn [firstn]. rewrite app_nil_r. f_equal. f_equal.
  replace (l1 ++ a :: l2) with ((l1 ++ [a]) ++ l2) by (rewrite <- app_assoc; reflexivity). replace (S (length l1)) with (length (l1 ++ [a])) by (rewrite app_length; cbn; lia). apply skipn_app_len.
Qed.
Lemma slot_err w i t : slot w i = Some t -> nth_error (tabs w) i = Some (Some t).
Proof. unfold slot. destruct (nth_error (tabs w) i) as [o|]; [intros ->; reflexivity|discriminate]. Qed.
Lemma perm_swap_mid {A} (l1 a l2 b : list A) : Permutation (l1 ++ (a ++ l2) ++ b) (a ++ (l1 ++ l2 ++ b)).
Proof. rewrite <- app_assoc. rewrite !app_assoc. do 2 apply Permutation_app_tail. apply Permutation_app_comm. Qed.

(** the rest of the world *)
Lemma parts1 w i t : WI w -> slot w i = Some t -> exists rest (w1 w2 : list (option table)), tabs w = w1 ++ Some t :: w2 /\ length w1 = i /\ Permutation (all w) (contents t ++ rest) /\ SI (length rest) (t, hp w) (contents t) /\
  (forall o h, tabs (put_tab w i o h) = w1 ++ o :: w2 /\ Permutation (all (put_tab w i o h)) (cont o ++ rest)) /\ (rest = flat_map cont w1 ++ flat_map cont w2 ++ flat_map hnd (hands w)).
Proof.
  intros H Hs. destruct (set_split _ _ _ (slot_err w i t Hs)) as (w1 & w2 & E & L & Se).
  exists (flat_map cont w1 ++ flat_map cont w2 ++ flat_map hnd (hands w)), w1, w2. split; [exact E|]. split; [exact L|].
  assert (Permutation (all w) (contents t ++ flat_map cont w1 ++ flat_map cont w2 ++ flat_map hnd (hands w))) as P.
  { unfold all. rewrite E, flat_map_app. cbn [flat_map cont]. rewrite <- app_assoc. apply perm_swap_mid. }
  split; [exact P|]. split; [|split; [|reflexivity]].
  - constructor; cbn [fst snd].
    + pose proof (wi_t _ H) as W. rewrite E in W. apply Forall_app in W as [_ W]. inversion W as [|? ? W0 _]; subst. exact W0.
    + rewrite (wi_live _ H). rewrite (Permutation_length P), app_length. reflexivity.
    + pose proof (wi_next _ H) as N. rewrite P in N. apply Forall_app in N as [N _]. exact N.
  - intros o h. cbn [tabs put_tab]. split; [apply Se|]. unfold all. cbn [tabs hands put_tab]. rewrite Se, flat_map_app. cbn [flat_map]. rewrite <- app_assoc. apply perm_swap_mid.
Qed.

(** old: the nodes replaced by new ones *)
Lemma WI_step w w' (old new rest : list node) : WI w -> Permutation (all w) (old ++ rest) -> Permutation (all w') (new ++ rest) -> NoDup (map nd_id new) ->
  Forall (fun y => In (nd_id y) (map nd_id old) \/ next (hp w) <= nd_id y) new -> Forall (fun y => nd_id y < next (hp w')) new -> next (hp w) <= next (hp w') -> live (hp w') = length new + length rest ->
  Forall slot_ok (tabs w') -> WI w'.
Proof.
  intros H P P' N I F L Lv T. pose proof (wi_ids _ H) as Nd. rewrite (Permutation_map nd_id P), map_app in Nd. pose proof (wi_next _ H) as Nx. rewrite P in Nx. apply Forall_app in Nx as [_ Nx].
  constructor; [exact T| | |rewrite Lv, (Permutation_length P'), app_length; reflexivity].
  - rewrite (Permutation_map nd_id P'), map_app. apply NoDup_app_intro; [exact N|eapply nodup_app_r; exact Nd|].
    intros a Ha Hb. apply in_map_iff in Ha as (y & <- & Hy). rewrite Forall_forall in I. destruct (I y Hy) as [C|C].
    + apply in_map_iff in C as (z & E & Hz). rewrite <- E in Hb. clear - Nd Hz Hb. induction old as [|a old IH]; [destruct Hz|]. cbn [map app] in Nd. inversion Nd as [|? ? N1 N2]; subst.
      destruct Hz as [->|Hz]; [apply N1, in_or_app; right; exact Hb|apply IH; assumption].
    + apply in_map_iff in Hb as (z & E & Hz). rewrite Forall_forall in Nx. specialize (Nx z Hz). lia.
  - rewrite P'. apply Forall_app. split; [exact F|]. eapply Forall_impl; [|exact Nx]. cbv beta. intros y Hy. lia.
Qed.
Lemma slot_mid (w1 : list (option table)) o (w2 : list (option table)) o' : Forall slot_ok (w1 ++ o :: w2) -> slot_ok o' -> Forall slot_ok (w1 ++ o' :: w2).
Proof. intros F H. apply Forall_app in F as [F1 F2]. inversion F2; subst. apply Forall_app. split; [exact F1|constructor; assumption]. Qed.
Lemma ml_mid (w1 : list (option table)) o (w2 : list (option table)) t : Forall (fun o : option table => match o with Some t => MLok t | None => True end) (w1 ++ o :: w2) -> MLok t -> Forall (fun o : option table => match o with Some t => MLok t | None => True end) (w1 ++ Some t :: w2).
Proof. intros F H. apply Forall_app in F as [F1 F2]. inversion F2; subst. apply Forall_app. split; [exact F1|constructor; assumption]. Qed.
Lemma ml_in w i t : MLW w -> slot w i = Some t -> MLok t.
Proof. intros M H. apply slot_err in H. unfold MLW in M. rewrite Forall_forall in M. apply (M (Some t)). eapply nth_error_In. exact H. Qed.
Lemma inv_in w i t : WI w -> slot w i = Some t -> TInv t (contents t).
Proof. intros M H. apply slot_err in H. pose proof (wi_t _ M) as F. rewrite Forall_forall in F. apply (F (Some t)). eapply nth_error_In. exact H. Qed.
Lemma slot_ok_inv t l : TInv t l -> slot_ok (Some t). Proof. intros T. cbn. rewrite (contents_eq t l T). exact T. Qed.

(** one container changes *)
Lemma WI_put1 w i t (rest : list node) h' t' l' (w1 w2 : list (option table)) : WI w -> slot w i = Some t -> tabs w = w1 ++ Some t :: w2 -> Permutation (all w) (contents t ++ rest) ->
  (forall o h, tabs (put_tab w i o h) = w1 ++ o :: w2 /\ Permutation (all (put_tab w i o h)) (cont o ++ rest)) ->
  SI (length rest) (t', h') l' -> Forall (fun y => In (nd_id y) (map nd_id (contents t)) \/ next (hp w) <= nd_id y) l' -> next (hp w) <= next h' -> WI (put_tab w i (Some t') h').
Proof.
  intros H Hs E P Q S' I L. destruct (Q (Some t') h') as [Et Pa]. cbn [cont] in Pa. pose proof (si_t _ _ _ _ S') as T'. cbn [fst] in T'. rewrite (contents_eq t' l' T') in Pa.
  apply (WI_step w _ (contents t) l' rest); auto.
  - apply (ci_ids _ _ _ (ti_c _ _ _ T')).
  - apply (si_next _ _ _ _ S').
  - apply (si_live _ _ _ _ S').
  - rewrite Et. apply (slot_mid w1 (Some t)); [rewrite <- E; apply (wi_t _ H)|eapply slot_ok_inv; exact T'].
Qed.

(** views *)
Lemma set_map {A B} (f : A -> B) (l : list A) i a : map f (FcaSpec.set l i a) = FcaSpec.set (map f l) i (f a).
Proof. unfold FcaSpec.set. rewrite map_app, firstn_map. cbn [map]. rewrite skipn_map. reflexivity. Qed.
Lemma look_at w i t : slot w i = Some t -> is_at (look_all w) i (look t).
Proof. intros H. unfold is_at, look_all. cbn [containers]. rewrite nth_error_map, (slot_err w i t H). reflexivity. Qed.
Lemma look_inv t l : TInv t l -> look t = View (f_hid t) (f_pid t) (f_al t) (map el l). Proof. intros T. unfold look. rewrite (contents_eq t l T). reflexivity. Qed.
Lemma look_put w i t' h : look_all (put_tab w i (Some t') h) = put (look_all w) i (look t').
Proof. unfold look_all, put, put_tab. cbn [tabs hands containers handles]. rewrite set_map. reflexivity. Qed.
Lemma set_same {A} (l : list A) i a : nth_error l i = Some a -> FcaSpec.set l i a = l.
Proof. intros H. destruct (set_split l i a H) as (l1 & l2 & E & _ & S). rewrite S. symmetry. exact E. Qed.
Lemma put_same (v : world K V) i q : is_at v i q -> put v i q = v.
Proof. intros H. unfold put. rewrite set_same by exact H. destruct v. reflexivity. Qed.
Lemma put_tab_slot w i t h : slot w i = Some t -> hp w = h -> put_tab w i (Some t) h = w.
Proof. intros H <-. unfold put_tab. rewrite set_same by (apply slot_err; exact H). destruct w. reflexivity. Qed.

Lemma run1_ok {A B} i (m : M St A) (f : A -> M mworld B) w t n Q1 E1 Q (E : kind -> mworld -> Prop) : slot w i = Some t -> outcome (m (t, hp w) n) Q1 E1 ->
  (forall kd s', E1 kd s' -> E kd (put_tab w i (Some (fst s')) (snd s'))) ->
  (forall a s' n', Q1 a s' -> outcome (f a (put_tab w i (Some (fst s')) (snd s')) n') Q E) ->
  outcome (bind (run1 i m) f w n) Q E.
Proof.
  intros Hs Hm HE HQ. unfold bind, run1. rewrite Hs. destruct (m (t, hp w) n) as [a s' n'|kd s' n'|]; cbn [outcome] in *; [apply HQ; exact Hm|apply HE; exact Hm|exact Hm].
Qed.
Lemma run1_eq {A} i (m : M St A) w n : run1 i m w n = bind (run1 i m) (fun a => ret a) w n.
Proof. symmetry. apply bind_ret_r. Qed.

Lemma p1_good w i t o res s' (rest : list node) (w1 w2 : list (option table)) : WI w -> slot w i = Some t -> tabs w = w1 ++ Some t :: w2 -> Permutation (all w) (contents t ++ rest) ->
  (forall o h, tabs (put_tab w i o h) = w1 ++ o :: w2 /\ Permutation (all (put_tab w i o h)) (cont o ++ rest)) ->
  P1 c (length rest) (t, hp w) (contents t) o res s' -> Good w (On i o) res (put_tab w i (Some (fst s')) (snd s')).
Proof.
  intros H Hs E P Q (l' & X). destruct s' as [t' h']. destruct X as [S' Ids Nx Eh Ep Ea Ml Sp]. cbn [fst snd] in *. pose proof (si_t _ _ _ _ S') as T'. cbn [fst] in T'. split; [|split].
  - eapply WI_put1; eassumption.
  - cbn [FcaSpec.spec]. exists (look t), (map el l'). split; [apply look_at; exact Hs|]. split; [exact Sp|]. rewrite look_put. f_equal. rewrite (look_inv t' l' T'). unfold with_elems, look. cbn [v_hash v_pred v_alloc]. congruence.
  - intros _ M. unfold MLW. rewrite (proj1 (Q _ _)). apply (ml_mid w1 (Some t)); [rewrite <- E; exact M|]. apply Ml. eapply ml_in; eassumption.
Qed.

(** a new container *)
Lemma WI_push w t h' l : WI w -> SI (length (all w)) (t, h') l -> Forall (fun y => next (hp w) <= nd_id y) l -> next (hp w) <= next h' -> WI (MW (tabs w ++ [Some t]) (hands w) h').
Proof.
  intros H S' F L. pose proof (si_t _ _ _ _ S') as T'. cbn [fst] in T'. apply (WI_step w _ [] l (all w)); auto.
  - unfold all. cbn [tabs hands]. rewrite flat_map_app. cbn [flat_map cont]. rewrite app_nil_r, (contents_eq t l T'). rewrite <- app_assoc. rewrite !app_assoc. apply Permutation_app_tail. apply Permutation_app_comm.
  - apply (ci_ids _ _ _ (ti_c _ _ _ T')).
  - eapply Forall_impl; [|exact F]. cbv beta. auto.
  - apply (si_next _ _ _ _ S').
  - apply (si_live _ _ _ _ S').
  - cbn [tabs]. apply Forall_app. split; [apply (wi_t _ H)|constructor; [eapply slot_ok_inv; exact T'|constructor]].
Qed.
Lemma look_push w t h : look_all (MW (tabs w ++ [Some t]) (hands w) h) = new (look_all w) (look t).
Proof. unfold look_all, new. cbn [tabs hands containers handles]. rewrite map_app. reflexivity. Qed.
Lemma WI_heap w h' : WI w -> live h' = live (hp w) -> next (hp w) <= next h' -> WI (MW (tabs w) (hands w) h').
Proof.
  intros H L N. constructor; cbn [tabs hands hp]; [apply H|apply H| |unfold all; cbn [tabs hands]; rewrite L; apply H].
  unfold all. cbn [tabs hands]. eapply Forall_impl; [|apply (wi_next _ H)]. cbv beta. intros y Hy. lia.
Qed.
Lemma run0_ok {A B} (m : M heap A) (f : A -> M mworld B) w n Q1 E1 Q (E : kind -> mworld -> Prop) : outcome (m (hp w) n) Q1 E1 ->
  (forall kd h', E1 kd h' -> E kd (MW (tabs w) (hands w) h')) -> (forall a h' n', Q1 a h' -> outcome (f a (MW (tabs w) (hands w) h') n') Q E) -> outcome (bind (run0 m) f w n) Q E.
Proof.
  intros Hm HE HQ. unfold bind, run0. destruct (m (hp w) n) as [a s' n'|kd s' n'|]; cbn [outcome] in *; [apply HQ; exact Hm|apply HE; exact Hm|exact Hm].
Qed.
Lemma new_good w t h' hid pid al mlf es : WI w -> NewPost c (hp w) hid pid al mlf es t h' -> WI (MW (tabs w ++ [Some t]) (hands w) h') /\ (MLW w -> MLW (MW (tabs w ++ [Some t]) (hands w) h')) /\
  exists l, Permutation (map snd l) es /\ look t = View hid pid al l.
Proof.
  intros H (l & S' & P & F & L & M & A & B & D & _). split; [|split].
  - apply (WI_push w t h' l H); [rewrite <- (wi_live _ H); exact S'|exact F|exact L].
  - intros Mw. unfold MLW. cbn [tabs]. apply Forall_app. split; [exact Mw|repeat constructor; exact M].
  - exists (map el l). rewrite kv_el. split; [exact P|]. pose proof (si_t _ _ _ _ S') as T'. cbn [fst] in T'. rewrite (look_inv t l T'). congruence.
Qed.

(** two containers *)
Lemma run2_ok {A B} i j (m : M St2 A) (f : A -> M mworld B) w t x n Q1 E1 Q (E : kind -> mworld -> Prop) : slot w i = Some t -> slot w j = Some x -> i <> j -> outcome (m ((t, x), hp w) n) Q1 E1 ->
  (forall kd s', E1 kd s' -> E kd (put_tab (put_tab w i (Some (fst (fst s'))) (snd s')) j (Some (snd (fst s'))) (snd s'))) ->
  (forall a s' n', Q1 a s' -> outcome (f a (put_tab (put_tab w i (Some (fst (fst s'))) (snd s')) j (Some (snd (fst s'))) (snd s')) n') Q E) ->
  outcome (bind (run2 i j m) f w n) Q E.
Proof.
  intros Hi Hj Nij Hm HE HQ. unfold bind, run2. rewrite Hi, Hj. rewrite (proj2 (Nat.eqb_neq i j) Nij).
  destruct (m ((t, x), hp w) n) as [a s' n'|kd s' n'|]; cbn [outcome] in *; [apply HQ; exact Hm|apply HE; exact Hm|exact Hm].
Qed.
Lemma nth_app_mid {A} (l1 : list A) a l2 j : nth_error (l1 ++ a :: l2) j = if j <? length l1 then nth_error l1 j else if j =? length l1 then Some a else nth_error l2 (j - S (length l1)).
Proof.
  destruct (Nat.ltb_spec j (length l1)) as [L|L]; [apply nth_error_app1; exact L|]. rewrite nth_error_app2 by exact L. destruct (Nat.eqb_spec j (length l1)) as [->|N]; [rewrite Nat.sub_diag; reflexivity|].
  replace (j - length l1) with (S (j - S (length l1))) by lia. reflexivity.
Qed.
Lemma put_slot w i o h j t : slot w i = Some t -> slot (put_tab w i o h) j = if j =? i then o else slot w j.
Proof.
  intros H. destruct (set_split _ _ _ (slot_err w i t H)) as (w1 & w2 & E & L & Se). unfold slot, put_tab. cbn [tabs]. rewrite Se, E, !nth_app_mid, L.
  destruct (Nat.eqb_spec j i) as [->|N]; [rewrite Nat.ltb_irrefl; reflexivity|]. destruct (j <? i); reflexivity.
Qed.
Lemma parts2 w i j t x : WI w -> slot w i = Some t -> slot w j = Some x -> i <> j -> exists rest, Permutation (all w) ((contents t ++ contents x) ++ rest) /\ SI2 c (length rest) ((t, x), hp w) (contents t) (contents x) /\
  (forall o o' h h', Permutation (all (put_tab (put_tab w i o h) j o' h')) ((cont o ++ cont o') ++ rest)) /\
  (forall o o' h h', slot_ok o -> slot_ok o' -> Forall slot_ok (tabs (put_tab (put_tab w i o h) j o' h'))) /\
  (forall t' x' h h', MLW w -> MLok t' -> MLok x' -> MLW (put_tab (put_tab w i (Some t') h) j (Some x') h')).
Proof.
  intros H Hi Hj Nij. destruct (parts1 w i t H Hi) as (rest1 & w1 & w2 & E & Li & P & S1 & Q & R).
  destruct (parts1 w j x H Hj) as (rest2 & u1 & u2 & E' & Lj & P' & S2 & Q' & R').
  (* remove x from rest1 *)
  assert (exists rest, Permutation rest1 (contents x ++ rest) /\ forall o o' h h', Permutation (all (put_tab (put_tab w i o h) j o' h')) (cont o ++ cont o' ++ rest)) as (rest & Pr & Pa).
  {
    assert (forall o h, nth_error (tabs (put_tab w i o h)) j = Some (Some x)) as Nj.
    { intros o h. apply slot_err. rewrite (put_slot w i o h j t Hi). destruct (Nat.eqb_spec j i); [congruence|exact Hj]. }
    assert (Permutation (flat_map cont w1 ++ flat_map cont w2) (contents x ++ (flat_map cont (firstn (if j <? i then j else j - 1) (w1 ++ w2)) ++ flat_map cont (skipn (S (if j <? i then j else j - 1)) (w1 ++ w2))))) as PX.
    { rewrite <- flat_map_app. set (q := if j <? i then j else j - 1).
      assert (nth_error (w1 ++ w2) q = Some (Some x)) as Nq.
      { pose proof (slot_err w j x Hj) as Nj0. rewrite E, nth_app_mid, Li in Nj0. unfold q. destruct (Nat.ltb_spec j i) as [L|L].
        - rewrite nth_error_app1 by lia. exact Nj0.
        - destruct (Nat.eqb_spec j i); [congruence|]. rewrite nth_error_app2 by lia. replace (j - 1 - length w1) with (j - S i) by lia. exact Nj0. }
      destruct (set_split _ _ _ Nq) as (a1 & a2 & Ea & La & _). clearbody q. subst q. rewrite Ea, flat_map_app. cbn [flat_map cont].
      rewrite firstn_app, firstn_all, Nat.sub_diag. cbn [firstn]. rewrite app_nil_r.
      replace (skipn (S (length a1)) (a1 ++ Some x :: a2)) with a2.
      - rewrite !app_assoc. apply Permutation_app_tail. apply Permutation_app_comm.
      - symmetry. replace (a1 ++ Some x :: a2) with ((a1 ++ [Some x]) ++ a2) by (rewrite <- app_assoc; reflexivity). replace (S (length a1)) with (length (a1 ++ [Some x])) by (rewrite app_length; cbn; lia). apply skipn_app_len. }
    exists ((flat_map cont (firstn (if j <? i then j else j - 1) (w1 ++ w2)) ++ flat_map cont (skipn (S (if j <? i then j else j - 1)) (w1 ++ w2))) ++ flat_map hnd (hands w)).
    split. { rewrite R. rewrite app_assoc, PX, <- app_assoc. reflexivity. }
    intros o o' h h'. unfold all. cbn [put_tab tabs hands]. destruct (set_split _ _ _ (Nj o h)) as (v1 & v2 & Ev & Lv & Sv). cbn [put_tab tabs] in Ev, Sv. rewrite Sv. rewrite app_assoc, app_assoc. apply Permutation_app_tail.
    assert (FcaSpec.set (tabs w) i o = w1 ++ o :: w2) as Ei by (apply (Q o h)).
    assert (Permutation (contents x ++ (flat_map cont v1 ++ flat_map cont v2)) (contents x ++ cont o ++ (flat_map cont (firstn (if j <? i then j else j - 1) (w1 ++ w2)) ++ flat_map cont (skipn (S (if j <? i then j else j - 1)) (w1 ++ w2))))) as PY.
    { transitivity (flat_map cont (v1 ++ Some x :: v2)); [rewrite flat_map_app; cbn [flat_map cont]; rewrite !app_assoc; apply Permutation_app_tail, Permutation_app_comm|].
      rewrite <- Ev, Ei, flat_map_app. cbn [flat_map]. transitivity (cont o ++ (flat_map cont w1 ++ flat_map cont w2)); [rewrite !app_assoc; apply Permutation_app_tail, Permutation_app_comm|].
      rewrite PX, !app_assoc. do 2 apply Permutation_app_tail. apply Permutation_app_comm. }
    apply Permutation_app_inv_l in PY. rewrite flat_map_app. cbn [flat_map].
    transitivity (cont o' ++ (flat_map cont v1 ++ flat_map cont v2)); [rewrite !app_assoc; apply Permutation_app_tail, Permutation_app_comm|]. rewrite PY, !app_assoc. do 2 apply Permutation_app_tail. apply Permutation_app_comm. }
  exists rest. rewrite Pr in P. split; [rewrite <- app_assoc; exact P|]. split.
  { apply SI2_intro; [apply (inv_in w i); assumption|apply (inv_in w j); assumption| |apply (si_next _ _ _ _ S1)|apply (si_next _ _ _ _ S2)].
    rewrite (wi_live _ H), (Permutation_length P), !app_length. lia. }
  split; [intros o o' h h'; rewrite <- app_assoc; apply Pa|].
  assert (forall (G : option table -> Prop) o o' h h', Forall G (tabs w) -> G o -> G o' -> Forall G (tabs (put_tab (put_tab w i o h) j o' h'))) as FG.
  { intros G o o' h h' F Go Go'. assert (nth_error (tabs (put_tab w i o h)) j = Some (Some x)) as Nj.
    { apply slot_err. rewrite (put_slot w i o h j t Hi). destruct (Nat.eqb_spec j i); [congruence|exact Hj]. }
    destruct (set_split _ _ _ Nj) as (v1 & v2 & Ev & Lv & Sv). unfold put_tab at 1. cbn [tabs]. cbn [put_tab tabs] in Ev, Sv. rewrite Sv.
    assert (Forall G (FcaSpec.set (tabs w) i o)) as F1.
    { destruct (Q o h) as [Et _]. cbn [put_tab tabs] in Et. rewrite Et. rewrite E in F. apply Forall_app in F as [Fa Fb]. inversion Fb; subst. apply Forall_app. split; [exact Fa|constructor; assumption]. }
    rewrite Ev in F1. apply Forall_app in F1 as [Fa Fb]. inversion Fb; subst. apply Forall_app. split; [exact Fa|constructor; assumption]. }
  split.
  - intros o o' h h' Go Go'. apply FG; [apply (wi_t _ H)|exact Go|exact Go'].
  - intros t' x' h h' Mw Mt Mx. unfold MLW. apply FG; assumption.
Qed.
Lemma look_put2 w i j t' x' h h' : look_all (put_tab (put_tab w i (Some t') h) j (Some x') h') = put (put (look_all w) i (look t')) j (look x').
Proof. rewrite look_put, look_put. reflexivity. Qed.
Lemma WI_put2 w i j t x rest t' x' h' l' lx' : WI w -> slot w i = Some t -> slot w j = Some x -> Permutation (all w) ((contents t ++ contents x) ++ rest) ->
  (forall o o' h h', Permutation (all (put_tab (put_tab w i o h) j o' h')) ((cont o ++ cont o') ++ rest)) ->
  (forall o o' h h', slot_ok o -> slot_ok o' -> Forall slot_ok (tabs (put_tab (put_tab w i o h) j o' h'))) ->
  SI2 c (length rest) ((t', x'), h') l' lx' -> NoDup (map nd_id (l' ++ lx')) -> Forall (fun y => In (nd_id y) (map nd_id (contents t ++ contents x)) \/ next (hp w) <= nd_id y) (l' ++ lx') -> next (hp w) <= next h' ->
  WI (put_tab (put_tab w i (Some t') h') j (Some x') h').
Proof.
  intros H Hi Hj P Pa Ta S' N I L. destruct (SI2_parts c _ _ _ _ _ _ S') as (T1 & T2 & Lv & F1 & F2).
  apply (WI_step w _ (contents t ++ contents x) (l' ++ lx') rest); auto.
  - specialize (Pa (Some t') (Some x') h' h'). cbn [cont] in Pa. rewrite (contents_eq t' l' T1), (contents_eq x' lx' T2) in Pa. exact Pa.
  - apply Forall_app. split; assumption.
  - cbn [put_tab hp]. rewrite app_length. lia.
  - apply Ta; eapply slot_ok_inv; eassumption.
Qed.
Lemma ids_old {b} (old new : list node) : incl new old -> Forall (fun y => In (nd_id y) (map nd_id old) \/ b <= nd_id y) new.
Proof. intros I. apply Forall_forall. intros y Hy. left. apply in_map. apply I. exact Hy. Qed.

Lemma map_left (l : list node) : map nd_id (map (left_of c) l) = map nd_id l. Proof. rewrite map_map. reflexivity. Qed.
Lemma el_left (l : list node) : map el (map (left_of c) l) = map (FcaSpec.moved_from (leftover c)) (map el l). Proof. rewrite !map_map. reflexivity. Qed.
Lemma nodup_old_new b (l1 l2 : list node) : NoDup (map nd_id l1) -> NoDup (map nd_id l2) -> Forall (fun y => b <= nd_id y) l1 -> Forall (fun y => nd_id y < b) l2 -> NoDup (map nd_id (l1 ++ l2)).
Proof.
  intros A B F G. rewrite map_app. apply NoDup_app_intro; [exact A|exact B|]. intros a Ha Hb. apply in_map_iff in Ha as (y & <- & Hy). apply in_map_iff in Hb as (z & E & Hz).
  rewrite Forall_forall in F, G. specialize (F y Hy). specialize (G z Hz). lia.
Qed.
Lemma world_ids2 w i j t x rest : WI w -> Permutation (all w) ((contents t ++ contents x) ++ rest) -> slot w i = Some t -> slot w j = Some x -> NoDup (map nd_id (contents t ++ contents x)).
Proof. intros H P _ _. pose proof (wi_ids _ H) as N. rewrite (Permutation_map nd_id P), map_app in N. eapply nodup_app_l. exact N. Qed.
End Run.
