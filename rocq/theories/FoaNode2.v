(** Node handles: programs. *)
From Coq Require Import NArith ZArith Bool List Arith Lia ZifyBool ZifyNat ZifyN Permutation.
From Verif Require Import FloatModel SizeModel SizeProofs GroupModel GroupSpec FoaModel FoaGroup FoaBase FoaFind FoaArr FoaInv FoaRehash FoaOps FoaCopy FoaAssign FoaMerge FoaIterModel FoaIter FoaSpec FoaWorld FoaApi FoaRun NodeSpec NodeFacts FoaNodeModel FoaNode.
Import ListNotations.
Local Open Scope N_scope.

Section Node.
Context {K V : Type} (c : Cfg K (node V)).
Hypothesis HC : good_cfg c.
Hypothesis HN : node_cfg c.
Notation elem := (K * node V)%type.
Notation table := (table K (node V)).
Notation handle := (handle K V).
Notation nworld := (nworld K V).
Notation lookup := (FoaSpec.lookup (V:=node V) (keqf c)).
Notation outcome := FoaBase.outcome.
Notation nspec := (nspec (K:=K) (V:=V) (keqf c) (moves c)).

(** a handle that owns a node has a live allocator object, equal to the allocator of the node *)
Definition HOk (h : handle) : Prop := match h_p h with Some e => h_al h = Some (n_owner (snd e)) | None => True end.
Record NI3 (w : nworld) : Prop := {
  n3_w : WInv c (boxes w); n3_own : VOwn (look_all c (boxes w)); n3_hand : forall j h, hand w j = Some h -> HOk h }.
Definition NInv (w : nworld) : Prop := NI3 w /\ NoDup (addresses (nlook c w)).

Lemma hand_err (w : nworld) j h : hand w j = Some h -> nth_error (hands w) j = Some (Some h) /\ (j < length (hands w))%nat /\ nth_error (snd (nlook c w)) j = Some (Some (h_p h)).
Proof.
  unfold hand. destruct (nth_error (hands w) j) as [o|] eqn:E; [|discriminate]. intros ->. split; [reflexivity|]. split.
  - apply nth_error_Some. congruence.
  - cbn [nlook snd]. rewrite nth_error_map, E. reflexivity.
Qed.
Lemma hand_set_iff b g (hs : list (option handle)) j x k : (j < length hs)%nat -> hand (NW b (set hs j x) g) k = if Nat.eqb k j then x else hand (NW b hs g) k.
Proof. intros L. unfold hand. cbn [hands]. rewrite set_err by exact L. destruct (Nat.eqb k j); reflexivity. Qed.
Lemma hand_push_iff b g (hs : list (option handle)) x k h : hand (NW b (hs ++ [Some x]) g) k = Some h -> hand (NW b hs g) k = Some h \/ h = x.
Proof.
  unfold hand. cbn [hands]. destruct (Nat.lt_ge_cases k (length hs)) as [L|L].
  - rewrite nth_error_app1 by exact L. auto.
  - rewrite nth_error_app2 by exact L. destruct (k - length hs)%nat as [|d]; cbn; [intros [= ->]; auto|]. destruct d; discriminate.
Qed.
Definition HandsOk (hs : list (option handle)) : Prop := forall j h, hand (NW [] hs []) j = Some h -> HOk h.
Lemma hands_set hs j x : HandsOk hs -> (j < length hs)%nat -> match x with Some h => HOk h | None => True end -> HandsOk (set hs j x).
Proof. intros H L X k h. rewrite hand_set_iff by exact L. destruct (Nat.eqb k j); [intros ->; exact X|apply H]. Qed.
Lemma hands_push hs x : HandsOk hs -> HOk x -> HandsOk (hs ++ [Some x]).
Proof. intros H X k h Hk. apply hand_push_iff in Hk as [Hk| ->]; [eapply H; eauto|exact X]. Qed.
Lemma hands_of (w : nworld) : NI3 w -> HandsOk (hands w).
Proof. intros H j h Hj. eapply (n3_hand w H j). exact Hj. Qed.
Lemma ni3 b hs g : WInv c b -> VOwn (look_all c b) -> HandsOk hs -> NI3 (NW b hs g).
Proof. intros A B D. constructor; auto. Qed.

(** the member functions of handles *)
Lemma take_ok (h nh : handle) e : h_p h = None -> h_p nh = Some e -> HOk nh ->
  h_take h nh = Some (Handle (Some e) (Some (n_owner (snd e))), Handle None None).
Proof. intros E1 E2 O. unfold h_take, h_get_al, h_empty, h_emplace, h_empty, h_clear_p, h_reset, obind. unfold HOk in O. rewrite E2 in *. rewrite O, E1. reflexivity. Qed.
Lemma hok_default : HOk h_default. Proof. exact Logic.I. Qed.
Lemma move_construct_h (h : handle) : HOk h -> exists h1 h2, h_move_construct h = Some (h1, h2) /\ HOk h1 /\ HOk h2 /\ h_p h1 = h_p h /\ h_p h2 = None.
Proof.
  intros O. unfold h_move_construct, h_empty. destruct (h_p h) as [e|] eqn:E.
  - rewrite (take_ok h_default h e eq_refl E O). eexists _, _. split; [reflexivity|]. repeat split.
  - eexists _, _. split; [reflexivity|]. repeat split; auto.
Qed.
Lemma destroy_node_ok (h : handle) e : h_p h = Some e -> HOk h -> h_destroy_node h = Some [e].
Proof. intros E O. unfold h_destroy_node, h_get_al, h_empty. unfold HOk in O. rewrite E in *. rewrite O, N.eqb_refl. reflexivity. Qed.
Lemma reset_ok (h : handle) e : h_p h = Some e -> HOk h -> h_reset h = Some (Handle None None).
Proof. intros E O. unfold h_reset. unfold HOk in O. rewrite E in O. rewrite O. reflexivity. Qed.
Lemma move_assign_h (h nh : handle) : HOk h -> HOk nh -> (h_empty h = false -> h_empty nh = false -> pocma c = true \/ h_al h = h_al nh) ->
  exists h1 h2, h_move_assign c h nh = Some (h1, h2, match h_p h with Some e => [e] | None => [] end) /\ HOk h1 /\ HOk h2 /\ h_p h1 = h_p nh /\ h_p h2 = None.
Proof.
  intros O O2 Hal. unfold h_move_assign. destruct (h_p h) as [e|] eqn:E, (h_p nh) as [e2|] eqn:E2.
  - assert (h_empty h = false) as X by (unfold h_empty; rewrite E; reflexivity). assert (h_empty nh = false) as X2 by (unfold h_empty; rewrite E2; reflexivity).
    rewrite X, X2. specialize (Hal X X2). rewrite (destroy_node_ok h e E O).
    assert (h_reset (h_clear_p nh) = Some (Handle None None)) as -> by (unfold h_reset, h_clear_p; cbn [h_al]; unfold HOk in O2; rewrite E2 in O2; rewrite O2; reflexivity).
    unfold h_get_al. rewrite X, X2. unfold HOk in O, O2. rewrite E in O. rewrite E2 in O2. rewrite O, O2 in *. cbn [obind].
    assert (pocma c || (n_owner (snd e) =? n_owner (snd e2)) = true) as ->.
    { destruct Hal as [->|[= ->]]; [reflexivity|]. rewrite N.eqb_refl. apply orb_true_r. }
    cbn [negb]. eexists _, _. split; [reflexivity|]. unfold HOk. cbn [h_p h_al]. repeat split; auto. f_equal. destruct (pocma c); [reflexivity|].
    destruct Hal as [C|[= A]]; [discriminate|exact A].
  - assert (h_empty h = false) as X by (unfold h_empty; rewrite E; reflexivity). assert (h_empty nh = true) as X2 by (unfold h_empty; rewrite E2; reflexivity).
    rewrite X, X2, (destroy_node_ok h e E O), (reset_ok h e E O). cbn [obind]. eexists _, _. split; [reflexivity|]. repeat split; auto.
  - assert (h_empty h = true) as X by (unfold h_empty; rewrite E; reflexivity). assert (h_empty nh = false) as X2 by (unfold h_empty; rewrite E2; reflexivity).
    rewrite X, X2, (take_ok h nh e2 E E2 O2). eexists _, _. split; [reflexivity|]. repeat split; auto.
  - assert (h_empty h = true) as X by (unfold h_empty; rewrite E; reflexivity). assert (h_empty nh = true) as X2 by (unfold h_empty; rewrite E2; reflexivity).
    rewrite X, X2. eexists _, _. split; [reflexivity|]. repeat split; auto.
Qed.
Lemma self_assign_h (h : handle) : HOk h -> exists h1, h_self_assign h = Some (h1, match h_p h with Some e => [e] | None => [] end) /\ HOk h1 /\ h_p h1 = None.
Proof.
  intros O. unfold h_self_assign, h_empty. destruct (h_p h) as [e|] eqn:E.
  - rewrite (destroy_node_ok h e E O). cbn [obind]. rewrite (reset_ok h e E O). eexists. split; [reflexivity|]. repeat split.
  - exists h. auto.
Qed.
Lemma dtor_h (h : handle) : HOk h -> h_dtor h = Some match h_p h with Some e => [e] | None => [] end.
Proof.
  intros O. unfold h_dtor, h_empty. destruct (h_p h) as [e|] eqn:E; [|reflexivity]. rewrite (destroy_node_ok h e E O). cbn [obind]. rewrite (reset_ok h e E O). reflexivity.
Qed.
Lemma swap_h (h nh : handle) : HOk h -> HOk nh -> (h_empty h = false -> h_empty nh = false -> pocs c = true \/ h_al h = h_al nh) ->
  exists h1 h2, h_swap c h nh = Some (h1, h2) /\ HOk h1 /\ HOk h2 /\ h_p h1 = h_p nh /\ h_p h2 = h_p h.
Proof.
  intros O O2 Hal. unfold h_swap. destruct (h_p h) as [e|] eqn:E, (h_p nh) as [e2|] eqn:E2.
  - assert (h_empty h = false) as X by (unfold h_empty; rewrite E; reflexivity). assert (h_empty nh = false) as X2 by (unfold h_empty; rewrite E2; reflexivity).
    rewrite X, X2. specialize (Hal X X2). unfold h_get_al. rewrite X, X2. unfold HOk in O, O2. rewrite E in O. rewrite E2 in O2. rewrite O, O2 in *. cbn [obind].
    assert (pocs c || (n_owner (snd e) =? n_owner (snd e2)) = true) as ->.
    { destruct Hal as [->|[= ->]]; [reflexivity|]. rewrite N.eqb_refl. apply orb_true_r. }
    cbn [negb]. eexists _, _. split; [reflexivity|]. unfold HOk. cbn [h_p h_al]. rewrite ?E, ?E2.
    destruct Hal as [->|[= A]]; [repeat split; auto|]. rewrite A. destruct (pocs c); repeat split; auto.
  - assert (h_empty h = false) as X by (unfold h_empty; rewrite E; reflexivity). assert (h_empty nh = true) as X2 by (unfold h_empty; rewrite E2; reflexivity).
    rewrite X, X2, (take_ok nh h e E2 E O). cbn [obind]. eexists _, _. split; [reflexivity|]. repeat split; auto.
  - assert (h_empty h = true) as X by (unfold h_empty; rewrite E; reflexivity). assert (h_empty nh = false) as X2 by (unfold h_empty; rewrite E2; reflexivity).
    rewrite X, X2, (take_ok h nh e2 E E2 O2). eexists _, _. split; [reflexivity|]. repeat split; auto.
  - assert (h_empty h = true) as X by (unfold h_empty; rewrite E; reflexivity). assert (h_empty nh = true) as X2 by (unfold h_empty; rewrite E2; reflexivity).
    rewrite X, X2. eexists _, _. split; [reflexivity|]. repeat split; auto.
Qed.

(** operations on containers *)
Lemma copying_no o w : node_op c o w -> ~ copying (K:=K) (V:=V) (Box o).
Proof. destruct o as [i o| | | | | | | | | |]; cbn; auto. destruct o; cbn; auto. Qed.
Lemma move_assign_alloc i j (w : list (option table)) n : WInv c w -> pre c (MoveAssign i j) w -> node_op c (MoveAssign i j) w ->
  outcome (exec c (MoveAssign i j) w n)
    (fun _ w' => forall x t', slot w j = Some x -> slot w' i = Some t' -> aid t' = aid x) (fun _ _ => False).
Proof.
  intros W P O. cbn [pre node_op exec] in *. destruct P as (Hij & t & x & Ht & Hx & _).
  pose proof (slot_err _ _ _ Ht) as [_ L]. pose proof (slot_err _ _ _ Hx) as [_ Lx]. apply Nat.eqb_neq in Hij as Hij'.
  unfold bind, run2. rewrite Ht, Hx, Hij'.
  assert (pocma c = true \/ aid t = aid x) as O' by (destruct O as [O|O]; auto).
  pose proof (move_assign_ok c HC t x n (W j x Hx) (W i t Ht)) as X. destruct (move_assign c (t, x) n) as [u s n1|kd s n1|]; cbn [FoaBase.outcome] in *; [| |destruct X].
  - destruct X as (_ & _ & _ & Ea & _). cbn [ret FoaBase.outcome]. intros x' t' [= <-]. rewrite slot_set by (rewrite set_len by exact L; exact Lx).
    rewrite Hij', slot_set, Nat.eqb_refl by exact L. intros [= <-]. rewrite Ea. destruct (pocma c); [reflexivity|]. destruct O' as [C|E]; [discriminate|exact E].
  - destruct X as (C1 & C2 & _). destruct O'; congruence.
Qed.
Lemma look_alloc (w : list (option table)) i v : WInv c w -> nth_error (look_all c w) i = Some (Some v) -> exists t, slot w i = Some t /\ v_alloc v = aid t /\ v_elems v = elems (arr t).
Proof.
  intros W H. unfold look_all in H. rewrite nth_error_map in H. unfold slot. destruct (nth_error w i) as [[t|]|] eqn:E; cbn in H; try discriminate.
  exists t. split; [reflexivity|]. injection H as <-. rewrite (look_eq c t); [auto|]. apply (W i). unfold slot. rewrite E. reflexivity.
Qed.
Lemma box_ok o (w : nworld) n : NI3 w -> npre c (Box o) w ->
  outcome (exec c o (boxes w) n)
    (fun v b => NI3 (NW b (hands w) (gone w)) /\ spec (keqf c) (moves c) (look_all c (boxes w)) o (Done v) (look_all c b))
    (fun kd b => (kd = KAlloc \/ raised c kd) /\ NI3 (NW b (hands w) (gone w)) /\ spec (keqf c) (moves c) (look_all c (boxes w)) o (Threw kd) (look_all c b)).
Proof.
  intros I (P & O & _ & Fr). pose proof I as [W Ow Hd].
  pose proof (exec_ok c HC o (boxes w) n W P) as X. unfold OK in X.
  assert (forall b r, WInv c b -> spec (keqf c) (moves c) (look_all c (boxes w)) o r (look_all c b) ->
    (forall i j, o = MoveAssign i j -> forall x t', slot (boxes w) j = Some x -> slot b i = Some t' -> aid t' = aid x) ->
    NI3 (NW b (hands w) (gone w))) as Z.
  { intros b r W' S MA. apply ni3; [exact W'| |apply hands_of; exact I].
    refine (spec_owners _ _ _ _ _ _ S (copying_no o _ O) Ow _ _ _ _ _).
    - intros i o1 v e -> Hv He. destruct (look_alloc _ _ _ W Hv) as (t & Ht & -> & _). apply (Fr i o1 t e eq_refl Ht He).
    - intros i j [->|[->| ->]]; cbn [pre] in P; apply P.
    - intros j al x -> Hx. destruct (look_alloc _ _ _ W Hx) as (t & Ht & -> & _). apply (O t Ht).
    - intros i j x v -> Hx Hv. destruct (look_alloc _ _ _ W Hx) as (tx & Htx & -> & _). destruct (look_alloc _ _ _ W' Hv) as (t' & Ht' & -> & _).
      apply (MA i j eq_refl tx t' Htx Ht').
    - intros i j t x -> Ht Hx. destruct (look_alloc _ _ _ W Ht) as (t1 & Ht1 & -> & _). destruct (look_alloc _ _ _ W Hx) as (x1 & Hx1 & -> & _).
      apply (O t1 x1 Ht1 Hx1). }
  assert (forall i j, o = MoveAssign i j -> outcome (exec c o (boxes w) n)
    (fun _ w' => forall x t', slot (boxes w) j = Some x -> slot w' i = Some t' -> aid t' = aid x) (fun _ _ => False)) as MA.
  { intros i j ->. apply move_assign_alloc; assumption. }
  destruct (exec c o (boxes w) n) as [v b n'|kd b n'|]; cbn [FoaBase.outcome] in *; [| |destruct X].
  - destruct X as [W' S]. split; [|exact S]. apply (Z b (Done v) W' S). exact MA.
  - destruct X as (R & W' & S). split; [exact R|]. split; [|exact S]. apply (Z b (Threw kd) W' S). intros i j E. destruct (MA i j E).
Qed.

Lemma look_refill (t t' : table) : Inv c t -> Inv c t' -> Ids t t' -> look c t' = refill (look c t) (elems (arr t')).
Proof. intros I I' D. rewrite (view_ids c t t' I' D), (look_eq c t I). reflexivity. Qed.
Lemma map_set_hand (hs : list (option handle)) j x : map (option_map (h_p (V:=V))) (set hs j x) = set (map (option_map (h_p (V:=V))) hs) j (option_map (h_p (V:=V)) x).
Proof. apply set_map. Qed.
Lemma own_set (w : list (option table)) i (t t' : table) : WInv c w -> VOwn (look_all c w) -> slot w i = Some t -> Inv c t' -> Ids t t' ->
  Forall (fun e => n_owner (snd e) = aid t) (elems (arr t')) -> WInv c (set w i (Some t')) /\ VOwn (look_all c (set w i (Some t'))).
Proof.
  intros W O Ht I' D F. pose proof (slot_err _ _ _ Ht) as [_ L]. split; [apply winv_set; assumption|]. rewrite look_set. cbn [option_map].
  apply (vown_set _ _ (look c t)); [exact O|apply look_slot; exact Ht|]. rewrite (view_ids c t t' I' D). exact F.
Qed.
Lemma own_slot (w : list (option table)) i (t : table) : WInv c w -> VOwn (look_all c w) -> slot w i = Some t -> Forall (fun e => n_owner (snd e) = aid t) (elems (arr t)).
Proof. intros W O Ht. pose proof (O i (look c t) (look_slot c w i t Ht)) as F. rewrite (look_eq c t (W i t Ht)) in F. exact F. Qed.

Definition NOK (w : nworld) (o : nop K V) (r : R nworld (nvalue K V)) : Prop :=
  outcome r (fun v w' => NI3 w' /\ nspec (nlook c w) o (NDone v) (nlook c w'))
            (fun kd w' => (kd = KAlloc \/ raised c kd) /\ NI3 w' /\ nspec (nlook c w) o (NThrew kd) (nlook c w')).

Lemma extract_exec i k w n : NI3 w -> npre c (Extract i k) w -> NOK w (Extract i k) (nexec c (Extract i k) w n).
Proof.
  intros I P. pose proof I as [W Ow Hd]. unfold NOK. cbn [npre nexec] in *. destruct P as [t Ht]. pose proof (W i t Ht) as It. pose proof (slot_err _ _ _ Ht) as [Hn L].
  unfold bind at 1, on_boxes, lens, run1. rewrite Ht. pose proof (extract_key_ok c t k n It) as X.
  destruct (m_extract c k t n) as [o t' n'|kd t' n'|]; cbn [FoaBase.outcome] in X; [| |destruct X].
  - destruct X as (I' & D & Eo & X). rewrite bind_get. cbn [boxes]. rewrite slot_set, Nat.eqb_refl by exact L. cbn [of_option]. rewrite bind_ret.
    unfold push_hand. rewrite bind_modify. cbn [ret FoaBase.outcome boxes hands gone].
    pose proof (own_slot _ _ _ W Ow Ht) as F.
    assert (Forall (fun e => n_owner (snd e) = aid t) (elems (arr t')) /\ match o with Some e => n_owner (snd e) = aid t | None => True end) as [F1 F2].
    { destruct o as [e|]; [|subst t'; auto]. apply (forall_perm _ _ _ X) in F. inversion F; auto. }
    destruct (own_set _ i t t' W Ow Ht I' D F1) as [W' O'].
    split.
    + apply ni3; [exact W'|exact O'|]. apply hands_push; [apply hands_of; exact I|]. unfold HOk. destruct o as [e|]; cbn; [|exact Logic.I].
      destruct D as [_ _ Da]. rewrite Da, F2. reflexivity.
    + unfold nlook. cbn [NodeSpec.nspec boxes hands]. exists (look c t). split; [apply look_slot; exact Ht|]. rewrite (look_eq c t It). cbn [v_pred v_elems].
      rewrite <- Eo, map_app, look_set. cbn [option_map map]. destruct o as [e|]; cbn [make_handle h_p h_default].
      * exists (elems (arr t')). split; [exact X|]. rewrite (look_refill t t' It I' D), (look_eq c t It). reflexivity.
      * subst t'. rewrite FoaRun.set_same by (apply look_slot; exact Ht). reflexivity.
  - destruct X as (-> & Hk & R). cbn [FoaBase.outcome]. rewrite FoaRun.set_same by exact Hn. split; [auto|]. split; [destruct w; exact I|].
    unfold nlook. cbn [NodeSpec.nspec boxes hands]. exists (look c t). split; [apply look_slot; exact Ht|]. auto.
Qed.
Lemma extract_nth_exec i m w n : NI3 w -> npre c (ExtractNth i m) w -> NOK w (ExtractNth i m) (nexec c (ExtractNth i m) w n).
Proof.
  intros I P. pose proof I as [W Ow Hd]. unfold NOK. cbn [npre nexec] in *. destruct P as (t & Ht & Hm). pose proof (W i t Ht) as It. pose proof (slot_err _ _ _ Ht) as [Hn L].
  rewrite (i_sz _ _ It) in Hm. destruct (nth_it_ok c t m It ltac:(lia)) as (it & Ei & A).
  destruct (nth_error (elems (arr t)) m) as [e|] eqn:He; [|apply nth_error_None in He; lia].
  unfold bind at 1, on_boxes, lens, run1. rewrite Ht, bind_get, Ei. cbn [of_option]. rewrite bind_ret.
  pose proof (extract_it_ok c t m it e n It A He) as X.
  destruct (extract_it it t n) as [o t' n'|kd t' n'|]; cbn [FoaBase.outcome] in X; [|destruct X|destruct X].
  destruct X as (-> & I' & D & Ee). rewrite bind_get. cbn [boxes]. rewrite slot_set, Nat.eqb_refl by exact L. cbn [of_option]. rewrite bind_ret.
  unfold push_hand. rewrite bind_modify. cbn [ret FoaBase.outcome boxes hands gone].
  destruct (nth_error_split _ _ He) as (l1 & l2 & El & Ll).
  assert (elems (arr t') = l1 ++ l2) as Ee' by (rewrite Ee, El, <- Ll, drop_mid; reflexivity).
  pose proof (own_slot _ _ _ W Ow Ht) as F. rewrite El in F. apply Forall_app in F as [F1 F2]. inversion F2 as [|? ? Fe F3]; subst x l.
  destruct (own_set _ i t t' W Ow Ht I' D) as [W' O']; [rewrite Ee'; apply Forall_app; auto|].
  split.
  - apply ni3; [exact W'|exact O'|]. apply hands_push; [apply hands_of; exact I|]. unfold HOk. cbn. destruct D as [_ _ Da]. rewrite Da, Fe. reflexivity.
  - unfold nlook. cbn [NodeSpec.nspec boxes hands]. exists (look c t). split; [apply look_slot; exact Ht|]. split; [reflexivity|]. exists l1, e, l2.
    rewrite map_app, look_set. cbn [option_map map make_handle h_p]. rewrite (look_refill t t' It I' D), (look_eq c t It). cbn [v_elems]. rewrite Ee'. auto.
Qed.

(** the part common to both overloads of insert(node_type&&) *)
Lemma insert_common i j (w : nworld) t h n : NI3 w -> slot (boxes w) i = Some t -> hand w j = Some h -> (h_empty h = false -> h_al h = Some (aid t)) ->
  outcome (on_box_hand i j (m_insert_node c) w n)
    (fun r w' => NI3 w' /\ hand w' j <> None /\
       match h_p h with
       | None => r = None /\ w' = w
       | Some e => exists t' l b x, r = Some (l, b) /\ slot (boxes w') i = Some t' /\ (forall k, read_at t' l w' k = Ret x w' k) /\
           match lookup (pid t) (fst e) (elems (arr t)) with
           | Some y => x = y /\ b = false /\ w' = w
           | None => x = e /\ b = true /\ exists l', Permutation l' (e :: elems (arr t)) /\
               nlook c w' = (set (look_all c (boxes w)) i (Some (refill (look c t) l')), set (snd (nlook c w)) j (Some None))
           end
       end)
    (fun kd w' => (kd = KAlloc \/ raised c kd) /\ NI3 w' /\ exists e, h_p h = Some e /\
       (nlook c w' = nlook c w \/ (kd = KHash /\ exists l' lost, Permutation (elems (arr t)) (lost ++ l') /\
            nlook c w' = (set (look_all c (boxes w)) i (Some (refill (look c t) l')), set (snd (nlook c w)) j (Some None))))).
Proof.
  intros I Ht Hh Ha. pose proof I as [W Ow Hd]. pose proof (W i t Ht) as It. pose proof (slot_err _ _ _ Ht) as [Hn L].
  destruct (hand_err w j h Hh) as (Hj & Lj & Hv). pose proof (Hd j h Hh) as Oh. pose proof (own_slot _ _ _ W Ow Ht) as F.
  unfold on_box_hand. rewrite Ht, Hh. pose proof (insert_node_ok c HC HN t h n It Ha) as X.
  assert (forall t' h', Inv c t' -> Ids t t' -> nlook c (NW (set (boxes w) i (Some t')) (set (hands w) j (Some h')) (gone w)) =
     (set (look_all c (boxes w)) i (Some (refill (look c t) (elems (arr t')))), set (snd (nlook c w)) j (Some (h_p h')))) as NL.
  { intros t' h' I' D. unfold nlook. cbn [boxes hands snd]. rewrite map_set_hand, look_set. cbn [option_map]. rewrite (look_refill t t' It I' D). reflexivity. }
  destruct (m_insert_node c (t, h) n) as [r [t' h'] n'|kd [t' h'] n'|]; cbn [FoaBase.outcome fst snd] in X; [| |destruct X].
  - cbn [FoaBase.outcome fst snd]. destruct (h_p h) as [e|] eqn:Ep.
    + destruct X as (l & b & -> & I' & D & x & Hc & X). cbn [fst snd] in *.
      assert (h_empty h = false) as Eh by (unfold h_empty; rewrite Ep; reflexivity). specialize (Ha Eh).
      assert (n_owner (snd e) = aid t) as Oe by (unfold HOk in Oh; rewrite Ep, Ha in Oh; congruence).
      assert (forall k, read_at t' l (NW (set (boxes w) i (Some t')) (set (hands w) j (Some h')) (gone w)) k = Ret x (NW (set (boxes w) i (Some t')) (set (hands w) j (Some h')) (gone w)) k) as RA.
      { intros k. apply (read_cell c t' l x _ k I' Hc). }
      assert (slot (set (boxes w) i (Some t')) i = Some t') as Si by (rewrite slot_set, Nat.eqb_refl by exact L; reflexivity).
      destruct (lookup (pid t) (fst e) (elems (arr t))) as [y|].
      * destruct X as (-> & -> & [= -> ->]). rewrite (FoaRun.set_same (boxes w)), (FoaRun.set_same (hands w)) in * by assumption.
        destruct w as [bw hw gw]. cbn [boxes hands gone] in *. split; [exact I|]. split; [rewrite Hh; discriminate|]. exists t, l, false, y. auto 7.
      * destruct X as (-> & -> & -> & Pm). destruct (own_set _ i t t' W Ow Ht I' D) as [W' O'].
        { apply (forall_perm _ _ _ (Permutation_sym Pm)). constructor; assumption. }
        split; [apply ni3; [exact W'|exact O'|apply hands_set; [apply hands_of; exact I|exact Lj|apply hok_default]]|].
        split; [rewrite hand_set_iff, Nat.eqb_refl by exact Lj; discriminate|].
        exists t', l, true, e. split; [reflexivity|]. split; [exact Si|]. split; [exact RA|]. split; [reflexivity|]. split; [reflexivity|].
        exists (elems (arr t')). split; [exact Pm|]. apply (NL t' h_default I' D).
    + destruct X as (-> & [= -> ->]). rewrite (FoaRun.set_same (boxes w)), (FoaRun.set_same (hands w)) by assumption. destruct w as [bw hw gw]. cbn [boxes hands gone].
      split; [exact I|]. split; [rewrite Hh; discriminate|auto].
  - destruct X as (Eh & R & I' & D & X). cbn [fst snd FoaBase.outcome] in *.
    destruct (h_p h) as [e|] eqn:Ep; [|unfold h_empty in Eh; rewrite Ep in Eh; discriminate].
    split; [exact R|]. destruct X as [[-> Ee]|(-> & -> & lost & Pm)].
    + destruct (own_set _ i t t' W Ow Ht I' D) as [W' O']; [rewrite Ee; exact F|].
      split; [apply ni3; [exact W'|exact O'|apply hands_set; [apply hands_of; exact I|exact Lj|exact Oh]]|]. exists e. split; [reflexivity|]. left.
      rewrite (NL t' h I' D), Ee. unfold nlook at 2. f_equal.
      * apply FoaRun.set_same. rewrite (look_slot c (boxes w) i t Ht). rewrite (look_eq c t It). reflexivity.
      * apply FoaRun.set_same. rewrite Ep. exact Hv.
    + destruct (own_set _ i t t' W Ow Ht I' D) as [W' O'].
      { pose proof (forall_perm _ _ _ Pm F) as F'. apply Forall_app in F'. apply F'. }
      split; [apply ni3; [exact W'|exact O'|apply hands_set; [apply hands_of; exact I|exact Lj|exact Logic.I]]|]. exists e. split; [reflexivity|]. right.
      split; [reflexivity|]. exists (elems (arr t')), lost. split; [exact Pm|]. apply (NL t' (h_clear_p h) I' D).
Qed.

Lemma map_push_hand (hs : list (option handle)) x : map (option_map (h_p (V:=V))) (hs ++ [Some x]) = map (option_map (h_p (V:=V))) hs ++ [Some (h_p x)].
Proof. rewrite map_app. reflexivity. Qed.
Lemma insert_hint_exec i j w n : NI3 w -> npre c (InsertNodeHint i j) w -> NOK w (InsertNodeHint i j) (nexec c (InsertNodeHint i j) w n).
Proof.
  intros I P. pose proof I as [W Ow Hd]. unfold NOK. cbn [npre nexec] in *. destruct P as (t & h & Ht & Hh & Ha). pose proof (W i t Ht) as It.
  destruct (hand_err w j h Hh) as (Hj & Lj & Hv). pose proof (insert_common i j w t h n I Ht Hh Ha) as X. unfold bind at 1.
  pose proof (look_slot c (boxes w) i t Ht) as Lk.
  destruct (on_box_hand i j (m_insert_node c) w n) as [r w' n'|kd w' n'|]; cbn [FoaBase.outcome] in X; [| |destruct X].
  - destruct X as (I' & Hw' & X). destruct (h_p h) as [e|] eqn:Ep.
    + destruct X as (t' & l & b & x & -> & Si & Rd & X). cbn [read_back]. rewrite bind_get, Si. cbn [of_option]. rewrite bind_ret. unfold bind at 1. rewrite Rd.
      cbn [ret FoaBase.outcome]. split; [exact I'|]. unfold nlook at 1. cbn [NodeSpec.nspec]. exists (look c t), (Some e). split; [exact Lk|]. split; [exact Hv|].
      rewrite (look_eq c t It) in *. cbn [v_pred v_elems].
      destruct (lookup (pid t) (fst e) (elems (arr t))) as [y|].
      * destruct X as (-> & -> & ->). auto.
      * destruct X as (-> & -> & l' & Pm & E). split; [reflexivity|]. split; [reflexivity|]. exists l'. auto.
    + destruct X as (-> & ->). cbn [read_back ret FoaBase.outcome]. split; [exact I|]. unfold nlook at 1. cbn [NodeSpec.nspec].
      exists (look c t), None. auto.
  - destruct X as (R & I' & e & Ep & X). cbn [FoaBase.outcome]. split; [exact R|]. split; [exact I'|]. unfold nlook at 1. cbn [NodeSpec.nspec].
    exists (look c t), (Some e). rewrite Ep in Hv. split; [exact Lk|]. split; [exact Hv|]. rewrite (look_eq c t It) in *. cbn [v_elems]. exact X.
Qed.
Lemma insert_exec i j w n : NI3 w -> npre c (InsertNode i j) w -> NOK w (InsertNode i j) (nexec c (InsertNode i j) w n).
Proof.
  intros I P. pose proof I as [W Ow Hd]. unfold NOK. cbn [npre nexec] in *. destruct P as (t & h & Ht & Hh & Ha). pose proof (W i t Ht) as It.
  destruct (hand_err w j h Hh) as (Hj & Lj & Hv). pose proof (insert_common i j w t h n I Ht Hh Ha) as X. unfold bind at 1.
  pose proof (look_slot c (boxes w) i t Ht) as Lk.
  destruct (on_box_hand i j (m_insert_node c) w n) as [r w' n'|kd w' n'|]; cbn [FoaBase.outcome] in X; [| |destruct X].
  - destruct X as (I' & Hw' & X). destruct (h_p h) as [e|] eqn:Ep.
    + destruct X as (t' & l & b & x & -> & Si & Rd & X). cbn [read_back]. rewrite bind_bind, bind_get, Si. cbn [of_option]. rewrite bind_bind, bind_ret, bind_bind. unfold bind at 1. rewrite Rd.
      rewrite bind_ret. 
      destruct (lookup (pid t) (fst e) (elems (arr t))) as [y|] eqn:El.
      * destruct X as (-> & -> & ->). rewrite bind_bind, bind_get. rewrite Hh. cbn [of_option]. rewrite bind_bind, bind_ret.
        destruct (move_construct_h h (Hd j h Hh)) as (h1 & h2 & Em & O1 & O2 & E1 & E2). rewrite Em. cbn [of_option]. rewrite bind_bind, bind_ret. cbn [fst snd].
        unfold set_hand, push_hand. rewrite bind_bind, bind_modify. rewrite bind_modify. cbn [ret FoaBase.outcome boxes hands gone].
        split; [apply ni3; [exact W|exact Ow|apply hands_push; [apply hands_set; [apply hands_of; exact I|exact Lj|exact O2]|exact O1]]|].
        unfold nlook at 1. cbn [NodeSpec.nspec]. exists (look c t), (Some e). split; [exact Lk|]. split; [exact Hv|].
        rewrite (look_eq c t It). cbn [v_pred v_elems]. rewrite El. split; [reflexivity|]. split; [reflexivity|].
        unfold nlook. cbn [boxes hands gone]. rewrite map_push_hand, map_set_hand. cbn [option_map]. rewrite E1, E2, Ep. reflexivity.
      * destruct X as (-> & -> & l' & Pm & E). unfold push_hand. rewrite bind_modify. cbn [ret FoaBase.outcome]. pose proof I' as [W' Ow' Hd'].
        split; [apply ni3; [exact W'|exact Ow'|apply hands_push; [apply hands_of; exact I'|apply hok_default]]|].
        unfold nlook at 1. cbn [NodeSpec.nspec]. exists (look c t), (Some e). split; [exact Lk|]. split; [exact Hv|].
        rewrite (look_eq c t It). cbn [v_pred v_elems]. rewrite El. split; [reflexivity|]. split; [reflexivity|]. exists l'. split; [exact Pm|].
        unfold nlook in E |- *. cbn [boxes hands snd] in *. rewrite map_push_hand. injection E as E1 E2. rewrite E1, E2. rewrite (look_eq c t It). reflexivity.
    + destruct X as (-> & ->). cbn [read_back]. rewrite bind_ret. unfold push_hand. rewrite bind_modify. cbn [ret FoaBase.outcome].
      split; [apply ni3; [exact W|exact Ow|apply hands_push; [apply hands_of; exact I|apply hok_default]]|]. unfold nlook at 1. cbn [NodeSpec.nspec].
      exists (look c t), None. split; [exact Lk|]. split; [exact Hv|]. split; [reflexivity|]. unfold nlook. cbn [boxes hands gone]. rewrite map_push_hand. reflexivity.
  - destruct X as (R & I' & e & Ep & X). cbn [FoaBase.outcome]. split; [exact R|]. split; [exact I'|]. unfold nlook at 1. cbn [NodeSpec.nspec].
    exists (look c t), (Some e). rewrite Ep in Hv. split; [exact Lk|]. split; [exact Hv|]. rewrite (look_eq c t It) in *. cbn [v_elems]. exact X.
Qed.

(** operations on handles *)
Lemma h_new_exec w n : NI3 w -> NOK w HNew (nexec c HNew w n).
Proof.
  intros I. pose proof I as [W Ow Hd]. unfold NOK. cbn [nexec]. unfold push_hand. rewrite bind_modify. cbn [ret FoaBase.outcome].
  split; [apply ni3; [exact W|exact Ow|apply hands_push; [apply hands_of; exact I|apply hok_default]]|].
  unfold nlook. cbn [NodeSpec.nspec boxes hands]. rewrite map_push_hand. auto.
Qed.
Lemma h_move_exec j w n : NI3 w -> npre c (HMove j) w -> NOK w (HMove j) (nexec c (HMove j) w n).
Proof.
  intros I [h Hh]. pose proof I as [W Ow Hd]. destruct (hand_err w j h Hh) as (Hj & Lj & Hv). unfold NOK. cbn [nexec]. rewrite bind_get, Hh. cbn [of_option]. rewrite bind_ret.
  destruct (move_construct_h h (Hd j h Hh)) as (h1 & h2 & Em & O1 & O2 & E1 & E2). rewrite Em. cbn [of_option]. rewrite bind_ret. cbn [fst snd].
  unfold set_hand, push_hand. rewrite bind_modify, bind_modify. cbn [ret FoaBase.outcome boxes hands gone].
  split; [apply ni3; [exact W|exact Ow|apply hands_push; [apply hands_set; [apply hands_of; exact I|exact Lj|exact O2]|exact O1]]|].
  unfold nlook at 1. cbn [NodeSpec.nspec]. exists (h_p h). split; [exact Hv|]. split; [reflexivity|].
  unfold nlook. cbn [boxes hands gone]. rewrite map_push_hand, map_set_hand. cbn [option_map]. rewrite E1, E2. reflexivity.
Qed.

Lemma h_assign_exec i j w n : NI3 w -> npre c (HAssign i j) w -> NOK w (HAssign i j) (nexec c (HAssign i j) w n).
Proof.
  intros I (hi & hj & Hi & Hj & Ha). pose proof I as [W Ow Hd]. destruct (hand_err w i hi Hi) as (Ei & Li & Vi). destruct (hand_err w j hj Hj) as (Ej & Lj & Vj).
  unfold NOK. cbn [nexec]. rewrite bind_get, Hi. cbn [of_option]. rewrite bind_ret, Hj. cbn [of_option]. rewrite bind_ret.
  destruct (Nat.eqb i j) eqn:E.
  - apply Nat.eqb_eq in E as ->. assert (hj = hi) as -> by congruence.
    destruct (self_assign_h hi (Hd j hi Hi)) as (h1 & -> & O1 & E1). cbn [of_option]. rewrite bind_bind, bind_ret. cbn [fst snd]. unfold set_hand, set_gone. rewrite bind_bind, bind_modify, bind_modify. cbn [ret FoaBase.outcome boxes hands gone].
    split; [apply ni3; [exact W|exact Ow|apply hands_set; [apply hands_of; exact I|exact Li|exact O1]]|].
    unfold nlook at 1. cbn [NodeSpec.nspec]. exists (h_p hi), (h_p hi). split; [exact Vi|]. split; [exact Vi|]. split; [reflexivity|].
    rewrite Nat.eqb_refl. unfold nlook. cbn [boxes hands gone]. rewrite map_set_hand. cbn [option_map]. rewrite E1. reflexivity.
  - destruct (move_assign_h hi hj (Hd i hi Hi) (Hd j hj Hj) Ha) as (h1 & h2 & -> & O1 & O2 & E1 & E2). cbn [of_option]. rewrite bind_bind, bind_ret. cbn [fst snd].
    unfold set_hand, set_gone. rewrite !bind_bind, bind_modify, bind_bind, bind_modify, bind_modify. cbn [ret FoaBase.outcome boxes hands gone].
    split; [apply ni3; [exact W|exact Ow|apply hands_set; [apply hands_set; [apply hands_of; exact I|exact Li|exact O1]|rewrite set_len by exact Li; exact Lj|exact O2]]|].
    unfold nlook at 1. cbn [NodeSpec.nspec]. exists (h_p hi), (h_p hj). split; [exact Vi|]. split; [exact Vj|]. split; [reflexivity|].
    rewrite E. unfold nlook. cbn [boxes hands gone]. rewrite !map_set_hand. cbn [option_map]. rewrite E1, E2. reflexivity.
Qed.
Lemma h_swap_exec i j w n : NI3 w -> npre c (HSwap i j) w -> NOK w (HSwap i j) (nexec c (HSwap i j) w n).
Proof.
  intros I (hi & hj & Hi & Hj & Ha). pose proof I as [W Ow Hd]. destruct (hand_err w i hi Hi) as (Ei & Li & Vi). destruct (hand_err w j hj Hj) as (Ej & Lj & Vj).
  unfold NOK. cbn [nexec]. rewrite bind_get, Hi. cbn [of_option]. rewrite bind_ret, Hj. cbn [of_option]. rewrite bind_ret.
  destruct (Nat.eqb i j) eqn:E.
  - apply Nat.eqb_eq in E as ->. assert (hj = hi) as -> by congruence. rewrite bind_ret. cbn [ret FoaBase.outcome].
    split; [exact I|]. unfold nlook at 1. cbn [NodeSpec.nspec]. exists (h_p hi), (h_p hi). split; [exact Vi|]. split; [exact Vi|]. split; [reflexivity|].
    unfold nlook in Vi |- *. cbn [snd] in Vi. f_equal. rewrite !FoaRun.set_same; try exact Vi; try reflexivity. rewrite FoaRun.set_same; exact Vi.
  - destruct (swap_h hi hj (Hd i hi Hi) (Hd j hj Hj) Ha) as (h1 & h2 & -> & O1 & O2 & E1 & E2). cbn [of_option]. rewrite bind_bind, bind_ret. cbn [fst snd].
    unfold set_hand. rewrite bind_bind, bind_modify, bind_modify. cbn [ret FoaBase.outcome boxes hands gone].
    split; [apply ni3; [exact W|exact Ow|apply hands_set; [apply hands_set; [apply hands_of; exact I|exact Li|exact O1]|rewrite set_len by exact Li; exact Lj|exact O2]]|].
    unfold nlook at 1. cbn [NodeSpec.nspec]. exists (h_p hi), (h_p hj). split; [exact Vi|]. split; [exact Vj|]. split; [reflexivity|].
    unfold nlook. cbn [boxes hands gone]. rewrite !map_set_hand. cbn [option_map]. rewrite E1, E2. reflexivity.
Qed.
Lemma h_set_exec j k v w n : NI3 w -> npre c (HSet j k v) w -> NOK w (HSet j k v) (nexec c (HSet j k v) w n).
Proof.
  intros I (h & Hh & He). pose proof I as [W Ow Hd]. destruct (hand_err w j h Hh) as (Ej & Lj & Vj). pose proof (Hd j h Hh) as Oh.
  unfold NOK. cbn [nexec]. rewrite bind_get, Hh. cbn [of_option]. rewrite bind_ret. unfold h_empty in He. unfold HOk in Oh. destruct (h_p h) as [e|] eqn:Ep; [|discriminate].
  cbn [of_option]. rewrite bind_ret. unfold set_hand. rewrite bind_modify. cbn [ret FoaBase.outcome].
  split; [apply ni3; [exact W|exact Ow|apply hands_set; [apply hands_of; exact I|exact Lj|]]|].
  { unfold HOk. cbn [h_p h_al snd n_owner]. exact Oh. }
  unfold nlook at 1. cbn [NodeSpec.nspec]. exists e. split; [exact Vj|]. split; [reflexivity|].
  unfold nlook. cbn [boxes hands gone]. rewrite map_set_hand. reflexivity.
Qed.
Lemma h_destroy_exec j w n : NI3 w -> npre c (HDestroy j) w -> NOK w (HDestroy j) (nexec c (HDestroy j) w n).
Proof.
  intros I [h Hh]. pose proof I as [W Ow Hd]. destruct (hand_err w j h Hh) as (Ej & Lj & Vj). unfold NOK. cbn [nexec]. rewrite bind_get, Hh. cbn [of_option]. rewrite bind_ret.
  rewrite (dtor_h h (Hd j h Hh)). cbn [of_option]. rewrite bind_ret. unfold set_hand. rewrite bind_modify. cbn [ret FoaBase.outcome].
  split; [apply ni3; [exact W|exact Ow|apply hands_set; [apply hands_of; exact I|exact Lj|exact Logic.I]]|].
  unfold nlook at 1. cbn [NodeSpec.nspec]. exists (h_p h). split; [exact Vj|]. split; [reflexivity|].
  unfold nlook. cbn [boxes hands gone]. rewrite map_set_hand. reflexivity.
Qed.

Lemma nexec_ok3 o w n : NI3 w -> npre c o w -> NOK w o (nexec c o w n).
Proof.
  intros I P. destruct o; [|apply extract_exec; assumption|apply extract_nth_exec; assumption|apply insert_exec; assumption|apply insert_hint_exec; assumption
    |apply h_new_exec; assumption|apply h_move_exec; assumption|apply h_assign_exec; assumption|apply h_swap_exec; assumption|apply h_set_exec; assumption|apply h_destroy_exec; assumption].
  pose proof (box_ok o w n I P) as X. unfold NOK. cbn [nexec]. unfold bind, on_boxes, lens. destruct (exec c o (boxes w) n) as [v b n'|kd b n'|]; cbn [FoaBase.outcome] in X; [| |destruct X]; cbn [ret FoaBase.outcome].
  - destruct X as [I' S]. split; [exact I'|]. unfold nlook. cbn [NodeSpec.nspec boxes hands snd fst]. split; [reflexivity|]. exists (Done v). auto.
  - destruct X as (R & I' & S). split; [exact R|]. split; [exact I'|]. unfold nlook. cbn [NodeSpec.nspec boxes hands snd fst]. split; [reflexivity|]. exists (Threw kd). auto.
Qed.
(** addresses stay distinct *)
Definition naddr (l : list elem) : list N := map (fun e => n_addr (snd e)) l.
Lemma nodup_front {A} (l l1 l2 : list A) : Permutation l (l1 ++ l2) -> NoDup l -> NoDup l1.
Proof. intros P D. apply (Permutation_NoDup P) in D. clear P. induction l1 as [|a l1 IH]; [apply NoDup_nil|]. cbn [app] in D. inversion D as [|? ? N D']; subst. constructor; [|apply IH; exact D']. intros H. apply N. apply in_or_app. auto. Qed.
Lemma fresh_pre o w : NInv w -> npre c o w -> NoDup (addresses (nlook c w) ++ naddr (news o)).
Proof. intros [_ D] P. destruct o; try (cbn [news naddr map]; rewrite app_nil_r; exact D). cbn [npre] in P. apply P. Qed.
Lemma conserve_step o w r s' : npre c o w -> nspec (nlook c w) o r s' ->
  exists freed, Permutation (addresses (nlook c w) ++ naddr (news o)) (addresses s' ++ naddr freed) /\
    (match o, r with (Extract _ _ | ExtractNth _ _ | InsertNode _ _ | InsertNodeHint _ _), NDone _ => True | (HNew | HMove _ | HSwap _ _ | HSet _ _ _), _ => True | _, _ => False end -> freed = []).
Proof.
  intros P S. apply (nspec_conserve _ _ _ _ _ _ S).
  - destruct o as [o| | | | | | | | | |]; try (cbn; tauto). cbn [npre] in P. eapply copying_no. apply P.
  - intros i j H. destruct o as [o| | | | | | | | | |]; try (destruct H as [H|[H|H]]; discriminate). cbn [npre] in P. destruct P as [P _].
    destruct H as [[= ->]|[[= ->]|[= ->]]]; cbn [pre] in P; apply P.
Qed.
Lemma nexec_ok o w n : NInv w -> npre c o w ->
  outcome (nexec c o w n) (fun v w' => NInv w' /\ nspec (nlook c w) o (NDone v) (nlook c w'))
     (fun kd w' => (kd = KAlloc \/ raised c kd) /\ NInv w' /\ nspec (nlook c w) o (NThrew kd) (nlook c w')).
Proof.
  intros I P. pose proof (nexec_ok3 o w n (proj1 I) P) as X. unfold NOK in X.
  assert (forall r w', NI3 w' -> nspec (nlook c w) o r (nlook c w') -> NInv w') as Z.
  { intros r w' I' S. split; [exact I'|]. destruct (conserve_step o w r _ P S) as (fr & Pm & _). eapply nodup_front; [exact Pm|]. apply fresh_pre; assumption. }
  destruct (nexec c o w n) as [v w' n'|kd w' n'|]; cbn [FoaBase.outcome] in *; [| |destruct X].
  - destruct X as [I' S]. split; [eapply Z; eauto|exact S].
  - destruct X as (R & I' & S). split; [exact R|]. split; [eapply Z; eauto|exact S].
Qed.
Lemma ninv_nil : NInv (NW [] [] []).
Proof.
  split; [|apply NoDup_nil]. apply ni3.
  - intros i t H. unfold slot in H. destruct i; discriminate.
  - intros i v H. destruct i; discriminate.
  - intros j h H. unfold hand in H. destruct j; discriminate.
Qed.
Lemma nhistory_app s rs s1 o r s2 : nhistory (K:=K) (V:=V) (keqf c) (moves c) s rs s1 -> nspec s1 o r s2 -> nhistory (keqf c) (moves c) s (rs ++ [(o, r)]) s2.
Proof. induction 1; intros; cbn [app]; econstructor; eauto. constructor. Qed.
Lemma nruns_ok rs w : nruns c rs w -> NInv w /\ nhistory (keqf c) (moves c) ([], []) rs (nlook c w).
Proof.
  induction 1 as [|rs w o n r w' R [I H] P X].
  - split; [apply ninv_nil|constructor].
  - pose proof (nexec_ok o w n I P) as Y. unfold nreturned in X. destruct (nexec c o w n) as [v w1 n'|kd w1 n'|]; cbn [FoaBase.outcome] in Y; [| |destruct Y].
    + destruct X as [-> ->]. destruct Y as [I' S]. split; [exact I'|]. eapply nhistory_app; eauto.
    + destruct X as [-> ->]. destruct Y as (_ & I' & S). split; [exact I'|]. eapply nhistory_app; eauto.
Qed.

(** handles destroy the node they own, and only that *)
Definition GoneIs (g : list elem) (r : R nworld (nvalue K V)) : Prop :=
  match r with Ret _ w _ | Exn _ w _ => gone w = g | Undef => True end.
Lemma gone_exec o w n : NI3 w -> npre c o w -> GoneIs (gone w ++ destroys (nlook c w) o) (nexec c o w n).
Proof.
  intros I P. pose proof I as [W Ow Hd]. destruct o; cbn [nexec destroys]; rewrite ?app_nil_r.
  - unfold bind, on_boxes, lens. destruct (exec c o (boxes w) n); cbn [ret GoneIs gone]; auto.
  - unfold bind at 1, on_boxes, lens. destruct (run1 _ _ _ _) as [e b n'|kd b n'|]; cbn [GoneIs gone]; auto. rewrite bind_get. cbn [boxes].
    destruct (slot b i); cbn [of_option]; [|exact Logic.I]. rewrite bind_ret. unfold push_hand. rewrite bind_modify. reflexivity.
  - unfold bind at 1, on_boxes, lens. destruct (run1 _ _ _ _) as [e b n'|kd b n'|]; cbn [GoneIs gone]; auto. rewrite bind_get. cbn [boxes].
    destruct (slot b i); cbn [of_option]; [|exact Logic.I]. rewrite bind_ret. unfold push_hand. rewrite bind_modify. reflexivity.
  - assert (GoneIs (gone w) (nexec c (InsertNode i j) w n)) as X; [|exact X]. cbn [nexec]. unfold bind at 1, on_box_hand.
    destruct (slot (boxes w) i), (hand w j) as [h|]; try exact Logic.I. destruct (m_insert_node c _ _) as [r s n'|kd s n'|]; cbn [GoneIs gone]; auto.
    assert (forall v w1 n1, gone w1 = gone w -> GoneIs (gone w) (bind
      (match r with Some (_, false) => bind get (fun w => bind (of_option (hand w j)) (fun h => bind (of_option (h_move_construct h)) (fun p => bind (set_hand j (Some (snd p))) (fun _ => push_hand (fst p))))) | _ => push_hand h_default end)
      (fun _ => ret v) w1 n1)) as Z.
    { intros v w1 n1 E. destruct r as [[l [|]]|]; [unfold push_hand; rewrite bind_modify; exact E| |unfold push_hand; rewrite bind_modify; exact E].
      rewrite bind_bind, bind_get. destruct (hand w1 j); cbn [of_option]; [|exact Logic.I]. rewrite bind_bind, bind_ret. destruct (h_move_construct _); cbn [of_option]; [|exact Logic.I].
      rewrite bind_bind, bind_ret. unfold set_hand, push_hand. rewrite bind_bind, bind_modify, bind_modify. exact E. }
    unfold bind at 1. destruct r as [[l b]|]; cbn [read_back]; [|apply Z; reflexivity]. rewrite bind_get. destruct (slot _ _); cbn [of_option]; [|exact Logic.I]. rewrite bind_ret.
    unfold bind at 1. unfold read_at. destruct (read_element _ _ _ _) as [x s1 n1|kd s1 n1|] eqn:Er; cbn [ret]; [|unfold read_element in Er; cbn in Er|exact Logic.I].
    + assert (s1 = NW (set (boxes w) i (Some (fst s))) (set (hands w) j (Some (snd s))) (gone w)) as ->; [|apply Z; reflexivity].
      unfold read_element in Er. destruct (get_cell _ _) as [[]|]; cbn in Er; inversion Er; reflexivity.
    + destruct (get_cell _ _) as [[]|]; cbn in Er; inversion Er; reflexivity.
  - unfold bind at 1, on_box_hand. destruct (slot (boxes w) i), (hand w j) as [h|]; try exact Logic.I. destruct (m_insert_node c _ _) as [r s n'|kd s n'|]; cbn [GoneIs gone]; auto.
    destruct r as [[l b]|]; cbn [read_back]; [|reflexivity]. rewrite bind_get. destruct (slot _ _); cbn [of_option]; [|exact Logic.I]. rewrite bind_ret.
    unfold bind at 1. unfold read_at. destruct (read_element _ _ _ _) as [x s1 n1|kd s1 n1|] eqn:Er; cbn [ret GoneIs]; [| |exact Logic.I];
      unfold read_element in Er; destruct (get_cell _ _) as [[]|]; cbn in Er; inversion Er; reflexivity.
  - unfold push_hand. rewrite bind_modify. reflexivity.
  - rewrite bind_get. destruct (hand w j); cbn [of_option]; [|exact Logic.I]. rewrite bind_ret. destruct (h_move_construct _); cbn [of_option]; [|exact Logic.I].
    rewrite bind_ret. unfold set_hand, push_hand. rewrite bind_modify, bind_modify. reflexivity.
  - destruct P as (hi & hj & Hi & Hj & Ha). destruct (hand_err w i hi Hi) as (_ & _ & Vi). rewrite Vi. rewrite bind_get, Hi. cbn [of_option]. rewrite bind_ret, Hj. cbn [of_option]. rewrite bind_ret.
    destruct (Nat.eqb i j) eqn:E.
    + destruct (self_assign_h hi (Hd i hi Hi)) as (h1 & -> & _). cbn [of_option]. rewrite bind_bind, bind_ret. unfold set_hand, set_gone. rewrite bind_bind, bind_modify, bind_modify. cbn. destruct (h_p hi); reflexivity.
    + destruct (move_assign_h hi hj (Hd i hi Hi) (Hd j hj Hj) Ha) as (h1 & h2 & -> & _). cbn [of_option]. rewrite bind_bind, bind_ret. unfold set_hand, set_gone. rewrite !bind_bind, bind_modify, bind_bind, bind_modify, bind_modify. cbn. destruct (h_p hi); reflexivity.
  - rewrite bind_get. destruct (hand w i); cbn [of_option]; [|exact Logic.I]. rewrite bind_ret. destruct (hand w j); cbn [of_option]; [|exact Logic.I]. rewrite bind_ret.
    destruct (Nat.eqb i j); [rewrite bind_ret; reflexivity|]. destruct (h_swap _ _ _); cbn [of_option]; [|exact Logic.I]. rewrite bind_bind, bind_ret. unfold set_hand. rewrite bind_bind, bind_modify, bind_modify. reflexivity.
  - rewrite bind_get. destruct (hand w j) as [h|]; cbn [of_option]; [|exact Logic.I]. rewrite bind_ret. destruct (h_p h); cbn [of_option]; [|exact Logic.I]. rewrite bind_ret. unfold set_hand. rewrite bind_modify. reflexivity.
  - destruct P as [h Hh]. destruct (hand_err w j h Hh) as (_ & _ & Vj). rewrite Vj, bind_get, Hh. cbn [of_option]. rewrite bind_ret, (dtor_h h (Hd j h Hh)). cbn [of_option]. rewrite bind_ret.
    unfold set_hand, set_gone. rewrite bind_modify, bind_modify. cbn. destruct (h_p h); reflexivity.
Qed.
End Node.
