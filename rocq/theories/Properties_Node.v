(** C19. Node handles of unordered_node_map and unordered_node_set (the closed-addressing containers: Properties_NodeFca.v).

    Reading guide. [nruns c rs w]: a program with containers and node handles, starting with none, performed the operations rs (each with
    what it returned or threw) and reached w. [npre c o w]: the documented preconditions of o, and nodes allocated by o are at unused
    addresses. [nlook c w]: what a user sees: for every container its function objects, allocator and elements in iteration order, for every
    handle the element it owns. A node has an address and the allocator it was allocated with. [gone w]: nodes destroyed by handles.
    [node_cfg c]: rehashing moves pointers, which does not throw. *)
From Coq Require Import NArith Bool List Arith Lia Permutation.
From Verif Require Import SizeModel GroupModel FoaModel FoaArr FoaIterModel FoaBase FoaInv FoaApi FoaProps2 FoaSpec FoaWorld FoaRun NodeSpec NodeFacts FoaNodeModel FoaNode FoaNode2 FoaExamples NodeExamples.
Import ListNotations.
Local Open Scope N_scope.

(** every history is one of NodeSpec: each operation and each exception has one of the effects listed there *)
Theorem C19_every_history_is_one_of_the_specification :
  forall (K V : Type) (c : Cfg K (node V)), good_cfg c -> node_cfg c -> forall rs w, nruns c rs w ->
  nhistory (keqf c) (moves c) ([], []) rs (nlook c w).
Proof. intros K V c HC HN rs w R. apply (nruns_ok c HC HN rs w R). Qed.
Print Assumptions C19_every_history_is_one_of_the_specification.
(** no operation has undefined behaviour, such as destroying a node with an allocator it does not come from *)
Theorem C19_operations_return_or_propagate_exceptions :
  forall (K V : Type) (c : Cfg K (node V)), good_cfg c -> node_cfg c -> forall rs w o n, nruns c rs w -> npre c o w ->
  match nexec c o w n with
  | Ret _ _ _ => True
  | Exn k _ _ => k = KAlloc \/ exists j, throws c k j = true
  | Undef => False
  end.
Proof.
  intros K V c HC HN rs w o n R P. pose proof (nexec_ok c HC HN o w n (proj1 (nruns_ok c HC HN rs w R)) P) as X.
  destruct (nexec c o w n) as [v w' n'|k w' n'|]; cbn [FoaBase.outcome] in X; [exact I| |destruct X]. destruct X as (H & _). exact H.
Qed.
Print Assumptions C19_operations_return_or_propagate_exceptions.
(** every node is owned by one container or one handle, whose allocator is the one it was allocated with *)
Theorem C19_every_node_has_one_owner :
  forall (K V : Type) (c : Cfg K (node V)), good_cfg c -> node_cfg c -> forall rs w, nruns c rs w ->
  NoDup (addresses (nlook c w)) /\
  (forall i t e, slot (boxes w) i = Some t -> In e (contents c t) -> n_owner (snd e) = aid t) /\
  (forall j h e, hand w j = Some h -> h_p h = Some e -> h_al h = Some (n_owner (snd e))).
Proof.
  intros K V c HC HN rs w R. destruct (nruns_ok c HC HN rs w R) as [[[W O H] D] _]. split; [exact D|]. split.
  - intros i t e Ht He. pose proof (O i (look c t) (look_slot c _ i t Ht)) as F. unfold look in F. cbn [v_elems v_alloc] in F. rewrite Forall_forall in F. apply F. exact He.
  - intros j h e Hj E. specialize (H j h Hj). unfold HOk in H. rewrite E in H. exact H.
Qed.
Print Assumptions C19_every_node_has_one_owner.
(** the nodes before and after an operation. What disappears (freed) was destroyed; nothing disappears when extracting, when insertion
    of a handle returns, and when moving or swapping handles *)
Theorem C19_no_node_is_lost_or_duplicated :
  forall (K V : Type) (c : Cfg K (node V)), good_cfg c -> node_cfg c -> forall rs w o n, nruns c rs w -> npre c o w ->
  match nexec c o w n with
  | Ret _ w' _ => exists freed,
      Permutation (addresses (nlook c w) ++ map (fun e : K * node V => n_addr (snd e)) (news o)) (addresses (nlook c w') ++ map (fun e : K * node V => n_addr (snd e)) freed) /\
      (match o with Extract _ _ | ExtractNth _ _ | InsertNode _ _ | InsertNodeHint _ _ | HNew | HMove _ | HSwap _ _ | HSet _ _ _ => True | _ => False end -> freed = [])
  | Exn _ w' _ => exists freed,
      Permutation (addresses (nlook c w) ++ map (fun e : K * node V => n_addr (snd e)) (news o)) (addresses (nlook c w') ++ map (fun e : K * node V => n_addr (snd e)) freed)
  | Undef => False
  end.
Proof.
  intros K V c HC HN rs w o n R P. pose proof (nexec_ok c HC HN o w n (proj1 (nruns_ok c HC HN rs w R)) P) as X.
  destruct (nexec c o w n) as [v w' n'|k w' n'|]; cbn [FoaBase.outcome] in X; [| |destruct X].
  - destruct X as [_ S]. destruct (conserve_step c o w _ _ P S) as (fr & Pm & E). exists fr. split; [exact Pm|]. intros Ho. apply E. destruct o; auto.
  - destruct X as (_ & _ & S). destruct (conserve_step c o w _ _ P S) as (fr & Pm & E). exists fr. exact Pm.
Qed.
Print Assumptions C19_no_node_is_lost_or_duplicated.
(** a handle destroys the node it owns when it is assigned to or destroyed, and no other *)
Theorem C19_handles_destroy_their_node :
  forall (K V : Type) (c : Cfg K (node V)), good_cfg c -> node_cfg c -> forall rs w o n, nruns c rs w -> npre c o w ->
  let expected := match o with
     | HAssign j _ | HDestroy j => match hand w j with Some h => match h_p h with Some e => [e] | None => [] end | None => [] end
     | _ => [] end in
  match nexec c o w n with Ret _ w' _ | Exn _ w' _ => gone w' = gone w ++ expected | Undef => False end.
Proof.
  intros K V c HC HN rs w o n R P expected. destruct (nruns_ok c HC HN rs w R) as [Inv0 _]. pose proof (gone_exec c o w n (proj1 Inv0) P) as X.
  pose proof (nexec_ok c HC HN o w n Inv0 P) as Y. replace expected with (destroys (nlook c w) o); [destruct (nexec c o w n); [exact X|exact X|destruct Y]|].
  subst expected. destruct o; cbn [destroys npre] in *; try reflexivity.
  - destruct P as (hi & hj & Hi & _). destruct (hand_err c w i hi Hi) as (_ & _ & V1). rewrite V1, Hi. destruct (h_p hi); reflexivity.
  - destruct P as (h & Hh). destruct (hand_err c w j h Hh) as (_ & _ & V1). rewrite V1, Hh. destruct (h_p h); reflexivity.
Qed.
Print Assumptions C19_handles_destroy_their_node.

(** extract(key): the handle added last owns the element with that key, which is no longer in the container, or is empty *)
Theorem C19_extract_by_key :
  forall (K V : Type) (c : Cfg K (node V)), good_cfg c -> node_cfg c -> forall rs w i k t n, nruns c rs w -> slot (boxes w) i = Some t ->
  match nexec c (Extract i k) w n with
  | Ret _ w' _ => exists h t', hands w' = hands w ++ [Some h] /\ slot (boxes w') i = Some t' /\ (forall j, j <> i -> slot (boxes w') j = slot (boxes w) j) /\
      h_p h = List.find (fun e => keqf c (pid t) k (fst e)) (contents c t) /\
      match h_p h with
      | Some e => keqf c (pid t) k (fst e) = true /\ h_al h = Some (aid t) /\ Permutation (contents c t) (e :: contents c t') /\
                  (forall x, In x (contents c t') -> keqf c (pid t) k (fst x) = false)
      | None => boxes w' = boxes w
      end
  | Exn kd w' _ => (kd = KHash \/ kd = KEq) /\ w' = w
  | Undef => False
  end.
Proof.
  intros K V c HC HN rs w i k t n R Ht. destruct (nruns_ok c HC HN rs w R) as [[[W O H] D] _]. pose proof (W i t Ht) as It. pose proof (slot_err _ _ _ Ht) as [Hn L].
  cbn [nexec]. unfold bind at 1, on_boxes, lens, run1. rewrite Ht. pose proof (extract_key_ok c t k n It) as X.
  destruct (m_extract c k t n) as [o t' n'|kd t' n'|]; cbn [FoaBase.outcome] in X; [| |destruct X].
  - destruct X as (I' & [Dh Dp Da] & Eo & X). rewrite bind_get. cbn [boxes]. rewrite slot_set, Nat.eqb_refl by exact L. cbn [of_option]. rewrite bind_ret.
    unfold push_hand. rewrite bind_modify. cbn [ret boxes hands]. exists (make_handle t' o), t'. split; [reflexivity|]. rewrite slot_set, Nat.eqb_refl by exact L. split; [reflexivity|].
    split; [intros j Hj; rewrite slot_set by exact L; apply Nat.eqb_neq in Hj; rewrite Hj; reflexivity|].
    rewrite (contents_eq c t It), (contents_eq c t' I'). unfold FoaSpec.lookup in Eo. 
    assert (h_p (make_handle t' o) = o) as -> by (destruct o; reflexivity). split; [exact Eo|]. destruct o as [e|].
    + split; [symmetry in Eo; apply List.find_some in Eo; apply Eo|]. split; [cbn; rewrite Da; reflexivity|]. split; [exact X|].
      intros x Hx. destruct (keqf c (pid t) k (fst x)) eqn:Ex; [|reflexivity]. exfalso.
      assert (In x (elems (arr t))) as Hin by (apply (Permutation_in _ (Permutation_sym X)); right; exact Hx).
      pose proof (inv_equiv c t It) as Eq. pose proof (lookup_uniq c (pid t) k _ x Eq (i_uniq _ _ It) Hin Ex) as Z. unfold FoaSpec.lookup in Z. rewrite Z in Eo. injection Eo as ->.
      pose proof (Permutation_NoDup X (uniq_nodup c _ _ Eq (i_uniq _ _ It))) as Nd. inversion Nd as [|? ? Nx _]; auto.
    + subst t'. rewrite FoaRun.set_same by exact Hn. reflexivity.
  - destruct X as (-> & Hk & _). rewrite FoaRun.set_same by exact Hn. split; [exact Hk|destruct w; reflexivity].
Qed.
Print Assumptions C19_extract_by_key.
(** extract(position) *)
Theorem C19_extract_by_position :
  forall (K V : Type) (c : Cfg K (node V)), good_cfg c -> node_cfg c -> forall rs w i m t n e, nruns c rs w -> slot (boxes w) i = Some t -> nth_error (contents c t) m = Some e ->
  match nexec c (ExtractNth i m) w n with
  | Ret _ w' _ => exists t', hands w' = hands w ++ [Some (Handle (Some e) (Some (aid t)))] /\ slot (boxes w') i = Some t' /\
      (forall j, j <> i -> slot (boxes w') j = slot (boxes w) j) /\ contents c t' = firstn m (contents c t) ++ skipn (S m) (contents c t)
  | _ => False
  end.
Proof.
  intros K V c HC HN rs w i m t n e R Ht He. destruct (nruns_ok c HC HN rs w R) as [[[W O H] D] _]. pose proof (W i t Ht) as It. pose proof (slot_err _ _ _ Ht) as [Hn L].
  rewrite (contents_eq c t It) in *. destruct (nth_it_ok c t m It) as (it & Ei & A); [assert (m < length (elems (arr t)))%nat by (apply nth_error_Some; congruence); lia|].
  cbn [nexec]. unfold bind at 1, on_boxes, lens, run1. rewrite Ht, bind_get, Ei. cbn [of_option]. rewrite bind_ret.
  pose proof (extract_it_ok c t m it e n It A He) as X.
  destruct (extract_it it t n) as [o t' n'|kd t' n'|]; cbn [FoaBase.outcome] in X; [|destruct X|destruct X].
  destruct X as (-> & I' & [Dh Dp Da] & Ee). rewrite bind_get. cbn [boxes]. rewrite slot_set, Nat.eqb_refl by exact L. cbn [of_option]. rewrite bind_ret.
  unfold push_hand. rewrite bind_modify. cbn [ret boxes hands make_handle]. exists t'. rewrite Da. split; [reflexivity|]. rewrite slot_set, Nat.eqb_refl by exact L. split; [reflexivity|].
  split; [intros j Hj; rewrite slot_set by exact L; apply Nat.eqb_neq in Hj; rewrite Hj; reflexivity|]. rewrite (contents_eq c t' I'). exact Ee.
Qed.
Print Assumptions C19_extract_by_position.
(** insert(std::move(nh)). The new handle is the member node of the result. An exception leaves container and handle as they were, except
    for exceptions of the hash function, which may lose elements and the node if they occur while rehashing *)
Theorem C19_insert_node_handle :
  forall (K V : Type) (c : Cfg K (node V)), good_cfg c -> node_cfg c -> forall rs w i j t h n, nruns c rs w -> npre c (InsertNode i j) w ->
  slot (boxes w) i = Some t -> hand w j = Some h ->
  match nexec c (InsertNode i j) w n with
  | Ret v w' _ => exists t' h' hr, slot (boxes w') i = Some t' /\ hand w' j = Some h' /\ hands w' = set (hands w) j (Some h') ++ [Some hr] /\
      (forall k, k <> i -> slot (boxes w') k = slot (boxes w) k) /\ h_p h' = None /\
      match h_p h with
      | None => v = NIns None false /\ h_p hr = None /\ t' = t                                     (* {end(),false,{}} *)
      | Some e =>
          match List.find (fun x => keqf c (pid t) (fst e) (fst x)) (contents c t) with
          | None => v = NIns (Some e) true /\ h_p hr = None /\ Permutation (contents c t') (e :: contents c t)   (* the same node *)
          | Some y => v = NIns (Some y) false /\ h_p hr = Some e /\ h_al hr = h_al h /\ t' = t
          end
      end
  | Exn k w' _ => h_p h <> None /\ exists t' h', slot (boxes w') i = Some t' /\ hand w' j = Some h' /\ hands w' = set (hands w) j (Some h') /\
      (forall k, k <> i -> slot (boxes w') k = slot (boxes w) k) /\
      ((h' = h /\ contents c t' = contents c t) \/
       (k = KHash /\ h_p h' = None /\ exists lost, Permutation (contents c t) (lost ++ contents c t')))
  | Undef => False
  end.
Proof.
  intros K V c HC HN rs w i j t h n R P Ht Hh. destruct (nruns_ok c HC HN rs w R) as [[[W O H] D] _]. pose proof (W i t Ht) as It. pose proof (slot_err _ _ _ Ht) as [Hn L].
  destruct (hand_err c w j h Hh) as (Hj & Lj & Hv). cbn [npre] in P. destruct P as (t0 & h0 & Ht0 & Hh0 & Ha). rewrite Ht in Ht0. injection Ht0 as <-. rewrite Hh in Hh0. injection Hh0 as <-.
  cbn [nexec]. unfold bind at 1, on_box_hand. rewrite Ht, Hh. pose proof (insert_node_ok c HC HN t h n It Ha) as X.
  destruct (m_insert_node c (t, h) n) as [r [t' h'] n'|kd [t' h'] n'|]; cbn [FoaBase.outcome fst snd] in X; [| |destruct X].
  - cbn [fst snd]. set (w1 := NW _ _ _).
    assert (slot (boxes w1) i = Some t') as S1 by (cbn [w1 boxes]; rewrite slot_set, Nat.eqb_refl by exact L; reflexivity).
    assert (hand w1 j = Some h') as S2 by (unfold w1; rewrite hand_set_iff, Nat.eqb_refl by exact Lj; reflexivity).
    assert (forall k, k <> i -> slot (boxes w1) k = slot (boxes w) k) as S3 by (intros k Hk; cbn [w1 boxes]; rewrite slot_set by exact L; apply Nat.eqb_neq in Hk; rewrite Hk; reflexivity).
    destruct (h_p h) as [e|] eqn:Ep.
    + destruct X as (l & b & -> & I' & D' & x & Hc & X). cbn [read_back]. rewrite bind_bind, bind_get, S1. cbn [of_option]. rewrite bind_bind, bind_ret, bind_bind. unfold bind at 1.
      rewrite (read_cell c t' l x w1 n' I' Hc). rewrite bind_ret. rewrite (contents_eq c t It). unfold FoaSpec.lookup in X.
      destruct (List.find _ (elems (arr t))) as [y|].
      * destruct X as (-> & -> & [= -> ->]). rewrite bind_bind, bind_get, S2. cbn [of_option]. rewrite bind_bind, bind_ret.
        unfold h_move_construct, h_empty. rewrite Ep. rewrite (take_ok h_default h e eq_refl Ep (H j h Hh)). cbn [of_option]. rewrite bind_bind, bind_ret. cbn [fst snd].
        unfold set_hand, push_hand. rewrite bind_bind, bind_modify. rewrite bind_modify. cbn [ret boxes hands gone w1].
        exists t, (Handle None None), (Handle (Some e) (Some (n_owner (snd e)))). split; [exact S1|].
        assert ((j < length (set (hands w) j (Some h)))%nat) as Lj' by (rewrite set_len by exact Lj; exact Lj).
        split; [unfold hand; cbn [hands]; rewrite nth_error_app1 by (rewrite set_len by exact Lj'; exact Lj'); rewrite set_err, Nat.eqb_refl by exact Lj'; reflexivity|].
        rewrite (FoaRun.set_same (hands w)) by exact Hj. split; [reflexivity|]. split; [exact S3|]. split; [reflexivity|]. split; [reflexivity|]. split; [reflexivity|].
        split; [|reflexivity]. specialize (H j h Hh). unfold HOk in H. rewrite Ep in H. rewrite H. reflexivity.
      * destruct X as (-> & -> & -> & Pm). unfold push_hand. rewrite bind_modify. cbn [ret boxes hands gone]. exists t', h_default, h_default. split; [exact S1|].
        split; [unfold hand; cbn [hands]; rewrite nth_error_app1 by (cbn [w1 hands]; rewrite set_len by exact Lj; exact Lj); unfold hand in S2; exact S2|].
        split; [reflexivity|]. split; [exact S3|]. split; [reflexivity|]. split; [reflexivity|]. split; [reflexivity|]. rewrite (contents_eq c t' I'). exact Pm.
    + destruct X as (-> & [= -> ->]). cbn [read_back]. rewrite bind_ret. unfold push_hand. rewrite bind_modify. cbn [ret boxes hands gone]. exists t, h, h_default. split; [exact S1|].
      split; [unfold hand; cbn [hands]; rewrite nth_error_app1 by (cbn [w1 hands]; rewrite set_len by exact Lj; exact Lj); unfold hand in S2; exact S2|].
      split; [reflexivity|]. split; [exact S3|]. split; [exact Ep|]. auto.
  - destruct X as (Eh & R' & I' & D' & X). cbn [fst snd] in *. split; [intros C; unfold h_empty in Eh; rewrite C in Eh; discriminate|]. exists t', h'. cbn [boxes hands].
    rewrite slot_set, Nat.eqb_refl by exact L. split; [reflexivity|]. split; [rewrite hand_set_iff, Nat.eqb_refl by exact Lj; reflexivity|]. split; [reflexivity|].
    split; [intros k Hk; rewrite slot_set by exact L; apply Nat.eqb_neq in Hk; rewrite Hk; reflexivity|].
    rewrite (contents_eq c t It), (contents_eq c t' I'). destruct X as [[-> Ee]|(-> & -> & lost & Pm)]; [left; auto|right; eauto].
Qed.
Print Assumptions C19_insert_node_handle.
(** insert(hint,std::move(nh)): a node that is not inserted stays in nh *)
Theorem C19_insert_node_handle_with_hint :
  forall (K V : Type) (c : Cfg K (node V)), good_cfg c -> node_cfg c -> forall rs w i j t h n, nruns c rs w -> npre c (InsertNodeHint i j) w ->
  slot (boxes w) i = Some t -> hand w j = Some h ->
  match nexec c (InsertNodeHint i j) w n with
  | Ret v w' _ =>
      match h_p h with
      | None => v = NIns None false /\ w' = w
      | Some e =>
          match List.find (fun x => keqf c (pid t) (fst e) (fst x)) (contents c t) with
          | Some y => v = NIns (Some y) false /\ w' = w
          | None => v = NIns (Some e) true /\ exists t' h', boxes w' = set (boxes w) i (Some t') /\ hands w' = set (hands w) j (Some h') /\ h_p h' = None /\
                    Permutation (contents c t') (e :: contents c t)
          end
      end
  | Exn k w' _ => h_p h <> None /\ exists t' h', boxes w' = set (boxes w) i (Some t') /\ hands w' = set (hands w) j (Some h') /\
      ((h' = h /\ contents c t' = contents c t) \/
       (k = KHash /\ h_p h' = None /\ exists lost, Permutation (contents c t) (lost ++ contents c t')))
  | Undef => False
  end.
Proof.
  intros K V c HC HN rs w i j t h n R P Ht Hh. destruct (nruns_ok c HC HN rs w R) as [[[W O H] D] _]. pose proof (W i t Ht) as It. pose proof (slot_err _ _ _ Ht) as [Hn L].
  destruct (hand_err c w j h Hh) as (Hj & Lj & Hv). cbn [npre] in P. destruct P as (t0 & h0 & Ht0 & Hh0 & Ha). rewrite Ht in Ht0. injection Ht0 as <-. rewrite Hh in Hh0. injection Hh0 as <-.
  cbn [nexec]. unfold bind at 1, on_box_hand. rewrite Ht, Hh. pose proof (insert_node_ok c HC HN t h n It Ha) as X.
  destruct (m_insert_node c (t, h) n) as [r [t' h'] n'|kd [t' h'] n'|]; cbn [FoaBase.outcome fst snd] in X; [| |destruct X].
  - cbn [fst snd]. destruct (h_p h) as [e|] eqn:Ep.
    + destruct X as (l & b & -> & I' & D' & x & Hc & X). cbn [read_back]. rewrite bind_get. cbn [boxes]. rewrite slot_set, Nat.eqb_refl by exact L. cbn [of_option]. rewrite bind_ret. unfold bind at 1.
      rewrite (read_cell c t' l x _ n' I' Hc). cbn [ret]. rewrite (contents_eq c t It). unfold FoaSpec.lookup in X. destruct (List.find _ (elems (arr t))) as [y|].
      * destruct X as (-> & -> & [= -> ->]). rewrite (FoaRun.set_same (boxes w)), (FoaRun.set_same (hands w)) by assumption. split; [reflexivity|destruct w; reflexivity].
      * destruct X as (-> & -> & -> & Pm). split; [reflexivity|]. exists t', h_default. rewrite (contents_eq c t' I'). auto.
    + destruct X as (-> & [= -> ->]). rewrite (FoaRun.set_same (boxes w)), (FoaRun.set_same (hands w)) by assumption. split; [reflexivity|destruct w; reflexivity].
  - destruct X as (Eh & R' & I' & D' & X). cbn [fst snd] in *. split; [intros C; unfold h_empty in Eh; rewrite C in Eh; discriminate|]. exists t', h'. split; [reflexivity|]. split; [reflexivity|].
    rewrite (contents_eq c t It), (contents_eq c t' I'). destruct X as [[-> Ee]|(-> & -> & lost & Pm)]; [left; auto|right; eauto].
Qed.
Print Assumptions C19_insert_node_handle_with_hint.
(** moving, assigning and swapping handles, also with themselves *)
Theorem C19_move_assign_and_swap_handles :
  forall (K V : Type) (c : Cfg K (node V)), good_cfg c -> node_cfg c -> forall rs w i j hi hj n, nruns c rs w -> hand w i = Some hi -> hand w j = Some hj ->
  (match nexec c (HMove j) w n with
   | Ret _ w' _ => exists h1 h2, boxes w' = boxes w /\ hands w' = set (hands w) j (Some h1) ++ [Some h2] /\ h_p h1 = None /\ h_p h2 = h_p hj
   | _ => False end) /\
  (npre c (HAssign i j) w ->
   match nexec c (HAssign i j) w n with
   | Ret _ w' _ => boxes w' = boxes w /\ option_map h_p (hand w' i) = Some (if Nat.eqb i j then None else h_p hj) /\ option_map h_p (hand w' j) = Some None /\
       (forall k, k <> i -> k <> j -> hand w' k = hand w k)
   | _ => False end) /\
  (npre c (HSwap i j) w ->
   match nexec c (HSwap i j) w n with
   | Ret _ w' _ => boxes w' = boxes w /\ option_map h_p (hand w' i) = Some (h_p hj) /\ option_map h_p (hand w' j) = Some (h_p hi) /\
       (forall k, k <> i -> k <> j -> hand w' k = hand w k)
   | _ => False end).
Proof.
  intros K V c HC HN rs w i j hi hj n R Hi Hj. destruct (nruns_ok c HC HN rs w R) as [[[W O H] D] _].
  destruct (hand_err c w i hi Hi) as (Ei & Li & Vi). destruct (hand_err c w j hj Hj) as (Ej & Lj & Vj). split; [|split].
  - cbn [nexec]. rewrite bind_get, Hj. cbn [of_option]. rewrite bind_ret. destruct (move_construct_h hj (H j hj Hj)) as (h1 & h2 & -> & _ & _ & E1 & E2). cbn [of_option]. rewrite bind_ret. cbn [fst snd].
    unfold set_hand, push_hand. rewrite bind_modify, bind_modify. cbn [ret boxes hands gone]. exists h2, h1. auto.
  - cbn [npre nexec]. intros (hi' & hj' & Hi' & Hj' & Ha). rewrite Hi in Hi'. injection Hi' as <-. rewrite Hj in Hj'. injection Hj' as <-.
    rewrite bind_get, Hi. cbn [of_option]. rewrite bind_ret, Hj. cbn [of_option]. rewrite bind_ret. destruct (Nat.eqb i j) eqn:E.
    + apply Nat.eqb_eq in E as <-. destruct (self_assign_h hi (H i hi Hi)) as (h1 & -> & _ & E1). cbn [of_option]. rewrite bind_bind, bind_ret. cbn [fst snd]. unfold set_hand, set_gone.
      rewrite bind_bind, bind_modify, bind_modify. cbn [ret boxes hands gone]. split; [reflexivity|]. rewrite hand_set_iff, Nat.eqb_refl by exact Li. cbn [option_map]. rewrite E1.
      split; [reflexivity|]. split; [reflexivity|]. intros k Hk _. rewrite hand_set_iff by exact Li. apply Nat.eqb_neq in Hk. rewrite Hk. reflexivity.
    + destruct (move_assign_h c hi hj (H i hi Hi) (H j hj Hj) Ha) as (h1 & h2 & -> & _ & _ & E1 & E2). cbn [of_option]. rewrite bind_bind, bind_ret. cbn [fst snd]. unfold set_hand, set_gone.
      rewrite !bind_bind, bind_modify, bind_bind, bind_modify, bind_modify. cbn [ret boxes hands gone]. split; [reflexivity|].
      assert (j < length (set (hands w) i (Some h1)))%nat as Lj' by (rewrite set_len by exact Li; exact Lj). apply Nat.eqb_neq in E as E'.
      rewrite !hand_set_iff by assumption. rewrite !Nat.eqb_refl, E. cbn [option_map]. rewrite E1, E2. split; [reflexivity|]. split; [reflexivity|].
      intros k Hk Hk2. apply Nat.eqb_neq in Hk, Hk2. rewrite hand_set_iff, Hk2, hand_set_iff, Hk by assumption. reflexivity.
  - cbn [npre nexec]. intros (hi' & hj' & Hi' & Hj' & Ha). rewrite Hi in Hi'. injection Hi' as <-. rewrite Hj in Hj'. injection Hj' as <-.
    rewrite bind_get, Hi. cbn [of_option]. rewrite bind_ret, Hj. cbn [of_option]. rewrite bind_ret. destruct (Nat.eqb i j) eqn:E.
    + apply Nat.eqb_eq in E as <-. rewrite bind_ret. cbn [ret]. assert (hj = hi) as -> by congruence. rewrite Hi. auto.
    + destruct (swap_h c hi hj (H i hi Hi) (H j hj Hj) Ha) as (h1 & h2 & -> & _ & _ & E1 & E2). cbn [of_option]. rewrite bind_bind, bind_ret. cbn [fst snd]. unfold set_hand.
      rewrite bind_bind, bind_modify, bind_modify. cbn [ret boxes hands gone]. split; [reflexivity|].
      assert (j < length (set (hands w) i (Some h1)))%nat as Lj' by (rewrite set_len by exact Li; exact Lj).
      rewrite !hand_set_iff by assumption. rewrite !Nat.eqb_refl, E. cbn [option_map]. rewrite E1, E2. split; [reflexivity|]. split; [reflexivity|].
      intros k Hk Hk2. apply Nat.eqb_neq in Hk, Hk2. rewrite hand_set_iff, Hk2, hand_set_iff, Hk by assumption. reflexivity.
Qed.
Print Assumptions C19_move_assign_and_swap_handles.

(** a program with three containers and nine handles: insertions that succeed (key 5; key 300 set through the handle) and fail (keys 30, 31),
    swaps and self-swap, assignment and self-assignment; the nodes 1013, 1018 and 3002 were destroyed by handles *)
Example C19_example : exists rs w, nruns (ncfg nothrow) rs w /\ node_cfg (ncfg nothrow) /\ see (Some (rs, w)) 76 =
  Some ([], [Some (None, None); Some (None, None); Some (None, None); Some (None, None); Some (None, None); Some (None, None); None; None; Some (None, None)],
    [(13, 1013); (18, 1018); (2, 3002)], [Some 37; Some 11; Some 1]) /\
  map snd (firstn 8 (skipn 57 rs)) =
    [NDone (NIns (Some (5, Node 1005 7 5)) true); NDone NUnit; NDone (NIns (Some (30, Node 2030 7 30)) false); NDone (NIns (Some (30, Node 2030 7 30)) false); NDone NUnit;
     NDone (NIns (Some (31, Node 2031 7 31)) false); NDone NUnit; NDone NUnit].
Proof.
  destruct (nsteps nothrow nops1 (NW [] [] [])) as [[rs w]|] eqn:E; [|vm_compute in E; discriminate E]. exists rs, w.
  split; [apply (nsteps_runs nothrow nops1 [] _ rs w (nruns_nil _) E)|]. split; [apply ncfg_node; reflexivity|].
  vm_compute in E. injection E as <- <-. vm_compute. auto.
Qed.
(** the hash function throws while a full container rehashes for a node handle: the node is destroyed, no longer owned by the handle, whose
    allocator object stays alive (it is never destroyed, as the destructor of an empty handle does nothing) *)
Example C19_insertion_may_lose_the_node : exists rs w, nruns (ncfg late_hash) rs w /\ node_cfg (ncfg late_hash) /\ see (Some (rs, w)) 32 =
  Some ([NDone NUnit; NThrew KHash], [Some (None, Some 7)], [], [Some 29; Some 0]).
Proof.
  destruct (nsteps late_hash nops2 (NW [] [] [])) as [[rs w]|] eqn:E; [|vm_compute in E; discriminate E]. exists rs, w.
  split; [apply (nsteps_runs late_hash nops2 [] _ rs w (nruns_nil _) E)|]. split; [apply ncfg_node; reflexivity|].
  vm_compute in E. injection E as <- <-. vm_compute. auto.
Qed.
