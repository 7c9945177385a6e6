(** C56. Pointer and reference stability of the node-based containers.
    [fca_goes], [node_goes]: the containers that may hold the elements of container i after the operation; [fca_ends], [node_ends]: the elements the operation may have ended
    (PtrSpec.v). All other elements are afterwards the same objects: at the same address, with the same key and value. *)
From Coq Require Import NArith ZArith Bool List Arith Lia Permutation.
From Verif Require Import FloatModel FoaModel FoaBase FcaLinks FcaModel FcaSpec FcaWorld FcaRun FcaRun4 FcaProps FcaProps2  FcaExamples PtrSpec PtrFacts.
From Verif Require FoaSpec FoaWorld FoaRun NodeSpec FoaNodeModel FoaNode FoaNode2 FoaArr NodeExamples FoaExamples.
Import ListNotations.
Local Open Scope N_scope.

(** unordered_map, unordered_set, unordered_multimap, unordered_multiset: element x of container i, before and after an operation that returns. An element is (address, (key, value)) *)
Theorem C56_closed_addressing_pointers_stay_valid :
  forall (K V : Type) (c : FCfg K V) rs w o n r w' n' i v x, runs c rs w -> pre c o w -> exec c o w n = Ret r w' n' ->
  is_at (look_all w) i v -> In x (v_elems v) ->
  let allocator j := match nth_error (containers (look_all w)) j with Some (Some u) => v_alloc u | _ => 0 end in
  ~ fca_ends (keqf (base c) (v_pred v)) (pocma (base c)) allocator o i (v_elems v) x ->
  exists i' v' x', In i' (fca_goes (length (containers (look_all w))) o i) /\ is_at (look_all w') i' v' /\ In x' (v_elems v') /\ fca_same (keqf (base c) (v_pred v)) o i x x'.
Proof.
  intros K V c rs w o n r w' n' i v x R P E Hi Hx al N. pose proof (proj1 (runs_ok c _ _ _ R)) as W. pose proof (exec_ok c w o n W P) as X. rewrite E in X. cbn [FoaBase.outcome] in X. destruct X as (_ & S & _).
  eapply fca_stable; try eassumption. intros a b ->. destruct P as [Nab _]. exact Nab.
Qed.
Print Assumptions C56_closed_addressing_pointers_stay_valid.
(** the same for operations on one container that end with an exception, unless the hash function threw it *)
Theorem C56_closed_addressing_exceptions :
  forall (K V : Type) (c : FCfg K V) rs w j o n k w' n' v x, runs c rs w -> pre c (On j o) w -> exec c (On j o) w n = Exn k w' n' -> k <> KHash ->
  is_at (look_all w) j v -> In x (v_elems v) ->
  ~ fca_ends (keqf (base c) (v_pred v)) (pocma (base c)) (fun _ => 0) (On j o) j (v_elems v) x ->
  exists v', is_at (look_all w') j v' /\ In x (v_elems v').
Proof.
  intros K V c rs w j o n k w' n' v x R P E Hk Hi Hx N. pose proof (proj1 (runs_ok c _ _ _ R)) as W. pose proof (exec_ok c w (On j o) n W P) as X. rewrite E in X. cbn [FoaBase.outcome] in X. destruct X as (_ & _ & S & _).
  cbn [spec] in S. destruct S as (v0 & l' & H0 & S & ->). pose proof (is_at_fun _ _ _ _ Hi H0) as ->. exists (with_elems v l'). split; [eapply put_self; exact Hi|]. cbn [with_elems v_elems].
  eapply fca_one_throws; [exact S|exact Hk|exact Hx|]. intros Q. apply N. cbn [fca_ends]. split; [reflexivity|]. destruct o; auto; contradiction.
Qed.
Print Assumptions C56_closed_addressing_exceptions.

(** unordered_node_map, unordered_node_set: elements are (key, node), a node has an address and a value. (insert_or_assign, copies and unequal allocators are not operations of NodeSpec programs.) *)
Section Node.
Import FoaSpec FoaWorld NodeSpec FoaNodeModel.
Theorem C56_node_containers_pointers_stay_valid :
  forall (K V : Type) (c : Cfg K (NodeSpec.node V)), FoaArr.good_cfg c -> node_cfg c -> forall rs w o n r w' n' i v x, nruns c rs w -> npre c o w -> nexec c o w n = Ret r w' n' ->
  nth_error (fst (nlook c w)) i = Some (Some v) -> In x (FoaSpec.v_elems v) ->
  ~ node_ends (keqf c (FoaSpec.v_pred v)) o i (FoaSpec.v_elems v) x ->
  exists i' v', In i' (node_goes (length (fst (nlook c w))) o i) /\ nth_error (fst (nlook c w')) i' = Some (Some v') /\ In x (FoaSpec.v_elems v').
Proof.
  intros K V c HC NC rs w o n r w' n' i v x R P E Hi Hx N. pose proof (proj1 (FoaNode2.nruns_ok c HC NC rs w R)) as I. pose proof (FoaNode2.nexec_ok c HC NC o w n I P) as X. rewrite E in X. cbn [FoaBase.outcome] in X.
  destruct (nlook c w) as [u hs] eqn:Ew. destruct (nlook c w') as [u' hs'] eqn:Ew'. cbn [fst] in *.
  eapply (node_stable (keqf c) (moves c)); [| | |apply X|exact Hi|exact Hx|exact N].
  - intros a b ->. destruct P as (Q & _). apply Q.
  - intros j k v0 ->. destruct P as (_ & Q & _). exact Q.
  - intros a b ->. destruct P as (_ & Q & _). exact Q.
Qed.
(** the same for operations that end with an exception, unless the hash function threw it *)
Theorem C56_node_containers_exceptions :
  forall (K V : Type) (c : Cfg K (NodeSpec.node V)), FoaArr.good_cfg c -> node_cfg c -> forall rs w o n k w' n' i v x, nruns c rs w -> npre c o w -> nexec c o w n = Exn k w' n' -> k <> KHash ->
  match o with Box (FoaSpec.On _ _) | NodeSpec.Extract _ _ | NodeSpec.InsertNode _ _ | NodeSpec.InsertNodeHint _ _ => True | _ => False end ->
  nth_error (fst (nlook c w)) i = Some (Some v) -> In x (FoaSpec.v_elems v) ->
  match o with
  | Box (FoaSpec.On j (FoaSpec.AssignList _)) => i <> j
  | Box (FoaSpec.On j (FoaSpec.EraseIf pr)) => i <> j \/ pr x = false
  | _ => True
  end ->
  exists v', nth_error (fst (nlook c w')) i = Some (Some v') /\ In x (FoaSpec.v_elems v').
Proof.
  intros K V c HC NC rs w o n k w' n' i v x R P E Hk Ho Hi Hx N. pose proof (proj1 (FoaNode2.nruns_ok c HC NC rs w R)) as I. pose proof (FoaNode2.nexec_ok c HC NC o w n I P) as X. 
  rewrite E in X. cbn [FoaBase.outcome] in X. destruct X as (KR & _ & X).
  assert (k <> KTransfer) as Kt. { intros ->. destruct KR as [A|(j & T)]; [discriminate A|]. destruct NC as (_ & F). rewrite F in T. discriminate T. }
  destruct (nlook c w) as [u hs] eqn:Ew. destruct (nlook c w') as [u' hs'] eqn:Ew'. cbn [fst] in *.
  destruct o as [o|j k0|j m|j h|j h| | | | | |]; try contradiction; cbn [nspec] in X.
  - destruct o; try contradiction. destruct X as (_ & r' & S & E'). destruct r' as [|k']; [discriminate E'|]. injection E' as <-. cbn [fst FoaSpec.spec] in S.
    destruct S as (v0 & l' & H0 & S & ->). destruct (Nat.eq_dec i i0) as [->|D].
    + rewrite Hi in H0. injection H0 as <-. eexists. split; [eapply set_self; exact Hi|]. cbn [FoaSpec.v_elems]. eapply node_one_throws; [exact S|exact Hk|exact Kt|exact Hx|].
      intros Q. destruct o; try contradiction. destruct N as [N|N]; [congruence|]. rewrite N in Q. discriminate Q.
    + exists v. split; [|exact Hx]. erewrite set_other; [exact Hi|exact H0|exact D].
  - destruct X as (v0 & _ & [_ X]). injection X as -> ->. exists v. auto.
  - destruct X as (v0 & h0 & _ & _ & X). destruct h0; [|destruct X as [A _]; discriminate A]. destruct X as [X|(A & _)]; [|contradiction]. injection X as -> ->. exists v. auto.
  - destruct X as (v0 & h0 & _ & _ & X). destruct h0; [|destruct X as [A _]; discriminate A]. destruct X as [X|(A & _)]; [|contradiction]. injection X as -> ->. exists v. auto.
Qed.
End Node.
Print Assumptions C56_node_containers_pointers_stay_valid.
Print Assumptions C56_node_containers_exceptions.

(** *** concrete cases: two containers; the element with key 3 of container 0, at address 3, when container 0 is rehashed, when it is merged into container 1, when both are swapped *)
Definition ops_p : list (op N N) := New 0 0 0 0 :: New 0 0 0 0 :: ins 0 (seq 0 16) ++ ins 1 [5; 6]%nat.
Definition w_p : @mworld N N := Eval vm_compute in w_of nothrow false false true ops_p.
Definition where_is (w : @mworld N N) (k : N) : list (nat * (nat * (N * N))) :=
  concat (map (fun p => match snd p with Some v => map (fun x => (fst p, x)) (filter (fun x => fst (snd x) =? k) (v_elems v)) | None => [] end) (combine (seq 0 9) (containers (look_all w)))).
Definition after (o : op N N) (w : @mworld N N) : @mworld N N := match exec (ecfg nothrow false false) o w 0%nat with Ret _ w' _ => w' | _ => w end.
Example C56_closed_addressing_example :
  (exists rs, runs (ecfg nothrow false false) rs w_p) /\
  (forall o, In o [On 0 (Rehash 500); Merge 1 0; Swap 0 1; On 0 (EraseKey 4); On 0 (InsertOrAssign 7 1)] -> pre (ecfg nothrow false false) o w_p /\ exists r w' n', exec (ecfg nothrow false false) o w_p 0%nat = Ret r w' n') /\
  where_is w_p 3 = [(0%nat, (3%nat, (3, 103)))] /\ where_is (after (On 0 (Rehash 500)) w_p) 3 = where_is w_p 3 /\ where_is (after (Merge 1 0) w_p) 3 = [(1%nat, (3%nat, (3, 103)))] /\
  where_is (after (Swap 0 1) w_p) 3 = [(1%nat, (3%nat, (3, 103)))].
Proof.
  split.
  { assert (check nothrow false false true ops_p start 0%nat = Some w_p) as E by vm_cast_no_check (eq_refl (Some w_p)).
    destruct (check_runs nothrow false false true ops_p start 0%nat w_p [] E (runs_nil _ _)) as (rs & R). exists rs. eapply runs_weaken; [|exact R]. cbn. auto. }
  split.
  { intros o Ho. split; [|destruct Ho as [<-|[<-|[<-|[<-|[<-|[]]]]]]; eexists _, _, _; vm_compute; reflexivity].
    apply preb_ok. destruct Ho as [<-|[<-|[<-|[<-|[<-|[]]]]]]; vm_compute; reflexivity. }
  split; [vm_compute; reflexivity|]. split; [vm_compute; reflexivity|]. split; vm_compute; reflexivity.
Qed.

Section NodeExample.
Import FoaSpec NodeSpec FoaNodeModel NodeExamples.
Definition nops_p : list (nat * nop N N) := (O, Box (New 0 0 7 0)) :: nins 0 7 1000 (seq 0 29).
Definition nw_p : nworld N N := Eval vm_compute in match nsteps nothrow nops_p (NW [] [] []) with Some (_, w) => w | None => NW [] [] [] end.
Definition o_p : nop N N := Box (On 0 (Insert (100, Node 5000 7 100))).
Definition nw_p' : nworld N N := Eval vm_compute in match nexec (ncfg nothrow) o_p nw_p O with Ret _ w' _ => w' | _ => nw_p end.
Definition nodes_of (w : nworld N N) : list (N * node N) := match fst (nlook (ncfg nothrow) w) with Some v :: _ => FoaSpec.v_elems v | _ => [] end.
Definition cap_of (w : nworld N N) : option N := match boxes w with Some t :: _ => Some (FoaModel.capacity (FoaModel.arr t)) | _ => None end.
(** the 30th insertion rehashes: the capacity changes, the order of the elements too, the node of key 5 is where it was *)
Example C56_node_example :
  (exists rs, nruns (ncfg nothrow) rs nw_p) /\ npre (ncfg nothrow) o_p nw_p /\ (exists r n', nexec (ncfg nothrow) o_p nw_p O = Ret r nw_p' n') /\
  cap_of nw_p = Some 29 /\ cap_of nw_p' = Some 59 /\ In (5, Node 1005 7 5) (nodes_of nw_p) /\ In (5, Node 1005 7 5) (nodes_of nw_p').
Proof.
  split; [|split; [|split; [|split; [|split; [|split]]]]]; try (vm_compute; reflexivity).
  - eexists. eapply (nsteps_runs nothrow nops_p []); [constructor|]. vm_compute. reflexivity.
  - apply npreb_ok. vm_compute. reflexivity.
  - eexists _, _. vm_compute. reflexivity.
  - vm_compute. tauto.
  - vm_compute. tauto.
Qed.
(** the same insertion when the allocation of the new arrays fails *)
Definition no_memory : FoaModel.kind -> nat -> bool := fun k n => match k with KAlloc => Nat.leb 900 n | _ => false end.
Definition nw_q : nworld N N := Eval vm_compute in match nexec (ncfg no_memory) o_p nw_p 900%nat with Exn _ w' _ => w' | _ => NW [] [] [] end.
Example C56_node_exception_example :
  (exists rs, nruns (ncfg no_memory) rs nw_p) /\ npre (ncfg no_memory) o_p nw_p /\ (exists n', nexec (ncfg no_memory) o_p nw_p 900%nat = Exn KAlloc nw_q n') /\
  In (5, Node 1005 7 5) (nodes_of nw_p) /\ In (5, Node 1005 7 5) (nodes_of nw_q).
Proof.
  split; [|split; [|split; [|split]]].
  - eexists. eapply (nsteps_runs no_memory nops_p []); [constructor|]. vm_compute. reflexivity.
  - apply npreb_ok. vm_compute. reflexivity.
  - eexists. vm_compute. reflexivity.
  - vm_compute. tauto.
  - vm_compute. tauto.
Qed.
End NodeExample.
