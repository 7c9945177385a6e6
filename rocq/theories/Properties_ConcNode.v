(** C61: node handles of boost::concurrent_node_map/set. The machine is that of ConcNodeModel.v: n threads, any number of containers and of handles, every interleaving.
    [nruns c n N]: N is reached. [nodes N] are the elements in containers and handles, (key, node); a node is known by its address.
    [arg N t = Some h]: the call in progress of thread t is an insertion from handle h or an extraction to be returned in handle h. *)
From Coq Require Import NArith Bool List Arith Lia Permutation.
From Verif Require Properties_Conc.
From Verif Require Import SizeModel GroupModel FoaGroup FoaModel FoaArr FoaSpec FoaWorld NodeSpec FoaNodeModel FoaExamples NodeExamples
  ConcSpec ConcModel ConcSys ConcSys2 ConcLin3 ConcLog ConcNodeModel ConcNodeSpec ConcNode ConcNode2 ConcNode3 ConcNodeExec.
Import ListNotations.
Local Open Scope N_scope.
Section P.
Context {K M : Type} (c : Cfg K (node M)).
Hypothesis HC : good_cfg c.
Notation stored := Properties_Conc.stored. Notation holds := Properties_Conc.holds.
Notation At := ConcModel.At.
Notation elem := (K * node M)%type.
Notation nconf := (@nconf K M).
Definition address (e : elem) : N := n_addr (snd e).
Lemma handles_in (l : list (option elem)) h e : nth_error l h = Some (Some e) -> In e (in_handles l).
Proof. intros H. apply in_flat_map. exists (Some e). split; [eapply nth_error_In; exact H|left; reflexivity]. Qed.

(** at any moment a node is in at most one place: in one container, or in one handle *)
Theorem C61_a_node_is_in_one_place : forall n N, nruns c n N -> NoDup (map address (nodes N)).
Proof. intros n N R. destruct (nruns_ok c HC n N R) as [Iv _]. exact (ni_nd _ _ Iv). Qed.
Lemma nodup_app_disj {X} (l l' : list X) x : NoDup (l ++ l') -> In x l -> In x l' -> False.
Proof. induction l as [|y l IH]; [intros _ []|]. cbn. intros D [<-|H] H'; inversion D as [|? ? Nin D1]; subst; [apply Nin; apply in_or_app; auto|eapply IH; eassumption]. Qed.
Lemma stored_in_containers (C : @conf K (node M)) d s (e : elem) : holds C d s -> In e (stored s) -> In e (in_containers C).
Proof. intros Hb H. apply in_flat_map. exists (Some s). split; [eapply nth_error_In; exact Hb|exact H]. Qed.
Theorem C61_handles_and_containers_are_disjoint : forall n N d s h e e', nruns c n N ->
  holds (nc N) d s -> In e (stored s) -> nth_error (hs N) h = Some (Some e') -> address e <> address e'.
Proof.
  intros n N d s h e e' R Hb He Hh E. pose proof (C61_a_node_is_in_one_place n N R) as D. unfold nodes in D. rewrite map_app in D. eapply (nodup_app_disj _ _ (address e) D).
  - apply in_map. eapply stored_in_containers; eassumption.
  - rewrite E. apply in_map. eapply handles_in. exact Hh.
Qed.
Lemma handles_distinct : forall (l : list (option elem)) h h' e e', NoDup (map address (in_handles l)) -> h <> h' -> nth_error l h = Some (Some e) -> nth_error l h' = Some (Some e') -> address e <> address e'.
Proof.
  assert (forall (l : list (option elem)) h h' e e', NoDup (map address (in_handles l)) -> (h < h')%nat -> nth_error l h = Some (Some e) -> nth_error l h' = Some (Some e') -> address e <> address e') as W.
  { induction l as [|x l IH]; intros h h' e e' D L H H' E; [destruct h; discriminate|]. destruct h' as [|h']; [lia|]. cbn in H'. destruct h as [|h]; cbn in H.
    - injection H as ->. cbn in D. inversion D as [|? ? Nin _]; subst. apply Nin. rewrite E. apply in_map. eapply handles_in. exact H'.
    - refine (IH h h' e e' _ _ H H' E); [|lia]. cbn in D. rewrite map_app in D. clear - D. induction (map address _) as [|y k IHk]; [exact D|]. inversion D; subst. auto. }
  intros l h h' e e' D Ne H H'. destruct (Nat.lt_gt_cases h h') as [Q _]. destruct (Q Ne) as [L|L]; [eapply W; eassumption|]. intros E. symmetry in E. revert E. eapply W; eassumption.
Qed.
Theorem C61_handles_are_disjoint : forall n N h h' e e', nruns c n N -> h <> h' ->
  nth_error (hs N) h = Some (Some e) -> nth_error (hs N) h' = Some (Some e') -> address e <> address e'.
Proof.
  intros n N h h' e e' R Ne H H'. eapply handles_distinct; [|exact Ne|exact H|exact H']. pose proof (C61_a_node_is_in_one_place n N R) as D. unfold nodes in D. rewrite map_app in D.
  clear - D. induction (map address (in_containers (nc N))) as [|y k IH]; [exact D|]. inversion D; subst. auto.
Qed.

(** no step of any thread loses, copies or makes up an element, or changes its key, except for the steps that end elements ([may_end], ConcNodeSpec.v: erasures, destruction of
    containers and handles, exceptions while rehashing) and the construction of new nodes ([made]) *)
Theorem C61_nodes_are_conserved : forall n N e N', nruns c n N -> nstep c N e N' -> (forall h, e <> LSet h) ->
  exists lost, Permutation (made e ++ map ident (nodes N)) (lost ++ map ident (nodes N')) /\ (lost <> [] -> may_end N e).
Proof. intros n N e N' R St Ns. destruct (nruns_ok c HC n N R) as [Iv F]. exact (proj2 (nstep_ok c HC N e N' Iv F St) Ns). Qed.
(** nh.key()=..., nh.mapped()=... change one element in its place *)
Theorem C61_modification_through_a_handle : forall N h N', nstep c N (LSet h) N' ->
  in_containers (nc N') = in_containers (nc N) /\ (forall h', h' <> h -> nth_error (hs N') h' = nth_error (hs N) h') /\
  exists e e', nth_error (hs N) h = Some (Some e) /\ nth_error (hs N') h = Some (Some e') /\ address e' = address e.
Proof.
  intros N h N' St. inversion St; subst. cbn [nc hs]. split; [reflexivity|]. assert (h < length l)%nat as L by (apply nth_error_Some; congruence). split.
  - intros h' Ne. rewrite set_nth_err by exact L. destruct (Nat.eqb_spec h' h); [congruence|reflexivity].
  - exists (k, nd), (k', Node (n_addr nd) (n_owner nd) m'). split; [assumption|]. split; [rewrite set_nth_err by exact L; rewrite Nat.eqb_refl; reflexivity|reflexivity].
Qed.

(** nh=extract(k), nh=extract_if(k,f) return. e: the element f was called on (extract: f returns true), that is removed from the container at some instant (C36); the handle has
    the same node, with what f assigned to its value. Otherwise (no such element, f returned false, an exception) the handle is empty. *)
Theorem C61_extract_returns : forall n N t h d k f l r N', nruns c n N -> nstep c N (LConc (Some (ERet t (AnsC r)))) N' -> arg N t = Some h ->
  nth_error (th (nc N)) t = Some (At d (Point (PErase k f)) l) ->
  nth_error (hs N) h = Some (match r with RErased e => Some (fst e, fst (f e)) | _ => None end) /\ hs N' = hs N /\
  match r with RErased e => address (fst e, fst (f e)) = address e | _ => True end.
Proof.
  intros n N t h d k f l r N' R St Ha Ht. destruct (nruns_ok c HC n N R) as [Iv _]. inversion St as [| | | | | | | |C l0 g C' e t0 p p' Nc Nr Hg Hp Hp' Ho|C l0 g C' t0 a Hg]; subst; [exfalso; eapply Nr; reflexivity|].
  cbn [nc hs arg] in *. destruct (ret_inv c _ _ _ _ Hg) as (p & Hp & -> & d' & o' & ->). rewrite Hp in Ht. injection Ht as -> -> <-.
  pose proof (ni_t _ _ Iv t _ Hp) as T. unfold hold in T. cbn [arg hs] in T. rewrite Ha in T. destruct (ni_arg _ _ Iv t h Ha) as [(y & Hy) _]. cbn [hs] in Hy. rewrite Hy in T. destruct T as [Hk T].
  rewrite Hy. split; [|split; [reflexivity|destruct r; try exact I; apply (Hk e)]]. f_equal. destruct r; exact T.
Qed.
(** insert(std::move(nh)), insert_or_visit, insert_and_visit return: the handle is empty if the element was inserted; otherwise it still has its node. When a function passed to
    insert_and_visit throws, the element may be inserted or not. *)
Theorem C61_insert_returns : forall n N t h d x k nd f1 f2 l r N', nruns c n N -> nstep c N (LConc (Some (ERet t (AnsC r)))) N' -> arg N t = Some h ->
  nth_error (th (nc N)) t = Some (At d (Point (PEmplace x k nd f1 f2)) l) -> hs N' = hs N /\
  match r with
  | RIns => nth_error (hs N) h = Some None
  | RThrew => nth_error (hs N) h = Some None \/ nth_error (hs N) h = Some (Some (k, nd))
  | _ => nth_error (hs N) h = Some (Some (k, nd))
  end.
Proof.
  intros n N t h d x k nd f1 f2 l r N' R St Ha Ht. destruct (nruns_ok c HC n N R) as [Iv _]. inversion St as [| | | | | | | |C l0 g C' e t0 p p' Nc Nr Hg Hp Hp' Ho|C l0 g C' t0 a Hg]; subst; [exfalso; eapply Nr; reflexivity|].
  cbn [nc hs arg] in *. destruct (ret_inv c _ _ _ _ Hg) as (p & Hp & -> & d' & o' & ->). rewrite Hp in Ht. injection Ht as -> -> <-.
  pose proof (ni_t _ _ Iv t _ Hp) as T. unfold hold in T. cbn [arg hs] in T. rewrite Ha in T. destruct (ni_arg _ _ Iv t h Ha) as [(y & Hy) _]. cbn [hs] in Hy. rewrite Hy in T. destruct T as (_ & _ & T).
  split; [reflexivity|]. rewrite Hy. unfold ins_ok in T. cbn [res_of] in T. destruct r; try (rewrite T; reflexivity). destruct T as [->| ->]; [left|right]; reflexivity.
Qed.
(** when an insertion from a handle takes effect, the container has the very node of the handle, and no handle has it *)
Theorem C61_inserted : forall n N t h d x k nd f1 f2 l N', nruns c n N -> nstep c N (LConc (Some (ELin t (APoint RIns)))) N' -> arg N t = Some h ->
  nth_error (th (nc N)) t = Some (At d (Point (PEmplace x k nd f1 f2)) l) ->
  exists s e, holds (nc N') d s /\ In e (stored s) /\ fst e = k /\ snd e = fst (f1 (k, nd)) /\ address e = n_addr nd /\
    forall h' e', nth_error (hs N') h' = Some (Some e') -> address e' <> n_addr nd.
Proof.
  intros n N t h d x k nd f1 f2 l N' R St Ha Ht. destruct (nruns_ok c HC n N R) as [Iv F]. assert (NoDup (map address (nodes N'))) as D by (exact (ni_nd _ _ (proj1 (nstep_ok c HC N _ N' Iv F St)))).
  pose proof (ni_t _ _ Iv t _ Ht) as T. unfold hold in T. rewrite Ha in T. destruct (ni_arg _ _ Iv t h Ha) as [(y & Hy) _]. rewrite Hy in T. destruct T as (K1 & _ & _).
  assert (gstep c (nc N) (Some (ELin t (APoint RIns))) (nc N')) as Hg by (inversion St; subst; assumption).
  destruct (ginv_instant c HC _ _ _ _ (ni_g _ _ Iv) Hg) as (ca & done & Hc & E). unfold calls_of in Hc. rewrite Ht in Hc. cbn in Hc. injection Hc as <- _.
  cbn in E. destruct E as (_ & v & l' & Hv & (v' & b & _ & Hf & P) & E). 
  assert (nth_error (Properties_Conc.abstract (nc N')) d = Some (Some (View (v_hash v) (v_pred v) (v_alloc v) l'))) as Hd.
  { rewrite Properties_Conc.abstract_absw, E. rewrite FoaRun.set_err by (apply nth_error_Some; congruence). rewrite Nat.eqb_refl. reflexivity. }
  unfold Properties_Conc.abstract in Hd. rewrite nth_error_map in Hd. destruct (nth_error (boxes (nc N')) d) as [[s|]|] eqn:B; try discriminate. cbn in Hd. injection Hd as _ _ _ <-.
  exists s, (k, v'). split; [exact B|]. assert (In (k, v') (stored s)) as Hi by (apply (Permutation_in _ (Permutation_sym P)); left; reflexivity). split; [exact Hi|]. split; [reflexivity|].
  split; [cbn; rewrite Hf; reflexivity|]. assert (address (k, v') = n_addr nd) as A by (pose proof (proj1 (K1 (k, nd))) as Q; rewrite Hf in Q; exact Q). split; [exact A|].
  intros h' e' Hh E'. rewrite <- A in E'. unfold nodes in D. rewrite map_app in D. eapply (nodup_app_disj _ _ (address e') D).
  - rewrite E'. apply in_map. eapply stored_in_containers; eassumption.
  - apply in_map. eapply handles_in. exact Hh.
Qed.
(** of two threads that extract, at most one gets a given node *)
Theorem C61_extractions_get_different_nodes : forall n N t1 t2 h1 h2 e1 e2, nruns c n N -> t1 <> t2 -> arg N t1 = Some h1 -> arg N t2 = Some h2 ->
  nth_error (hs N) h1 = Some (Some e1) -> nth_error (hs N) h2 = Some (Some e2) -> address e1 <> address e2.
Proof.
  intros n N t1 t2 h1 h2 e1 e2 R Ne A1 A2 H1 H2. eapply C61_handles_are_disjoint; [exact R| |exact H1|exact H2]. intros ->. apply Ne. destruct (nruns_ok c HC n N R) as [Iv _]. exact (ni_inj _ _ Iv _ _ _ A1 A2).
Qed.
(** the executions of threads on the containers are those of C35-C39, C49 and C50: the extractions and the insertions from handles are linearizable, and so on *)
Theorem C61_is_a_run : forall n N, nruns c n N -> exists es, runs_with c counters_fit n es (nc N).
Proof.
  intros n N R. induction R as [|N e N' R (es & IH) St F].
  - exists []. apply r_nil. intros t d o x m s m' H. apply nth_error_In, repeat_spec in H. discriminate.
  - inversion St; subst; cbn [nc] in *; try (exists es; exact IH); eexists; eapply r_snoc; eassumption.
Qed.
End P.

(** *** a case. The program: *)
Notation c0 := (ncfg nothrow).
Notation nconf0 := (@nconf N N).
Definition init : nconf0 := NC (Conf [] (repeat Idle 2)) [] (fun _ => None).
Definition play (l : list (nconf0 -> nconf0)) (N : nconf0) : nconf0 := fold_left (fun N f => f N) l N.
Definition mv := or_stay. Definition run_alone (t : nat) := alone_x 400 t.
(** two containers, three handles; thread 0 inserts a node with key 5 into the first one; both threads call extract(5) *)
Definition prog1 : list (nconf0 -> nconf0) :=
  [mv (XCreate 0); mv (XWhole 0); mv (XRet 0); mv (XCreate 0); mv (XWhole 0); mv (XRet 0); mv XHandle; mv XHandle; mv XHandle;
   mv (XNode 0 5 1000 50); mv (XInsert 0 0 0); run_alone 0; mv (XRet 0); mv (XExtract 0 0 5 1); mv (XExtract 1 0 5 2)].
(** each goes on until it has a lock; then thread 1 gets the node *)
Definition prog2 : list (nconf0 -> nconf0) := [mv (XStep 0 0); mv (XStep 1 0); mv (XStep 0 0); run_alone 1; run_alone 0].
(** both return, thread 1 inserts its node in the second container *)
Definition prog3 : list (nconf0 -> nconf0) := [mv (XRet 0); mv (XRet 1); mv (XInsert 1 1 2); run_alone 1; mv (XRet 1)].
Definition m0 : nconf0 := play prog1 init.
Definition m1 : nconf0 := play prog2 m0.
Definition m2 : nconf0 := play prog3 m1.
Definition contents (q : nconf0) : list (list (N * N * N)) := map (fun b => match b with Some s => map (fun e => (fst e, n_addr (snd e), n_val (snd e))) (Properties_Conc.stored s) | None => [] end) (boxes (nc q)).
Definition handles (q : nconf0) : list (option (N * N * N)) := map (option_map (fun e => (fst e, n_addr (snd e), n_val (snd e)))) (hs q).
Definition at_return (N : nconf0) : list bool := map (fun p => match p with ConcModel.At _ _ (LRet _) => true | _ => false end) (th (nc N)).
Definition at_insertion : nconf0 := fst (fold_left (fun '(q, b) _ => if b || insertsb 1 0 q then (q, true) else match next_x 1 q with Some m => (mv m q, false) | None => (q, b) end) (seq 0 400) (play [mv (XRet 0); mv (XRet 1); mv (XInsert 1 1 2)] m1, false)).
Lemma play_ok l : Forall (fun f : nconf0 -> nconf0 => forall q, nruns c0 2 q -> nruns c0 2 (f q)) l -> forall q, nruns c0 2 q -> nruns c0 2 (play l q).
Proof. induction 1 as [|f l Hf _ IH]; intros q R; [exact R|]. cbn [play fold_left]. apply IH, Hf, R. Qed.
Ltac moves := repeat apply Forall_cons; try apply Forall_nil; intros q R; first [apply or_stay_ok; exact R|apply alone_ok; exact R].
Lemma m0_ok : nruns c0 2 m0. Proof. apply play_ok; [moves|apply nr_nil]. Qed.
Lemma m1_ok : nruns c0 2 m1. Proof. apply play_ok; [moves|apply m0_ok]. Qed.
Lemma m2_ok : nruns c0 2 m2. Proof. apply play_ok; [moves|apply m1_ok]. Qed.
Lemma at_insertion_ok : nruns c0 2 at_insertion.
Proof.
  unfold at_insertion. assert (nruns c0 2 (fst (play [mv (XRet 0); mv (XRet 1); mv (XInsert 1 1 2)] m1, false))) as R by (apply play_ok; [moves|apply m1_ok]).
  revert R. generalize (play [mv (XRet 0); mv (XRet 1); mv (XInsert 1 1 2)] m1, false). generalize (seq 0 400). intros l. induction l as [|i l IH]; intros [q b] R; [exact R|]. cbn [fold_left]. apply IH.
  destruct (b || insertsb 1 0 q); [exact R|]. destruct (next_x 1 q); [apply or_stay_ok|]; exact R.
Qed.
Definition erased (q : nconf0) (t : nat) : option (option (N * N)) :=
  match nth_error (th (nc q)) t with Some (ConcModel.At _ (Point (PErase _ _)) (LRet r)) => Some (match r with RErased e => Some (fst e, n_addr (snd e)) | _ => None end) | _ => None end.
Example C61_example :
  nruns c0 2 m0 /\ contents m0 = [[(5, 1000, 50)]; []] /\ handles m0 = [None; None; None] /\ (arg m0 0 = Some 1%nat /\ arg m0 1 = Some 2%nat) /\
  nruns c0 2 m1 /\ contents m1 = [[]; []] /\ handles m1 = [None; None; Some (5, 1000, 50)] /\ erased m1 0 = Some None /\ erased m1 1 = Some (Some (5, 1000)) /\
  nruns c0 2 m2 /\ contents m2 = [[]; [(5, 1000, 50)]] /\ handles m2 = [None; None; None].
Proof.
  split; [exact m0_ok|]. split; [vm_compute; reflexivity|]. split; [vm_compute; reflexivity|]. split; [split; vm_compute; reflexivity|].
  split; [exact m1_ok|]. split; [vm_compute; reflexivity|]. split; [vm_compute; reflexivity|]. split; [vm_compute; reflexivity|]. split; [vm_compute; reflexivity|].
  split; [exact m2_ok|]. split; vm_compute; reflexivity.
Qed.
(** the steps of C61_extract_returns (thread 1 returns from m1) and of C61_inserted *)
Lemma returns t (q : nconf0) d o r : nth_error (th (nc q)) t = Some (ConcModel.At d o (LRet r)) -> exists N', nstep c0 q (LConc (Some (ERet t (AnsC r)))) N'.
Proof. destruct q as [C l g]. intros H. eexists. eapply n_ret. eapply g_ret. exact H. Qed.
Lemma returns_erased (q : nconf0) x : nruns c0 2 q -> erased q 1 = Some x -> arg q 1 = Some 2%nat ->
  exists d k f r N', nth_error (th (nc q)) 1 = Some (ConcModel.At d (Point (PErase k f)) (LRet r)) /\ arg q 1 = Some 2%nat /\ nstep c0 q (LConc (Some (ERet 1 (AnsC r)))) N' /\ nruns c0 2 q.
Proof.
  intros R E Ha. unfold erased in E. destruct (nth_error (th (nc q)) 1) as [[|d [[]| |] l| |]|] eqn:Ht; try discriminate. destruct l; try discriminate.
  destruct (returns 1 q _ _ _ Ht) as (N' & St). eexists d, _, _, _, N'. split; [reflexivity|]. split; [exact Ha|]. split; [exact St|exact R].
Qed.
Example C61_example_returns : exists d k f r N', nth_error (th (nc m1)) 1 = Some (ConcModel.At d (Point (PErase k f)) (LRet r)) /\ arg m1 1 = Some 2%nat /\
  nstep c0 m1 (LConc (Some (ERet 1 (AnsC r)))) N' /\ nruns c0 2 m1.
Proof. apply (returns_erased m1 (Some (5, 1000)) m1_ok); vm_compute; reflexivity. Qed.
Lemma inserts_node (q : nconf0) : nruns c0 2 q -> insertsb 1 0 q = true -> match do_x (XStep 1 0) q with Some _ => true | None => false end = true -> arg q 1 = Some 2%nat ->
  match nth_error (th (nc q)) 1 with Some (ConcModel.At d (Point (PEmplace x k nd f1 f2)) l) => (k =? 5) && (n_addr nd =? 1000) | _ => false end = true ->
  exists N', nruns c0 2 q /\ nstep c0 q (LConc (Some (ELin 1 (APoint RIns)))) N' /\ arg q 1 = Some 2%nat /\
    exists d x k nd f1 f2 l, nth_error (th (nc q)) 1 = Some (ConcModel.At d (Point (PEmplace x k nd f1 f2)) l) /\ (k, n_addr nd) = (5, 1000).
Proof.
  intros R Hi E Ha Q. destruct (do_x (XStep 1 0) q) as [N'|] eqn:D; [|discriminate]. exists N'. split; [exact R|]. split; [apply (inserts_ok 1 0); [exact Hi|exact D]|]. split; [exact Ha|].
  destruct (nth_error (th (nc q)) 1) as [[|d [[]| |] l| |]|]; try discriminate. apply andb_prop in Q as [Q1 Q2]. apply N.eqb_eq in Q1. apply N.eqb_eq in Q2.
  eexists _, _, _, _, _, _, _. split; [reflexivity|]. congruence.
Qed.
Example C61_example_inserted : exists N', nruns c0 2 at_insertion /\ nstep c0 at_insertion (LConc (Some (ELin 1 (APoint RIns)))) N' /\ arg at_insertion 1 = Some 2%nat /\
  exists d x k nd f1 f2 l, nth_error (th (nc at_insertion)) 1 = Some (ConcModel.At d (Point (PEmplace x k nd f1 f2)) l) /\ (k, n_addr nd) = (5, 1000).
Proof. apply (inserts_node at_insertion at_insertion_ok); vm_compute; reflexivity. Qed.
Print Assumptions C61_a_node_is_in_one_place.
Print Assumptions C61_handles_and_containers_are_disjoint.
Print Assumptions C61_handles_are_disjoint.
Print Assumptions C61_nodes_are_conserved.
Print Assumptions C61_modification_through_a_handle.
Print Assumptions C61_extract_returns.
Print Assumptions C61_insert_returns.
Print Assumptions C61_inserted.
Print Assumptions C61_extractions_get_different_nodes.
Print Assumptions C61_is_a_run.
