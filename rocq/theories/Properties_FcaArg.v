(** C69 for closed addressing (unordered_map, unordered_set, unordered_multimap, unordered_multiset). The arguments of an insertion are passed to a constructor when a node is made of them;
    the heap counts the nodes that have been allocated ([next]). *)
From Coq Require Import NArith ZArith Bool List Arith Lia Permutation.
From Verif Require Import FloatModel HashArithModel FoaModel FoaBase FcaLinks FcaModel FcaIter FcaInv FcaTab FcaRehash FcaOps FcaSpec FcaWorld FcaRun FcaRun4 FcaProps FcaProps2 FcaExamples CallSpec FoaCalls FcaCalls FcaCalls2 FcaArg.
From Verif Require FoaMemKeep.
Import ListNotations.
Local Open Scope nat_scope.

Section P.
Context {K V : Type} (c : FCfg K V).
Notation table := (FcaModel.table K V).
Notation St := (table * heap)%type.
(** nodes allocated between two states: how often a constructor has been called with the arguments *)
Definition made (s s' : St) : nat := next (snd s') - next (snd s).
Definition has_key (t : table) (k : K) : Prop := exists x, In x (elems t) /\ keqf (base c) (f_pid t) k (fst (snd x)) = true.

Lemma pass {A B} (P : R St B -> Prop) (m : M St A) (f : A -> M St B) s n :
  match m s n with Ret a s' n' => forall b n2, P (Ret b s' n2) | Exn k s' n' => P (Exn k s' n') | Undef => True end -> P Undef -> (forall a, FoaMemKeep.keeps (fun s => s) (f a)) -> (forall a, Nc (f a)) -> P (bind m f s n).
Proof.
  intros H Hu Kp Nx. unfold bind. destruct (m s n) as [a s' n'|k s' n'|]; [|exact H|exact Hu]. specialize (Kp a s' n'). specialize (Nx a s' n'). destruct (f a s' n') as [b s2 n2|k2 s2 n2|]; [subst s2; apply H|destruct Nx|exact Hu].
Qed.
Lemma kdr {A} it (g : nat * (K * V) -> A) : FoaMemKeep.keeps (fun s : St => s) (bind (deref it) (fun y => ret (g y))).
Proof. apply FoaMemKeep.keeps_bind; [apply k_deref|intro; apply FoaMemKeep.keeps_ret]. Qed.
Lemma ndr {A} it (g : nat * (K * V) -> A) : Nc (bind (deref it) (fun y => ret (g y))).
Proof. apply nc_bind; [apply nc_deref|intro; apply nc_ret]. Qed.
Lemma pr_has t h k : in_program c t h -> (present c t (contents t) k <-> has_key t k).
Proof.
  intros H. unfold has_key. rewrite (elems_inv c t _ (prog_inv c t h H)). split.
  - intros (x & I & E). exists (el x). split; [apply in_map; exact I|exact E].
  - intros (x & I & E). apply in_map_iff in I as (y & <- & I). exists y. auto.
Qed.
Definition full (t : table) : Prop := (f_ml t <= f_size t)%N.
Lemma grows_full t h kd : in_program c t h -> room t 1 -> Grows (t, h) kd -> (kd = KHash \/ kd = KAlloc) /\ full t.
Proof.
  intros H R [A B]. split; [exact A|]. unfold full, room in *. cbn [fst] in B. unfold uadd in B. change (N.of_nat 1) with 1%N in R. rewrite N.mod_small in B by lia. lia.
Qed.
(** the key the lookup needs is an argument: insert(value), emplace(value), emplace(k,v) with k of the key type, try_emplace, operator[], with or without hint *)
Definition key_of (o : op1 K V) : option K := match o with Insert true e => Some (fst e) | Index _ k => Some k | InsertHint true _ e => Some (fst e) | _ => None end.
Theorem C69_fca_arguments_are_used_iff_the_key_is_absent : forall t h o k n, in_program c t h -> pre1 c o t -> multi c = false -> key_of o = Some k ->
  match exec1 c o (t, h) n with
  | Ret _ s' _ => (has_key t k -> s' = (t, h)) /\ (~ has_key t k -> made (t, h) s' = 1)
  | Exn kd s' _ => (s' = (t, h) /\ (kd = KHash \/ kd = KEq \/ kd = KAlloc)) \/ (~ has_key t k /\ made (t, h) s' = 1 /\ (kd = KConstruct \/ ((kd = KHash \/ kd = KAlloc) /\ full t)))
  | Undef => False
  end.
Proof.
  intros t h o k n H P M Ko. pose proof (step1 c t h o n H P) as St1. pose proof (prog_inv c t h H) as T. pose proof (ti_c _ _ _ T) as Ci.
  assert (room t 1) as Rm by (destruct o as [[]|[]|?|?|?|?|?|?|?|?|?|?|?|?|?|?|?|?|?|?|?]; try discriminate Ko; try exact P; apply P).
  assert (KeyUse KConstruct (t, h) (present c t (contents t) k) (exec1 c o (t, h) n)) as U.
  { destruct o as [[|] e|[|] m e|?|?|?|dv k0|?|?|?|?|?|?|?|?|?|?|?|?|?|?|?]; try discriminate Ko; injection Ko as <-; cbn [exec1]; rewrite ?M.
    - destruct (euk_use c KConstruct e t h n (contents t) Ci) as [_ U]. cbn [emplace_unique]. apply (pass (KeyUse KConstruct (t, h) (present c t (contents t) (fst e)))); [|exact I|intro; apply kdr|intro; apply ndr].
      destruct (emplace_unique_key c KConstruct e (t, h) n); [intros b n2; exact U|exact U|exact I].
    - unfold bind at 1. pose proof (k_it_at m (t, h) n) as X. assert (Nc (it_at (K:=K) (V:=V) m)) as Nx by (unfold it_at; apply nc_bind; [apply nc_get_t|intro; apply nc_opt]). specialize (Nx (t, h) n).
      destruct (it_at m (t, h) n) as [hint s1 n1|kd1 s1 n1|]; [subst s1|destruct Nx|exact I].
      pose proof (ehu_use c hint e t h n1 (contents t) Ci) as U. apply (pass (KeyUse KConstruct (t, h) (present c t (contents t) (fst e)))); [|exact I|intro; apply kdr|intro; apply ndr].
      destruct (emplace_hint_unique c true hint e (t, h) n1); [intros b n2; exact U|exact U|exact I].
    - destruct (euk_use c KConstruct (k0, dv) t h n (contents t) Ci) as [_ U]. cbn [emplace_unique]. apply (pass (KeyUse KConstruct (t, h) (present c t (contents t) k0))); [|exact I|intro; apply kdr|intro; apply ndr].
      destruct (emplace_unique_key c KConstruct (k0, dv) (t, h) n); [intros b n2; exact U|exact U|exact I]. }
  pose proof (pr_has t h k H) as Pk.
  destruct (exec1 c o (t, h) n) as [v s' n'|kd s' n'|]; cbn [KeyUse] in U; [| |exact St1].
  - destruct U as [-> |[Np Nn]].
    + split; [reflexivity|]. intros Nh. exfalso. destruct St1 as (_ & Sp & _). cbn [fst] in Sp.
      assert (lookup (keqf (base c)) (f_pid t) k (elems t) = None) as L.
      { destruct (lookup (keqf (base c)) (f_pid t) k (elems t)) as [y|] eqn:L; [|reflexivity]. unfold lookup in L. apply find_some in L as [L1 L2]. exfalso. apply Nh. exists y. split; [exact L1|exact L2]. }
      assert (forall x b e, fst e = k -> inserted (keqf (base c)) (multi c) (f_pid t) e (elems t) x b (elems t) -> False) as Ni.
      { intros x b e <- In. unfold inserted in In. rewrite M, L in In. destruct In as (_ & _ & _ & Pm). apply Permutation_length in Pm. cbn in Pm. lia. }
      destruct o as [[|] e|[|] m e|?|?|?|dv k0|?|?|?|?|?|?|?|?|?|?|?|?|?|?|?]; try discriminate Ko; injection Ko as <-; destruct v as [|? ?|?|?|[?|]|?|?|?|? ?]; cbn [spec1] in Sp; try contradiction; try (rewrite L in Sp; destruct Sp as (_ & x & In); exact (Ni x true (k0, dv) eq_refl In)); try (exact (Ni _ _ e eq_refl Sp)); try (destruct Sp as [(b & Sp) _]; exact (Ni _ _ e eq_refl Sp)).
    + split; [intros X; apply Pk in X; contradiction|]. intros _. unfold made, nn in *. cbn [snd] in *. lia.
  - destruct U as [U|(Np & Nn & Hk)]; [left; exact U|]. right. split; [intros X; apply Pk in X; contradiction|]. split; [unfold made, nn in *; cbn [snd] in *; lia|]. destruct Hk as [->|Hg]; [auto|]. right. apply (grows_full t h kd H Rm Hg).
Qed.
(** all other insertions of one element (the key has to be made first, or equivalent keys are allowed): a node is always made, unless its allocation fails; the program's nodes
    are exactly the elements and handles afterwards (C64, C23), so it is destroyed if it is not inserted *)
Theorem C69_fca_a_node_is_always_made_otherwise : forall t h o n, in_program c t h -> pre1 c o t ->
  match o with Insert kf _ | InsertHint kf _ _ => kf = false \/ multi c = true | _ => False end ->
  match exec1 c o (t, h) n with
  | Ret _ s' _ => made (t, h) s' = 1
  | Exn kd s' _ => (s' = (t, h) /\ (kd = KAlloc)) \/ made (t, h) s' = 1
  | Undef => False
  end.
Proof.
  intros t h o n H P Ho. pose proof (step1 c t h o n H P) as St1.
  assert (AlwaysUse (t, h) (exec1 c o (t, h) n)) as U.
  { destruct o as [kf e|kf m e|?|?|?|dv k0|?|?|?|?|?|?|?|?|?|?|?|?|?|?|?]; try contradiction; cbn [exec1].
    - destruct (multi c).
      + apply first_made. intros x. apply FoaMemKeep.keeps_bind; [apply k_ee|intro]. apply FoaMemKeep.keeps_id, kdr.
      + destruct Ho as [-> |Ho]; [|discriminate]. cbn [emplace_unique]. apply (pass (AlwaysUse (t, h))); [|exact I|intro; apply kdr|intro; apply ndr].
        pose proof (eun_use c KConstruct e (t, h) n) as U. destruct (emplace_unique_nokey c KConstruct e (t, h) n); [intros b n2; exact U|exact U|exact I].
    - unfold bind at 1. pose proof (k_it_at m (t, h) n) as X. assert (Nc (it_at (K:=K) (V:=V) m)) as Nx by (unfold it_at; apply nc_bind; [apply nc_get_t|intro; apply nc_opt]). specialize (Nx (t, h) n).
      destruct (it_at m (t, h) n) as [hint s1 n1|kd1 s1 n1|]; [subst s1|destruct Nx|exact I]. destruct (multi c).
      + apply first_made. intros x. apply FoaMemKeep.keeps_bind; [apply k_ehe|intro]. apply FoaMemKeep.keeps_id, kdr.
      + destruct Ho as [-> |Ho]; [|discriminate]. apply (pass (AlwaysUse (t, h))); [|exact I|intro; apply kdr|intro; apply ndr].
        pose proof (ehun_use c hint e (t, h) n1) as U. destruct (emplace_hint_unique c false hint e (t, h) n1); [intros b n2; exact U|exact U|exact I]. }
  destruct (exec1 c o (t, h) n) as [v s' n'|kd s' n'|]; cbn [AlwaysUse] in U; [| |exact St1].
  - unfold made, nn in *. cbn [snd] in *. lia.
  - destruct U as [U|U]; [left; exact U|right]. unfold made, nn in *. cbn [snd] in *. lia.
Qed.
(** insert_or_assign: a node is made if the key is absent; the value is assigned otherwise *)
Theorem C69_fca_insert_or_assign : forall t h k v n, in_program c t h -> room t 1 -> multi c = false ->
  match exec1 c (InsertOrAssign k v) (t, h) n with
  | Ret _ s' _ => (has_key t k -> made (t, h) s' = 0) /\ (~ has_key t k -> made (t, h) s' = 1)
  | Exn kd s' _ => (made (t, h) s' = 0 /\ (s' = (t, h) /\ (kd = KHash \/ kd = KEq \/ kd = KAlloc) \/ kd = KConstruct)) \/
      (~ has_key t k /\ made (t, h) s' = 1 /\ (kd = KConstruct \/ ((kd = KHash \/ kd = KAlloc) /\ full t)))
  | Undef => False
  end.
Proof.
  intros t h k v n H R M. pose proof (step1 c t h (InsertOrAssign k v) n H (conj R M)) as St1. pose proof (prog_inv c t h H) as T. pose proof (ti_c _ _ _ T) as Ci. pose proof (pr_has t h k H) as Pk.
  revert St1. cbn [exec1]. unfold bind at 1 3. pose proof (ioa_use c k v t h n (contents t) Ci) as U.
  destruct (insert_or_assign_unique c k v (t, h) n) as [[it b] s1 n1|kd s1 n1|]; cbn [snd fst] in *; [| |intros X; exact X].
  - unfold bind. pose proof (k_deref it s1 n1) as X. assert (Nc (deref (K:=K) (V:=V) it)) as Nx by apply nc_deref. specialize (Nx s1 n1).
    destruct (deref it s1 n1) as [y s2 n2|kd s2 n2|]; [subst s2|destruct Nx|intros F; exact F]. cbn [ret]. intros (_ & Sp & _). cbn [spec1] in Sp.
    destruct b.
    + destruct U as [Np U]. split; [intros Y; apply Pk in Y; contradiction|]. intros _. unfold made, nn in *. cbn [snd] in *. lia.
    + split; [intros _; unfold made, nn in *; cbn [snd] in *; lia|]. intros Nh. exfalso.
      destruct (lookup (keqf (base c)) (f_pid t) k (elems t)) as [z|] eqn:L.
      * unfold lookup in L. apply find_some in L as [L1 L2]. apply Nh. exists z. split; [exact L1|exact L2].
      * unfold inserted in Sp. cbn [fst] in Sp. rewrite M, L in Sp. destruct Sp as (_ & Sp & _). discriminate.
  - intros _. destruct U as [[U1 U2]|(Np & U1 & U2)].
    + left. split; [unfold made, nn in *; cbn [snd] in *; lia|exact U2].
    + right. split; [intros Y; apply Pk in Y; contradiction|]. split; [unfold made, nn in *; cbn [snd] in *; lia|]. destruct U2 as [->|U2]; [auto|right; apply (grows_full t h kd H R U2)].
Qed.
End P.
Print Assumptions C69_fca_arguments_are_used_iff_the_key_is_absent.
Print Assumptions C69_fca_a_node_is_always_made_otherwise.
Print Assumptions C69_fca_insert_or_assign.
(** the result and the number of nodes made *)
Definition out {A} (s : FcaModel.table N N * heap) (r : R (FcaModel.table N N * heap) A) : option (option kind * nat) :=
  match r with Ret _ s' _ => Some (None, made s s') | Exn k s' _ => Some (Some k, made s s') | Undef => None end.
Definition ops_a : list (op N N) := New 1 0 0 10 :: ins 0 (seq 0 13).
Definition thr_h (k : kind) (n : nat) : bool := match k with KHash => (902 <=? n)%nat | _ => false end.
Notation ca := (ecfg nothrow false false).
Notation cm := (ecfg nothrow true false).
Notation ch := (ecfg thr_h false false).
Definition s_a : FcaModel.table N N * heap := Eval vm_compute in st_of nothrow false false true ops_a 0.
Lemma s_a_ok : in_program ca (fst s_a) (snd s_a).
Proof. apply (any_program nothrow false false ops_a 0). vm_cast_no_check (eq_refl (Some s_a)). Qed.
Definition s_h : FcaModel.table N N * heap := Eval vm_compute in st_of thr_h false false true ops_a 0.
Lemma s_h_ok : in_program ch (fst s_h) (snd s_h).
Proof. apply (any_program thr_h false false ops_a 0). vm_cast_no_check (eq_refl (Some s_h)). Qed.
(** a full container of 13 elements: absent and present keys, with and without the key at hand, in each kind of insertion; equivalent keys; and an insertion during whose rehash the hash
    function throws: its argument is used up *)
Example C69_fca_cases : full (fst s_a) /\
  map (fun o => out s_a (exec1 ca o s_a 0)) [Insert true (100, 0)%N; Insert true (5, 0)%N; Insert false (100, 0)%N; Insert false (5, 0)%N; Index 0%N 5%N; Index 0%N 77%N;
    InsertHint true 3 (5, 0)%N; InsertHint false 3 (5, 0)%N; InsertOrAssign 5%N 1%N; InsertOrAssign 50%N 1%N] =
  map (fun d => Some (None, d)) [1; 0; 1; 1; 0; 1; 0; 1; 0; 1] /\
  out s_m (exec1 cm (Insert true (0, 5)%N) s_m 0) = Some (None, 1) /\
  out s_h (exec1 ch (Insert true (100, 0)%N) s_h 888) = Some (Some KHash, 1) /\
  out s_h (exec1 ch (Insert true (100, 0)%N) s_h 902) = Some (Some KHash, 0).
Proof. split; [unfold full; vm_compute; discriminate|]. split; [|split; [|split]]; vm_compute; reflexivity. Qed.
