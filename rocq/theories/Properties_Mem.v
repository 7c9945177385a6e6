(** C54: the memory of the open-addressing containers is accounted for. *)
From Coq Require Import NArith Bool List Arith Lia Permutation.
From Verif Require Import SizeModel GroupModel FoaModel FoaArr FoaInv FoaIterModel FoaSpec FoaWorld FoaRun FoaExamples MemSpec FoaMem FoaMemKeep FoaMemProofs.
Import ListNotations.
Local Open Scope m_scope.
Local Open Scope N_scope.

(** the block a container needs: none without storage; otherwise one block from its allocator, with room for its slots (15 to a group,
    the last one being the sentinel) and the metadata *)
Definition needs {K V} (c : Cfg K V) (t : table K V) : list (N * N) :=
  if capacity (arr t) =? 0 then [] else [(aid t, buffer_size_wrapped (esz c) ((capacity (arr t) + 1) / 15))].
Definition all_needs {K V} (c : Cfg K V) (w : list (option (table K V))) : list (N * N) :=
  flat_map (fun o => match o with Some t => needs c t | None => [] end) w.

Lemma needs_block {K V} (c : Cfg K V) t : Inv c t -> block c t = needs c t.
Proof.
  intros H. unfold block, needs, owns, tshape, shape, capacity. destruct (a_elems (arr t)); cbn [fst snd]; [|reflexivity].
  rewrite (i_owner _ _ H). change GN with 15. replace ((a_mask (arr t) + 1) * 15 - 1 + 1) with ((a_mask (arr t) + 1) * 15) by lia.
  rewrite N.div_mul by discriminate. destruct (N.eqb_spec ((a_mask (arr t) + 1) * 15 - 1) 0) as [E|E]; [lia|reflexivity].
Qed.
Lemma needs_held {K V} (c : Cfg K V) w : WInv c w -> held c w = all_needs c w.
Proof.
  intros H. unfold held, all_needs. rewrite !flat_map_concat_map. f_equal. apply map_ext_in. intros o Ho. destruct o as [t|]; [|reflexivity].
  apply needs_block. apply In_nth_error in Ho as [i Hi]. apply (H i). unfold slot. rewrite Hi. reflexivity.
Qed.

(** at every point of every program, whatever was thrown before: the calls the allocators received so far are in order (no block is given
    back twice, or to another allocator, or with another size) and the blocks still out are exactly the ones the existing containers need *)
Theorem C54_blocks_are_those_of_the_containers :
  forall (K V : Type) (c : Cfg K V), good_cfg c -> forall rs w, runs c rs w ->
  exists log live, runs' c rs (w, log) /\ outstanding log [] = Some live /\ Permutation live (all_needs c w).
Proof.
  intros K V c HC rs w R. destruct (runs_log c rs w R) as (log & R' & live & E & P). exists log, live. split; [exact R'|]. split; [exact E|].
  rewrite <- needs_held; [exact P|]. exact (runs_ok c HC rs w R).
Qed.
Print Assumptions C54_blocks_are_those_of_the_containers.

(** the same from the side of the allocators, for whatever log is recorded; and recording it does not change the run *)
Theorem C54_every_log_balances :
  forall (K V : Type) (c : Cfg K V), good_cfg c -> forall rs w log, runs' c rs (w, log) ->
  runs c rs w /\ exists live, outstanding log [] = Some live /\ Permutation live (all_needs c w) /\
  ((forall i, slot w i = None) -> live = []).
Proof.
  intros K V c HC rs w log R'. destruct (log_runs c rs (w, log) R') as (R & live & E & P). cbn [fst snd] in *. split; [exact R|].
  rewrite (needs_held c w (runs_ok c HC rs w R)) in P. exists live. split; [exact E|]. split; [exact P|]. intros Hn.
  assert (all_needs c w = []) as Z.
  { unfold all_needs. clear - Hn. induction w as [|[t|] w IH]; cbn; [reflexivity| |].
    - specialize (Hn O). cbn in Hn. discriminate.
    - apply IH. intros i. exact (Hn (S i)). }
  rewrite Z in P. symmetry in P. apply Permutation_nil in P. exact P.
Qed.
Print Assumptions C54_every_log_balances.

(** the log of a program *)
Fixpoint steps' (c : Cfg N N) (ops : list (op N N)) (w : L (list (option (table N N)))) (n : nat) : option (L (list (option (table N N)))) :=
  match ops with
  | [] => Some w
  | o :: r => match exec' c o w n with Undef => None | Ret _ w' n' => steps' c r w' n' | Exn _ w' n' => steps' c r w' n' end
  end.
Definition log_of (c : Cfg N N) (ops : list (op N N)) : option (list mem) := option_map snd (steps' c ops ([], []) 0).
(** the program of C14 (insertions that grow, a copy, a merge, a destruction) is a run; the two blocks still out are those of the two
    containers left *)
Example C54_example : (exists rs w, runs (ecfg nothrow true) rs w /\ length w = 3%nat) /\
  log_of (ecfg nothrow true) ops1 = Some [Alloc 0 32; Alloc 0 32; Alloc 0 64; Free 0 32; Alloc 0 64; Free 0 32; Alloc 0 64; Alloc 0 128; Free 0 64; Free 0 64].
Proof.
  split; [|vm_compute; reflexivity].
  assert (match steps (ecfg nothrow true) ops1 [] 0 with Some (_, w) => Nat.eqb (length w) 3 | None => false end = true) as X by (vm_compute; reflexivity).
  destruct (steps (ecfg nothrow true) ops1 [] 0) as [[rs w]|] eqn:E; [|discriminate]. exists rs, w.
  split; [apply (ops_runs nothrow true ops1); [vm_compute; reflexivity|exact E]|]. apply Nat.eqb_eq. exact X.
Qed.
(** one copy of an element fails. At event 71 during the growth: the new block is given back; at event 130 during the copy construction
    with allocator 7: the block of the unfinished container is given back *)
Example C54_example_throwing :
  let thr z := fun k n => match k with KTransfer => (n =? z)%nat | _ => false end in
  let ops := New 0 0 0 0 :: ins 0 (seq 0 30) ++ [CopyConstruct 0 7] in
  log_of (ecfg (thr 71%nat) false) ops = Some [Alloc 0 32; Alloc 0 64; Free 0 64; Alloc 7 64] /\
  log_of (ecfg (thr 130%nat) false) ops = Some [Alloc 0 32; Alloc 0 64; Free 0 32; Alloc 7 64; Free 7 64].
Proof. vm_compute. auto. Qed.

(** operations that do not talk to the allocator of array blocks: lookup, iteration, erasure, clear(), swap, move construction, default construction,
    comparison, and insertion of one element below max_load() *)
Definition silent {K V} (o : op K V) (w : list (option (table K V))) : Prop :=
  match o with
  | On i o => match o with
      | InsertRange _ | AssignList _ | Rehash _ | Reserve _ | MergeSelf => False
      | Insert _ | InsertOrAssign _ _ | Index _ _ => exists t, slot w i = Some t /\ sz t < ml t
      | _ => True end
  | New _ _ _ n => n = 0
  | Swap _ _ | MoveConstruct _ | Equal _ _ _ => True
  | _ => False
  end.
Section Silent.
Context {K V : Type} (c : Cfg K V).
Definition hush {St A} (log : list mem) (r : R (L St) A) : Prop := match r with Ret _ q _ => snd q = log | Exn _ q _ => snd q = log | Undef => True end.
Lemma hush_quiet {St A} (m : M St A) s log n : hush log (quiet m (s, log) n).
Proof. unfold quiet, lens, hush. cbn [fst snd]. destruct (m s n); reflexivity. Qed.
Lemma hush_bind {St A B} (m : M (L St) A) (f : A -> M (L St) B) s log n :
  hush log (m (s, log) n) -> (forall a s1 n1, hush log (f a (s1, log) n1)) -> hush log (bind m f (s, log) n).
Proof. intros H Hf. unfold bind. destruct (m (s, log) n) as [a [s1 l1] n1|k [s1 l1] n1|]; cbn in *; subst; auto. Qed.
Lemma hush_insert e t log n : sz t < ml t -> hush log (m_insert' c e (t, log) n).
Proof.
  intros H. unfold m_insert', emplace_impl'. change (bind get ?f (t, log) n) with (f (t, log) (t, log) n). cbv beta. cbn [fst].
  apply hush_bind; [apply hush_quiet|]. intros x s1 n1. cbv zeta. apply hush_bind; [apply hush_quiet|]. intros [l|] s2 n2; [reflexivity|].
  rewrite (proj2 (N.ltb_lt _ _) H). apply hush_bind; [apply hush_quiet|reflexivity].
Qed.
Lemma hush_run1 {A} i (m : M (L (table K V)) A) w log n : (forall t, slot w i = Some t -> hush log (m (t, log) n)) -> hush log (run1' i m (w, log) n).
Proof.
  intros H. unfold run1'. cbn [fst snd]. destruct (slot w i) as [t|]; [|exact I]. specialize (H t eq_refl). destruct (m (t, log) n); cbn in *; auto.
Qed.
Lemma hush_exec o w log n : silent o w -> hush log (exec' c o (w, log) n).
Proof.
  intros H. destruct o as [i o|h p al m|j al|j|j al|i|i j|i j|i j|i j|i j eeq]; cbn [silent exec'] in *; try contradiction.
  - apply hush_run1. intros t0 E0. destruct o; try contradiction; cbn [exec1']; try apply hush_quiet;
      destruct H as (t & E & L); rewrite E in E0; injection E0 as <-.
    + apply hush_bind; [apply hush_insert; exact L|]. intros; apply hush_quiet.
    + apply hush_bind; [|reflexivity]. unfold m_insert_or_assign'. apply hush_bind; [apply hush_insert; exact L|]. intros [[g x] b] s1 n1. destruct b; [reflexivity|apply hush_quiet].
    + apply hush_bind; [|reflexivity]. unfold m_index'. apply hush_bind; [apply hush_insert; exact L|]. intros; apply hush_quiet.
  - subst m. reflexivity.
  - apply hush_bind; [apply hush_run1; reflexivity|reflexivity].
  - apply hush_bind; [|reflexivity]. unfold run2'. cbn [fst snd]. destruct (slot w i) as [t|]; [|exact I]. destruct (slot w j) as [x|]; [|exact I].
    destruct (Nat.eqb i j); [exact I|]. pose proof (hush_quiet (swap_tables c) (t, x) log n) as X. destruct (quiet (swap_tables c) (t, x, log) n); cbn in *; auto.
  - apply (hush_quiet (exec c (Equal i j eeq)) w log n).
Qed.
End Silent.
Theorem C54_silent_operations :
  forall (K V : Type) (c : Cfg K V) o w log n, silent o w ->
  match exec' c o (w, log) n with Ret _ q _ => snd q = log | Exn _ q _ => snd q = log | Undef => True end.
Proof. intros K V c o w log n. apply hush_exec. Qed.
Print Assumptions C54_silent_operations.
Example C54_example_silent : exists w, slot w 0 = Some t_drift /\ silent (On 0 (Insert (77, 1))) w /\ silent (MoveConstruct 0) w /\
  match exec' (ecfg nothrow true) (On 0 (Insert (77, 1))) (w, []) 0%nat with Ret (VIns (77, 1) true) _ _ => True | _ => False end.
Proof. exists [Some t_drift]. split; [reflexivity|]. split; [exists t_drift; split; [reflexivity|vm_compute; reflexivity]|]. split; [exact I|]. vm_compute. exact I. Qed.
