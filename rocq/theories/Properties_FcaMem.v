(** C64: the memory of the bucket and group arrays of the closed-addressing containers is accounted for. *)
From Coq Require Import NArith ZArith Bool List Arith Lia Permutation.
From Verif Require Import FloatModel HashArithModel FoaModel FcaLinks FcaModel FcaIter FcaTab FcaSpec FcaWorld FcaProps FcaProps2 FcaRun4 FcaExamples MemSpec FcaMem FcaMemKeep FcaMemProofs.
From Verif Require FoaMem FoaMemKeep FoaMemProofs.
Import ListNotations.
Local Open Scope m_scope.
Local Open Scope N_scope.

(** the blocks a container needs: none without buckets; otherwise an array of bucket_count() + 1 buckets and an array with one group for every
    64 buckets and one more, both from the container's allocator (rebound) *)
Definition needs {K V} (t : table K V) : list (N * N) :=
  let n := bucket_count (f_b t) in
  if n =? 0 then [] else [(for_buckets (f_al t), n + 1); (for_groups (f_al t), n / 64 + 1)].
Definition all_needs {K V} (w : @mworld K V) : list (N * N) :=
  flat_map (fun o => match o with Some t => needs t | None => [] end) (tabs w).

Lemma needs_block {K V} (c : FCfg K V) t l : TInv c t l -> block t = needs t.
Proof.
  intros H. pose proof (ci_own _ _ _ (ti_c _ _ _ H)) as E. unfold block, owns, needs, tsh, bsh, bucket_count. cbn [fst snd]. rewrite E.
  unfold buckets_len, groups_len. destruct (Nat.eqb_spec (b_size (f_b t)) 0) as [Z|Z].
  - rewrite Z. reflexivity.
  - destruct (N.eqb_spec (N.of_nat (b_size (f_b t))) 0) as [Y|Y]; [lia|]. rewrite !Nat2N.inj_add, Nat2N.inj_div. reflexivity.
Qed.
Lemma needs_held {K V} (c : FCfg K V) rs w : runs c rs w -> held w = all_needs w.
Proof.
  intros R. unfold held, held_tabs, all_needs. rewrite !flat_map_concat_map. f_equal. apply map_ext_in. intros o Ho. destruct o as [t|]; [|reflexivity].
  apply In_nth_error in Ho as [i Hi]. eapply needs_block. apply (prog_inv c t (hp w)). exists rs, w, i. split; [exact R|]. split; [|reflexivity].
  unfold slot. rewrite Hi. reflexivity.
Qed.

(** at every point of every program, whatever was thrown before: the calls the allocators received so far are in order (no block is given
    back twice, or to another allocator, or with another size) and the blocks still out are exactly the ones the existing containers need *)
Theorem C64_blocks_are_those_of_the_containers :
  forall (K V : Type) (c : FCfg K V) rs w, runs c rs w ->
  exists log live, runs' c rs (w, log) /\ outstanding log [] = Some live /\ Permutation live (all_needs w).
Proof.
  intros K V c rs w R. destruct (runs_log c rs w R) as (log & R' & live & E & P). exists log, live. split; [exact R'|]. split; [exact E|].
  rewrite <- (needs_held c rs w R). exact P.
Qed.
Print Assumptions C64_blocks_are_those_of_the_containers.

(** the same from the side of the allocators, for whatever log is recorded; recording it does not change the run *)
Theorem C64_every_log_balances :
  forall (K V : Type) (c : FCfg K V) rs w log, runs' c rs (w, log) ->
  runs c rs w /\ exists live, outstanding log [] = Some live /\ Permutation live (all_needs w) /\
  ((forall i, slot w i = None) -> live = []).
Proof.
  intros K V c rs w log R'. destruct (log_runs c rs (w, log) R') as (R & live & E & P). cbn [fst snd] in *. split; [exact R|].
  rewrite (needs_held c rs w R) in P. exists live. split; [exact E|]. split; [exact P|]. intros Hn.
  assert (all_needs w = []) as Z.
  { unfold all_needs, slot in *. clear - Hn. induction (tabs w) as [|[t|] l IH]; cbn; [reflexivity| |].
    - specialize (Hn O). cbn in Hn. discriminate.
    - apply IH. intros i. exact (Hn (S i)). }
  rewrite Z in P. symmetry in P. apply Permutation_nil in P. exact P.
Qed.
Print Assumptions C64_every_log_balances.

(** the log of a program, if the preconditions of its operations are met *)
Fixpoint logged (thr : kind -> nat -> bool) (mu pc : bool) (ops : list (op N N)) (w : L (@mworld N N)) (n : nat) : option (L (@mworld N N)) :=
  match ops with
  | [] => Some w
  | o :: r => if preb mu pc o (fst w) then match exec' (ecfg thr mu pc) o w n with Undef => None | Ret _ w' n' | Exn _ w' n' => logged thr mu pc r w' n' end else None
  end.
Lemma logged_runs thr mu pc ops : forall w n w' rs0, logged thr mu pc ops w n = Some w' -> runs' (ecfg thr mu pc) rs0 w -> exists rs, runs' (ecfg thr mu pc) rs w'.
Proof.
  induction ops as [|o ops IH]; intros w n w' rs0 H R; cbn [logged] in H; [injection H as <-; eauto|].
  destruct (preb mu pc o (fst w)) eqn:P; [|discriminate].
  destruct (exec' (ecfg thr mu pc) o w n) as [v w1 n1|k w1 n1|] eqn:E; [| |discriminate];
    [pose proof (runs'_snoc (ecfg thr mu pc) rs0 w o n (Done v) w1 R (preb_ok thr mu pc _ _ P)) as R1|pose proof (runs'_snoc (ecfg thr mu pc) rs0 w o n (Threw k) w1 R (preb_ok thr mu pc _ _ P)) as R1];
    rewrite E in R1; exact (IH _ _ _ _ H (R1 (conj eq_refl eq_refl))).
Qed.
Definition log_of (thr : kind -> nat -> bool) (mu pc : bool) (ops : list (op N N)) : option (list mem) := option_map snd (logged thr mu pc ops (start, []) 0).
Lemma log_of_runs thr mu pc ops log : log_of thr mu pc ops = Some log -> exists rs w, runs' (ecfg thr mu pc) rs (w, log).
Proof.
  unfold log_of. destruct (logged thr mu pc ops (start, []) 0) as [[w l]|] eqn:E; [|discriminate]. cbn [option_map snd]. intros [=<-].
  destruct (logged_runs thr mu pc ops _ _ _ [] E (runs'_nil _)) as (rs & R). eauto.
Qed.
(** the program of C22 (insertions that grow, a copy, a merge, rehash, handles) is a run; at its end three containers are left, with 13, 13 and 29 buckets ... *)
Example C64_example : (exists rs w log, runs' (ecfg nothrow false false) rs (w, log) /\ length log = 18%nat) /\
  log_of nothrow false false ops_u = Some [Alloc 0 14; Alloc 1 1; Alloc 0 14; Alloc 1 1; Alloc 0 30; Alloc 1 1; Free 0 14; Free 1 1; Alloc 0 30; Alloc 1 1;
    Alloc 0 390; Alloc 1 7; Free 0 30; Free 1 1; Alloc 0 30; Alloc 1 1; Free 0 390; Free 1 7].
Proof.
  assert (log_of nothrow false false ops_u = Some [Alloc 0 14; Alloc 1 1; Alloc 0 14; Alloc 1 1; Alloc 0 30; Alloc 1 1; Free 0 14; Free 1 1; Alloc 0 30; Alloc 1 1;
    Alloc 0 390; Alloc 1 7; Free 0 30; Free 1 1; Alloc 0 30; Alloc 1 1; Free 0 390; Free 1 7]) as E.
  { vm_cast_no_check (eq_refl (log_of nothrow false false ops_u)). }
  split; [|exact E]. destruct (log_of_runs _ _ _ _ _ E) as (rs & w & R). exists rs, w. eexists. split; [exact R|reflexivity].
Qed.
(** one call fails. The allocation of the groups (event 4, in the first insertion; event 46, in the first growth): the array of buckets is given back. The hash
    function during the growth (event 48): both new arrays are given back. The hash function in the copy construction with allocator 7 (event 65): the arrays of the
    unfinished container are given back. *)
Definition fail_at (k0 : kind) (z : nat) : kind -> nat -> bool :=
  fun k n => match k0, k with KAlloc, KAlloc | KHash, KHash => (n =? z)%nat | _, _ => false end.
Definition ops_t : list (op N N) := New 0 0 0 0 :: ins 0 (seq 0 15) ++ [CopyConstruct 0 7].
Example C64_example_throwing :
  log_of (fail_at KAlloc 4) false false ops_t = Some [Alloc 0 14; Free 0 14; Alloc 0 14; Alloc 1 1; Alloc 0 30; Alloc 1 1; Free 0 14; Free 1 1; Alloc 14 30; Alloc 15 1] /\
  log_of (fail_at KAlloc 46) false false ops_t = Some [Alloc 0 14; Alloc 1 1; Alloc 0 30; Free 0 30; Alloc 0 30; Alloc 1 1; Free 0 14; Free 1 1; Alloc 14 30; Alloc 15 1] /\
  log_of (fail_at KHash 48) false false ops_t = Some [Alloc 0 14; Alloc 1 1; Alloc 0 30; Alloc 1 1; Free 0 30; Free 1 1; Alloc 14 14; Alloc 15 1] /\
  log_of (fail_at KHash 65) false false ops_t = Some [Alloc 0 14; Alloc 1 1; Alloc 0 30; Alloc 1 1; Free 0 14; Free 1 1; Alloc 14 30; Alloc 15 1; Free 14 30; Free 15 1].
Proof. vm_compute. auto. Qed.

(** operations that do not talk to the allocators of the arrays: lookup, iteration, erasure, clear(), max_load_factor(z), extraction, swap, move construction,
    construction without buckets, comparison, handles, and insertion of one element while size() < max_load() *)
Definition silent {K V} (o : op K V) (w : @mworld K V) : Prop :=
  match o with
  | On i o => match o with
      | InsertRange _ _ | AssignList _ | Rehash _ | Reserve _ => False
      | Insert _ _ | InsertHint _ _ _ | InsertOrAssign _ _ | Index _ _ => exists t, slot w i = Some t /\ f_size t + 1 < 2 ^ 64 /\ f_size t < f_ml t
      | _ => True end
  | New _ _ _ n => n = 0
  | Swap _ _ | MoveConstruct _ | Equal _ _ _ | ExtractKey _ _ | ExtractNth _ _ | SetHandle _ _ | DropHandle _ => True
  | InsertHandle i _ _ => exists t, slot w i = Some t /\ f_size t + 1 < 2 ^ 64 /\ f_size t < f_ml t
  | _ => False
  end.
Section Silent.
Context {K V : Type} (c : FCfg K V).
Notation table := (FcaModel.table K V).
Notation St := (table * heap)%type.
Definition hush {X A} (log : list mem) (r : R (L X) A) : Prop := match r with Ret _ q _ => snd q = log | Exn _ q _ => snd q = log | Undef => True end.
Lemma hush_quiet {X A} (m : M X A) s log n : hush log (quiet m (s, log) n).
Proof. unfold FoaMem.quiet, lens, hush. cbn [fst snd]. destruct (m s n); reflexivity. Qed.
Section Room.
(** while there is room: the table is not full and nothing was logged *)
Variable z : N * N.
Definition roomy (t : table) : Prop := (f_size t, f_ml t) = z.
Definition still {A} (m : M (L St) A) : Prop := forall t h log n, roomy t ->
  match m ((t, h), log) n with Ret _ q _ => snd q = log /\ roomy (fst (fst q)) | Exn _ q _ => snd q = log /\ roomy (fst (fst q)) | Undef => True end.
Definition last {A} (m : M (L St) A) : Prop := forall t h log n, roomy t -> hush log (m ((t, h), log) n).
Lemma still_last {A} (m : M (L St) A) : still m -> last m.
Proof. intros H t h log n R. specialize (H t h log n R). destruct (m (t, h, log) n); cbn; intuition. Qed.
Lemma last_bind {A B} (m : M (L St) A) (f : A -> M (L St) B) : still m -> (forall a, last (f a)) -> last (bind m f).
Proof.
  intros H Hf t h log n R. specialize (H t h log n R). unfold bind. destruct (m (t, h, log) n) as [a [[t1 h1] l1] n1|k [[t1 h1] l1] n1|]; cbn in *; try exact I.
  - destruct H as [-> R1]. apply Hf. exact R1.
  - tauto.
Qed.
Lemma still_bind {A B} (m : M (L St) A) (f : A -> M (L St) B) : still m -> (forall a, still (f a)) -> still (bind m f).
Proof.
  intros H Hf t h log n R. specialize (H t h log n R). unfold bind. destruct (m (t, h, log) n) as [a [[t1 h1] l1] n1|k [[t1 h1] l1] n1|]; cbn in *; try exact I.
  - destruct H as [-> R1]. apply Hf. exact R1.
  - exact H.
Qed.
Lemma still_ret {A} (a : A) : still (ret a). Proof. intros t h log n R. cbn. auto. Qed.
Lemma still_undef {A} : still (A:=A) undef. Proof. intros t h log n R. exact I. Qed.
Lemma still_opt {A} (o : option A) : still (of_option o). Proof. destruct o; [apply still_ret|apply still_undef]. Qed.
(** functions that leave size() and max_load() alone *)
Definition sm (s : St) : N * N := (f_size (fst s), f_ml (fst s)).
Lemma still_quiet {A} (m : M St A) : FoaMemKeep.keeps sm m -> still (quiet m).
Proof.
  intros H t h log n R. specialize (H (t, h) n). unfold FoaMem.quiet, lens. cbn [fst snd].
  destruct (m (t, h) n) as [a [t1 h1] n1|k [t1 h1] n1|]; cbn in *; try exact I; (split; [reflexivity|]); unfold roomy in *;
    unfold sm in H; cbn in H; rewrite H; exact R.
Qed.
Lemma last_quiet {A} (m : M St A) : last (quiet m).
Proof. intros t h log n R. apply hush_quiet. Qed.
Lemma last_on_exn {A} (m : M (L St) A) (f : M St unit) : last m -> last (on_exn m (quiet f)).
Proof.
  intros H t h log n R. specialize (H t h log n R). unfold on_exn. destruct (m (t, h, log) n) as [a q n1|k [q l] n1|]; cbn in *; auto. subst l.
  pose proof (hush_quiet f q log n1) as X. destruct (quiet f (q, log) n1); cbn in *; auto.
Qed.
(** a computation that logs nothing after one that logs nothing (whatever the room) *)
Definition mute {A} (m : M (L St) A) : Prop := forall q log n, hush log (m (q, log) n).
Lemma mute_quiet {A} (m : M St A) : mute (quiet m). Proof. intros q log n. apply hush_quiet. Qed.
Lemma mute_ret {A} (a : A) : mute (ret a). Proof. intros q log n. reflexivity. Qed.
Lemma mute_bind {A B} (m : M (L St) A) (f : A -> M (L St) B) : mute m -> (forall a, mute (f a)) -> mute (bind m f).
Proof.
  intros H Hf q log n. specialize (H q log n). unfold bind. destruct (m (q, log) n) as [a [s1 l1] n1|k [s1 l1] n1|]; cbn in *; subst; auto. apply Hf.
Qed.
Lemma last_then {A B} (m : M (L St) A) (f : A -> M (L St) B) : last m -> (forall a, mute (f a)) -> last (bind m f).
Proof.
  intros H Hf t h log n R. specialize (H t h log n R). unfold bind. destruct (m (t, h, log) n) as [a [s1 l1] n1|k [s1 l1] n1|]; cbn in *; subst; auto. apply Hf.
Qed.
Ltac tail := repeat first [apply mute_quiet|apply mute_ret|(apply mute_bind; [|intro])].
Lemma last_getbind {A} (f : table -> M (L St) A) : (forall t, roomy t -> last (f t)) -> last (bind get_t' f).
Proof. intros H t h log n R. unfold bind, get_t', get, ret. cbn [fst]. apply H; exact R. Qed.
Lemma still_getbind {A} (f : table -> M (L St) A) : (forall t, roomy t -> still (f t)) -> still (bind get_t' f).
Proof. intros H t h log n R. unfold bind, get_t', get, ret. cbn [fst]. apply H; exact R. Qed.
Hypothesis Hz : fst z + 1 < 2 ^ 64 /\ fst z < snd z.
Lemma roomy_test t : roomy t -> (f_ml t <? uadd (f_size t) 1) = false.
Proof. intros E. unfold roomy in E. rewrite <- E in Hz. cbn [fst snd] in Hz. destruct Hz as [A B]. apply N.ltb_ge. unfold uadd. rewrite N.mod_small by exact A. clear - B. lia. Qed.
Lemma roomy_eq t t' : roomy t -> roomy t' -> f_size t = f_size t'.
Proof. unfold roomy. intros A B. rewrite <- B in A. injection A as A _. exact A. Qed.

Lemma sm_mod_h f : FoaMemKeep.keeps sm (mod_h (K:=K) (V:=V) f).
Proof. unfold mod_h. apply FoaMemKeep.keeps_modify. reflexivity. Qed.
Lemma sm_get_t : FoaMemKeep.keeps sm (@get_t K V). Proof. apply keeps_get_t. Qed.
Ltac kq := repeat first
  [ apply sm_mod_h | apply FoaMemKeep.keeps_ret | apply FoaMemKeep.keeps_undef | apply FoaMemKeep.keeps_get | apply sm_get_t
  | apply keeps_tick | apply keeps_hash | apply keeps_fni | apply FoaMemKeep.keeps_of_option
  | (apply FoaMemKeep.keeps_bind; [|intro]) | (apply FoaMemKeep.keeps_on_exn) 
  | match goal with |- FoaMemKeep.keeps _ (match ?x with _ => _ end) => destruct x end ].
Lemma sm_nn kd e : FoaMemKeep.keeps sm (new_node c kd e). Proof. unfold new_node. kq. Qed.
Lemma sm_dn x : FoaMemKeep.keeps sm (delete_node (K:=K) (V:=V) x). Proof. unfold delete_node. kq. Qed.
Lemma sm_hm hint k : FoaMemKeep.keeps sm (hint_matches c hint k). Proof. unfold hint_matches. kq. Qed.
Lemma sm_ia m : FoaMemKeep.keeps sm (it_at (K:=K) (V:=V) m). Proof. unfold it_at. kq. Qed.
Lemma still_g1 h itb : still (grow_for_one' c h itb).
Proof. unfold grow_for_one'. apply still_getbind. intros t R. rewrite (roomy_test t R). apply still_ret. Qed.
Ltac st := repeat first
  [ apply still_last, still_ret | apply still_last, still_undef | apply last_quiet
  | (apply last_on_exn)
  | (apply last_getbind; intros ? ?)
  | (apply last_bind; [first [apply still_quiet; first [apply sm_nn|apply sm_dn|apply sm_hm|apply sm_ia|apply keeps_hash|apply keeps_fni] | apply still_opt | apply still_g1]|intro])
  | match goal with |- last (match ?x with _ => _ end) => destruct x end ].
Lemma last_gi x h itb : last (grow_insert' c x h itb).
Proof. unfold grow_insert'. apply last_bind; [apply still_g1|intro]. apply last_then; [apply last_quiet|intro; tail]. Qed.
Ltac go := repeat (st; try apply last_gi; try (apply last_then; [|intros; tail])).
Lemma last_euk kd e : last (emplace_unique_key' c kd e).
Proof. unfold emplace_unique_key'. go. Qed.
Lemma last_eun kd e : last (emplace_unique_nokey' c kd e).
Proof. unfold emplace_unique_nokey'. go. Qed.
Lemma last_eu kf kd e : last (emplace_unique' c kf kd e).
Proof. unfold emplace_unique'. destruct kf; [apply last_euk|apply last_eun]. Qed.
Lemma last_ehu kf hint e : last (emplace_hint_unique' c kf hint e).
Proof.
  unfold emplace_hint_unique'. destruct kf.
  - apply last_bind; [apply still_quiet, sm_hm|]. intros [|]; [apply still_last, still_ret|]. apply last_then; [apply last_euk|intro; tail].
  - go.
Qed.
Lemma last_ioa k v : last (insert_or_assign_unique' c k v).
Proof. unfold insert_or_assign_unique'. go. Qed.
Lemma last_ee x : last (emplace_equiv' c x).
Proof. unfold emplace_equiv'. go. Qed.
Lemma last_ehe hint x : last (emplace_hint_equiv' c hint x).
Proof.
  unfold emplace_hint_equiv'. apply last_on_exn. apply last_getbind. intros t R. rewrite (roomy_test t R). cbv zeta.
  apply last_bind; [apply still_quiet, sm_hm|]. intros u. apply last_bind.
  - destruct (negb u); [|apply still_ret]. apply still_bind; [apply still_quiet, keeps_hash|intro]. apply still_bind; [apply still_opt|intro].
    apply still_bind; [apply still_quiet, keeps_fni|intro; apply still_ret].
  - intros [[h itb] p]. apply last_bind; [apply still_ret|]. intro. go.
Qed.
Lemma still_rfi t : roomy t -> still (reserve_for_insert' c (uadd (f_size t) 1)).
Proof.
  intros R. unfold reserve_for_insert'. apply still_getbind. intros t' R'. rewrite (roomy_eq t t' R R'), (roomy_test t' R'). apply still_ret.
Qed.
Lemma last_ihu x : last (insert_handle_unique' c x).
Proof.
  unfold insert_handle_unique'. apply last_getbind. intros t R. st. apply last_bind; [apply still_rfi; exact R|intro]. st. apply last_then; [st|intros; tail].
Qed.
Lemma last_ihhu hint x : last (insert_handle_hint_unique' c hint x).
Proof. unfold insert_handle_hint_unique'. go. Qed.
Lemma last_ihe x : last (insert_handle_equiv' c x).
Proof.
  unfold insert_handle_equiv'. apply last_getbind. intros t R. apply last_bind; [apply still_rfi; exact R|intro]. st. apply last_then; [st|intros; tail].
Qed.
Lemma last_ihhe hint x : last (insert_handle_hint_equiv' c hint x).
Proof.
  unfold insert_handle_hint_equiv'. apply last_getbind. intros t R. rewrite (roomy_test t R). apply last_bind; [apply still_quiet, keeps_hash|intro h].
  apply last_bind; [apply still_ret|intro itb]. apply last_bind.
  - destruct (e_p hint); [|apply still_ret]. apply still_getbind. intros t' R'. apply still_bind; [apply still_opt|intro]. apply still_bind; [apply still_quiet, keeps_tick|intro; apply still_ret].
  - intros u. apply last_bind.
    + destruct u; [apply still_ret|]. apply still_getbind. intros t' R'. apply still_bind; [apply still_opt|intro]. apply still_bind; [apply still_quiet, keeps_fni|intro; apply still_ret].
    + intros q. go.
Qed.
Lemma last_ih hint x : last (insert_handle' c hint x).
Proof. unfold insert_handle'. destruct (multi c), hint; auto using last_ihu, last_ihhu, last_ihe, last_ihhe. Qed.
End Room.
Ltac tail := repeat first [apply mute_quiet|apply mute_ret|(apply mute_bind; [|intro])].
Lemma hush_bind {X A B} (m : M (L X) A) (f : A -> M (L X) B) s log n :
  hush log (m (s, log) n) -> (forall a s1 n1, hush log (f a (s1, log) n1)) -> hush log (bind m f (s, log) n).
Proof. intros H Hf. unfold bind. destruct (m (s, log) n) as [a [s1 l1] n1|k [s1 l1] n1|]; cbn in *; subst; auto. Qed.
Lemma hush_run1 {A} i (m : M (L St) A) w log n : (forall t, slot w i = Some t -> hush log (m ((t, hp w), log) n)) -> hush log (run1' i m (w, log) n).
Proof.
  intros H. unfold run1'. cbn [fst snd]. destruct (slot w i) as [t|]; [|exact I]. specialize (H t eq_refl). destruct (m (t, hp w, log) n); cbn in *; auto.
Qed.
Lemma hush_exec o w log n : silent o w -> hush log (exec' c o (w, log) n).
Proof.
  intros H. destruct o as [i o|h p al m|j al|j|j al|i|i j|i j|i j|i j|i j eeq|i k|i m|h e|i h hint|h]; cbn [silent exec'] in *; try contradiction; try apply hush_quiet.
  - apply hush_run1. intros t0 E0. destruct o; try contradiction; cbn [exec1']; try apply hush_quiet;
      destruct H as (t & E & L1 & L2); rewrite E in E0; injection E0 as <-;
      match goal with |- hush log (?m (t, hp w, log) n) => cut (last (f_size t, f_ml t) m); [intros X; apply X; reflexivity|] end.
    + destruct (multi c).
      * apply last_bind; [apply still_quiet, sm_nn|intro]. apply last_then; [apply last_ee; split; assumption|intro; tail].
      * apply last_then; [apply last_eu; split; assumption|intro; tail].
    + apply last_bind; [apply still_quiet, sm_ia|intro]. destruct (multi c).
      * apply last_bind; [apply still_quiet, sm_nn|intro]. apply last_then; [apply last_ehe; split; assumption|intro; tail].
      * apply last_then; [apply last_ehu; split; assumption|intro; tail].
    + apply last_then; [apply last_ioa; split; assumption|intro; tail].
    + apply last_then; [apply last_eu; split; assumption|intro; tail].
  - subst m. apply hush_bind; [reflexivity|]. intros t s1 n1. apply hush_bind; [apply hush_quiet|reflexivity].
  - apply hush_bind; [|reflexivity]. unfold run2'. cbn [fst snd]. destruct (slot w i) as [t|]; [|exact I]. destruct (slot w j) as [x|]; [|exact I].
    destruct (Nat.eqb i j); [exact I|]. pose proof (hush_quiet (swap_tables c) ((t, x), hp w) log n) as X. destruct (quiet (swap_tables c) (t, x, hp w, log) n); cbn in *; auto.
  - destruct H as (t & E & L1 & L2). change (bind get ?f (w, log) n) with (f (w, log) (w, log) n). cbv beta. cbn [fst].
    destruct (nth_error (hands w) h) as [[x|]|]; [|reflexivity|exact I].
    apply hush_bind.
    + apply hush_run1. intros t0 E0. rewrite E in E0. injection E0 as <-.
      match goal with |- hush log (?m (t, hp w, log) n) => cut (last (f_size t, f_ml t) m); [intros X; apply X; reflexivity|] end.
      apply last_bind; [apply still_quiet; destruct hint; [apply FoaMemKeep.keeps_bind; [apply sm_ia|intro; apply FoaMemKeep.keeps_ret]|apply FoaMemKeep.keeps_ret]|intro hi].
      apply last_then; [apply last_ih; split; assumption|intro; tail].
    + intros r s1 n1. apply hush_bind; [apply hush_quiet|reflexivity].
Qed.
End Silent.
Theorem C64_silent_operations :
  forall (K V : Type) (c : FCfg K V) o w log n, silent o w ->
  match exec' c o (w, log) n with Ret _ q _ => snd q = log | Exn _ q _ => snd q = log | Undef => True end.
Proof. intros K V c o w log n. apply hush_exec. Qed.
Print Assumptions C64_silent_operations.
Definition w_s : @mworld N N := Eval vm_compute in w_of nothrow false false true ops_u.
Example C64_example_silent : silent (On 2 (Insert true (777, 1))) w_s /\ silent (InsertHandle 2 1 (Some 4%nat)) w_s /\ silent (MoveConstruct 0) w_s /\
  (exists rs, runs (ecfg nothrow false false) rs w_s) /\
  match exec' (ecfg nothrow false false) (On 2 (Insert true (777, 1))) (w_s, []) 0%nat with Ret (VIns (_, (777, 1)) true) _ _ => True | _ => False end.
Proof.
  split; [|split; [|split; [exact I|split]]].
  - cbn [silent]. destruct (slot w_s 2) as [t|] eqn:E; [|vm_compute in E; discriminate]. exists t. split; [reflexivity|]. vm_compute in E. injection E as <-. split; vm_compute; reflexivity.
  - cbn [silent]. destruct (slot w_s 2) as [t|] eqn:E; [|vm_compute in E; discriminate]. exists t. split; [reflexivity|]. vm_compute in E. injection E as <-. split; vm_compute; reflexivity.
  - destruct (check_runs nothrow false false true ops_u start 0 w_s []) as (rs & R); [vm_cast_no_check (eq_refl (Some w_s))|constructor|].
    exists rs. eapply runs_weaken; [|exact R]. cbn. auto.
  - vm_compute. exact I.
Qed.
