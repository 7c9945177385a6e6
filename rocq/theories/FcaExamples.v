(** Concrete closed-addressing containers (keys and values are numbers), to show that the hypotheses of the theorems of Properties_Fca.v are met and to
    refute over-general statements. Hash object 0 is the identity, every other one is constant. *)
From Coq Require Import NArith ZArith Bool List Arith Lia Permutation.
From Verif Require Import FloatModel FoaModel FcaLinks FcaModel FcaIter FcaTab FcaSpec FcaWorld FcaProps FcaProps2.
From Verif Require FoaWorld.
Import ListNotations.
Local Open Scope N_scope.

Definition ecfg (thr : kind -> nat -> bool) (mu pc : bool) : FCfg N N := {|
  base := {| hashf := fun h k => if h =? 0 then k else 0; keqf := fun _ => N.eqb; throws := thr; esz := 16; gmax := 64; moves := true; pocca := pc; pocma := false; pocs := true; regular := true |};
  multi := mu; leftover := fun e => (fst e, 0) |}.
Lemma ecfg_agree thr mu pc h p : FoaWorld.agree (base (ecfg thr mu pc)) h p.
Proof.
  split; [split; [|split]|]; cbn.
  - apply N.eqb_refl.
  - apply N.eqb_sym.
  - intros x y z A B. apply N.eqb_eq in A, B. apply N.eqb_eq. congruence.
  - intros x y A. apply N.eqb_eq in A. subst; reflexivity.
Qed.
Section Pre.
Variables (thr : kind -> nat -> bool) (mu pc : bool).
Notation c := (ecfg thr mu pc).
Notation mworld := (@mworld N N).
Notation tab := (table N N).
Definition roomb (t : tab) (n : nat) : bool := f_size t + N.of_nat n <? 2 ^ 53.
Definition pre1b (o : op1 N N) (t : tab) : bool :=
  match o with
  | Insert _ _ => roomb t 1
  | InsertHint _ m _ => roomb t 1 && (N.of_nat m <=? f_size t)
  | InsertRange _ l => roomb t (length l)
  | AssignList l => N.of_nat (length l) <? 2 ^ 53
  | InsertOrAssign _ _ | Index _ _ => roomb t 1 && negb mu
  | EraseNth m => N.of_nat m <? f_size t
  | EraseRange m m2 => (m <=? m2)%nat && (N.of_nat m2 <=? f_size t)
  | _ => true
  end.
Definition has (w : mworld) (i : nat) : bool := match slot w i with Some _ => true | None => false end.
Definition two (w : mworld) (i j : nat) (f : tab -> tab -> bool) : bool := negb (Nat.eqb i j) && match slot w i, slot w j with Some t, Some x => f t x | _, _ => false end.
Definition preb (o : op N N) (w : mworld) : bool :=
  match o with
  | On i o => match slot w i with Some t => pre1b o t | None => false end
  | New h p al n => true
  | CopyConstruct j _ | MoveConstruct j | MoveConstructAl j _ => has w j
  | Destroy i => has w i
  | CopyAssign i j => two w i j (fun t x => negb pc || (f_al t =? f_al x) || (0 <? f_size x))
  | MoveAssign i j => two w i j (fun _ _ => true)
  | Swap i j => two w i j (fun _ _ => true)
  | Merge i j => two w i j (fun t x => (f_al t =? f_al x) && roomb t (N.to_nat (f_size x)))
  | Equal _ _ _ => false
  | ExtractKey i _ => has w i
  | ExtractNth i m => match slot w i with Some t => N.of_nat m <? f_size t | None => false end
  | SetHandle h _ => match nth_error (hands w) h with Some (Some _) => true | _ => false end
  | InsertHandle i h hint => match slot w i, nth_error (hands w) h with
      | Some t, Some o => roomb t 1 && match o with Some x => nd_al x =? f_al t | None => true end && match hint with Some m => N.of_nat m <=? f_size t | None => true end
      | _, _ => false end
  | DropHandle h => match nth_error (hands w) h with Some _ => true | None => false end
  end.
Lemma has_ok w i : has w i = true -> exists t, slot w i = Some t.
Proof. unfold has. destruct (slot w i); [eauto|discriminate]. Qed.
Lemma two_ok w i j f : two w i j f = true -> i <> j /\ exists t x, slot w i = Some t /\ slot w j = Some x /\ f t x = true.
Proof.
  intros H. apply andb_prop in H as [A B]. split; [apply negb_true_iff, Nat.eqb_neq in A; exact A|]. destruct (slot w i) as [t|]; [|discriminate]. destruct (slot w j) as [x|]; [|discriminate]. eauto.
Qed.
Lemma roomb_ok t n : roomb t n = true -> room t n. Proof. apply N.ltb_lt. Qed.
Lemma keeps : keeps_keys c. Proof. intros e. reflexivity. Qed.
Lemma preb_ok o w : preb o w = true -> pre c o w.
Proof.
  destruct o as [i o|h p al n|j al|j|j al|i|i j|i j|i j|i j|i j eeq|i k|i m|h e|i h hint|h]; cbn [preb pre]; intros H; try (apply has_ok; exact H).
  - destruct (slot w i) as [t|]; [|discriminate]. exists t. split; [reflexivity|]. destruct o; cbn [pre1b pre1] in *; auto using roomb_ok.
    + apply andb_prop in H as [A B]. split; [apply roomb_ok; exact A|apply N.leb_le; exact B].
    + apply N.ltb_lt. exact H.
    + apply andb_prop in H as [A B]. split; [apply roomb_ok; exact A|apply negb_true_iff; exact B].
    + apply andb_prop in H as [A B]. split; [apply roomb_ok; exact A|apply negb_true_iff; exact B].
    + apply N.ltb_lt. exact H.
    + apply andb_prop in H as [A B]. split; [apply Nat.leb_le; exact A|apply N.leb_le; exact B].
  - apply ecfg_agree.
  - destruct (has_ok _ _ H) as (t & E). exists t. split; [exact E|]. right. apply keeps.
  - destruct (two_ok _ _ _ _ H) as (D & t & x & E1 & E2 & F). split; [exact D|]. exists t, x. split; [exact E1|]. split; [exact E2|]. cbn. apply orb_prop in F as [F|F]; [apply orb_prop in F as [F|F]|].
    + left. apply negb_true_iff. exact F.
    + right. left. apply N.eqb_eq. exact F.
    + right. right. left. apply N.ltb_lt. exact F.
  - destruct (two_ok _ _ _ _ H) as (D & t & x & E1 & E2 & F). split; [exact D|]. exists t, x. split; [exact E1|]. split; [exact E2|]. right. right. apply keeps.
  - destruct (two_ok _ _ _ _ H) as (D & t & x & E1 & E2 & F). split; [exact D|]. exists t, x. split; [exact E1|]. split; [exact E2|]. left. reflexivity.
  - destruct (two_ok _ _ _ _ H) as (D & t & x & E1 & E2 & F). split; [exact D|]. exists t, x. split; [exact E1|]. split; [exact E2|]. apply andb_prop in F as [A B]. split; [apply N.eqb_eq; exact A|apply roomb_ok; exact B].
  - discriminate.
  - destruct (slot w i) as [t|]; [|discriminate]. exists t. split; [reflexivity|]. apply N.ltb_lt. exact H.
  - destruct (nth_error (hands w) h) as [[x|]|]; try discriminate. eauto.
  - destruct (slot w i) as [t|]; [|discriminate]. destruct (nth_error (hands w) h) as [o|]; [|discriminate]. exists t, o. apply andb_prop in H as [H H3]. apply andb_prop in H as [H1 H2].
    split; [reflexivity|]. split; [reflexivity|]. split; [apply roomb_ok; exact H1|]. split; [intros x ->; apply N.eqb_eq; exact H2|intros m ->; apply N.leb_le; exact H3].
  - destruct (nth_error (hands w) h) as [o|]; [|discriminate]. eauto.
Qed.
(** no_new_arena, if copy assignments never replace an allocator by another one *)
Definition arenab (o : op N N) (w : mworld) : bool := match o with CopyAssign i j => match slot w i, slot w j with Some t, Some x => negb pc || (f_al t =? f_al x) | _, _ => true end | _ => true end.
Lemma arenab_ok o w : arenab o w = true -> no_new_arena c o w.
Proof.
  destruct o; cbn [arenab no_new_arena]; auto. intros H t x E1 E2. rewrite E1, E2 in H. apply orb_prop in H as [H|H]; [left; apply negb_true_iff; exact H|right; apply N.eqb_eq; exact H].
Qed.
(** the world after the operations, if their preconditions are met ([arena]: also [no_new_arena]) *)
Fixpoint check (arena : bool) (ops : list (op N N)) (w : mworld) (n : nat) : option mworld :=
  match ops with
  | [] => Some w
  | o :: r => if preb o w && (negb arena || arenab o w) then match exec c o w n with Undef => None | Ret _ w' n' | Exn _ w' n' => check arena r w' n' end else None
  end.
Lemma check_runs arena ops : forall w n w' rs0, check arena ops w n = Some w' -> runs_with c (fun o w => arena = true -> no_new_arena c o w) rs0 w ->
  exists rs, runs_with c (fun o w => arena = true -> no_new_arena c o w) rs w'.
Proof.
  induction ops as [|o ops IH]; intros w n w' rs0 H R; cbn [check] in H; [injection H as <-; eauto|].
  destruct (preb o w) eqn:P; [|discriminate]. cbn [andb] in H. destruct (negb arena || arenab o w) eqn:A; [|discriminate].
  assert (arena = true -> no_new_arena c o w) as A1 by (intros ->; apply arenab_ok; exact A).
  destruct (exec c o w n) as [v w1 n1|k w1 n1|] eqn:E; [| |discriminate];
    [pose proof (runs_snoc c _ rs0 w o n (Done v) w1 R (preb_ok _ _ P) A1) as R1|pose proof (runs_snoc c _ rs0 w o n (Threw k) w1 R (preb_ok _ _ P) A1) as R1];
    rewrite E in R1; exact (IH _ _ _ _ H (R1 (conj eq_refl eq_refl))).
Qed.
(** container number i and the heap after the operations *)
Definition nth_st (arena : bool) (ops : list (op N N)) (i : nat) : option (tab * heap) :=
  match check arena ops start 0 with Some w => match slot w i with Some t => Some (t, hp w) | None => None end | None => None end.
Definition st_of (arena : bool) (ops : list (op N N)) (i : nat) : tab * heap := match nth_st arena ops i with Some s => s | None => (FT 0 0 0 0 None 0 (b_null 0), Hp 0 0) end.
Definition w_of (arena : bool) (ops : list (op N N)) : mworld := match check arena ops start 0 with Some w => w | None => start end.
Lemma st_program ops i s : nth_st true ops i = Some s -> in_program_arena c (fst s) (snd s).
Proof.
  unfold nth_st. intros H. destruct (check true ops start 0) as [w|] eqn:S; [|discriminate]. destruct (slot w i) as [t|] eqn:E; [|discriminate]. injection H as <-.
  destruct (check_runs true ops start 0 w [] S (runs_nil c _)) as (rs & R). exists rs, w, i. split; [|split; [exact E|reflexivity]]. eapply runs_weaken; [|exact R]. cbn. auto.
Qed.
Lemma any_program ops i s : nth_st false ops i = Some s -> in_program c (fst s) (snd s).
Proof.
  unfold nth_st. intros H. destruct (check false ops start 0) as [w|] eqn:S; [|discriminate]. destruct (slot w i) as [t|] eqn:E; [|discriminate]. injection H as <-.
  destruct (check_runs false ops start 0 w [] S (runs_nil c _)) as (rs & R). exists rs, w, i. split; [|split; [exact E|reflexivity]]. eapply runs_weaken; [|exact R]. cbn. auto.
Qed.
End Pre.
Definition nothrow : kind -> nat -> bool := fun _ _ => false.
Definition ins (i : nat) (ks : list nat) : list (op N N) := map (fun k => On i (Insert true (N.of_nat k, N.of_nat k + 100))) ks.
Definition ers (i : nat) (ks : list nat) : list (op N N) := map (fun k => On i (EraseKey (N.of_nat k))) ks.

(** unique keys: 16 insertions with growth, colliding keys in a second container (constant hash), erasures, a merge, handles *)
Definition ops_u : list (op N N) :=
  New 0 0 0 0 :: New 1 0 0 10 :: ins 0 (seq 0 16) ++ ers 0 [3; 7]%nat ++ ins 1 (seq 14 4) ++
  [On 0 (Insert true (5, 0)); On 0 (Find 5); On 0 (Find 7); On 0 (InsertOrAssign 5 1); On 0 (Index 0 70); CopyConstruct 0 0; Merge 2 1; On 2 Size; On 1 Iterate; On 2 (Rehash 200); On 2 (Reserve 10);
   ExtractKey 0 9; ExtractNth 0 3; SetHandle 0 (99, 1); InsertHandle 2 0 None; InsertHandle 2 1 (Some 4%nat); DropHandle 1; On 0 (EraseRange 2 5); On 0 (EraseNth 1); On 0 (MaxLoadFactor (Some f32_one))].
(** (the states are stored evaluated) *)
Definition s_u : table N N * heap := Eval vm_compute in st_of nothrow false false true ops_u 2.
Lemma s_u_ok : in_program_arena (ecfg nothrow false false) (fst s_u) (snd s_u). Proof. apply (st_program nothrow false false ops_u 2). vm_cast_no_check (eq_refl (Some s_u)). Qed.
(** equivalent keys, in two hash layouts, with hints *)
Definition ops_m : list (op N N) :=
  New 0 0 0 0 :: New 1 0 0 10 :: ins 0 [1; 2; 1; 3; 2; 1; 40]%nat ++ ins 1 [1; 2; 1; 2; 1]%nat ++
  [On 0 (InsertHint true 3 (2, 7)); On 0 (InsertRange true [(1, 1); (2, 2); (50, 5)]); On 0 (Rehash 100); On 1 (Count 1); On 1 (EqualRange 2); Merge 0 1; On 0 (Insert true (1, 9)); ExtractKey 0 2; InsertHandle 0 0 (Some 2%nat)].
Definition s_m : table N N * heap := Eval vm_compute in st_of nothrow true false true ops_m 0.
Lemma s_m_ok : in_program_arena (ecfg nothrow true false) (fst s_m) (snd s_m). Proof. apply (st_program nothrow true false ops_m 0). vm_cast_no_check (eq_refl (Some s_m)). Qed.
(** exceptions from event 1000 on *)
Definition late (k0 : kind) : kind -> nat -> bool := fun k n =>
  match k0, k with KAlloc, KAlloc | KHash, KHash | KTransfer, KTransfer | KConstruct, KConstruct | KEq, KEq => (1000 <=? n)%nat | _, _ => false end.
Definition ops_late : list (op N N) := New 0 0 0 0 :: ins 0 (seq 0 13).
Definition s_late : table N N * heap := Eval vm_compute in st_of (late KHash) false false true ops_late 0.
Lemma s_late_ok : in_program_arena (ecfg (late KHash) false false) (fst s_late) (snd s_late). Proof. apply (st_program (late KHash) false false ops_late 0). vm_cast_no_check (eq_refl (Some s_late)). Qed.
Definition s_late_c : table N N * heap := Eval vm_compute in st_of (late KConstruct) false false true ops_late 0.
Lemma s_late_c_ok : in_program_arena (ecfg (late KConstruct) false false) (fst s_late_c) (snd s_late_c). Proof. apply (st_program (late KConstruct) false false ops_late 0). vm_cast_no_check (eq_refl (Some s_late_c)). Qed.
(** max_load_factor = 0.88679242f: 47 elements get 53 buckets *)
Definition mlf_bad : option Z := Some (3719477 * 2 ^ 127)%Z.
Definition ops_load : list (op N N) := New 0 0 0 0 :: On 0 (MaxLoadFactor mlf_bad) :: ins 0 (seq 0 46).
Definition s_load : table N N * heap := Eval vm_compute in st_of nothrow false false true ops_load 0.
Lemma s_load_ok : in_program_arena (ecfg nothrow false false) (fst s_load) (snd s_load). Proof. apply (st_program nothrow false false ops_load 0). vm_cast_no_check (eq_refl (Some s_load)). Qed.

(** copy assignment with a propagated, different allocator, from an empty container (0 and 1) and from one of 3 elements (2 and 3) *)
Definition ops_empty : list (op N N) := New 0 0 0 0 :: ins 0 (seq 0 3) ++ [On 0 Clear; New 0 0 1 0].
Definition ops_stale : list (op N N) := New 0 0 0 60 :: New 0 0 1 0 :: ins 1 (seq 0 3) ++ [CopyAssign 0 1] ++ ins 0 (seq 10 20).

Definition s_stale : table N N * heap := Eval vm_compute in st_of nothrow false true false ops_stale 0.
Lemma s_stale_ok : in_program (ecfg nothrow false true) (fst s_stale) (snd s_stale). Proof. apply (any_program nothrow false true ops_stale 0). vm_cast_no_check (eq_refl (Some s_stale)). Qed.
Definition s_empty0 : table N N * heap := Eval vm_compute in st_of nothrow false true false ops_empty 0.
Lemma s_empty0_ok : in_program (ecfg nothrow false true) (fst s_empty0) (snd s_empty0). Proof. apply (any_program nothrow false true ops_empty 0). vm_cast_no_check (eq_refl (Some s_empty0)). Qed.
Definition s_empty1 : table N N * heap := Eval vm_compute in st_of nothrow false true false ops_empty 1.
Lemma s_empty1_ok : in_program (ecfg nothrow false true) (fst s_empty1) (snd s_empty1). Proof. apply (any_program nothrow false true ops_empty 1). vm_cast_no_check (eq_refl (Some s_empty1)). Qed.

(** two multimaps filled in different orders, with different bucket counts *)
Definition peq (a b : N * N) : bool := (fst a =? fst b) && (snd a =? snd b).
Definition ops_eq : list (op N N) := New 0 0 0 0 :: New 0 0 0 60 :: ins 0 [1; 2; 1; 3]%nat ++ [On 0 (Insert true (1, 7))] ++ ins 1 [3; 1; 2]%nat ++ [On 1 (Insert true (1, 7)); On 1 (InsertHint true 1 (1, 101))].
Definition w_eq : @mworld N N := Eval vm_compute in w_of nothrow true false false ops_eq.
Lemma w_eq_run : check nothrow true false false ops_eq start 0 = Some w_eq. Proof. vm_cast_no_check (eq_refl (Some w_eq)). Qed.

(** what a run returned, or what it threw (for examples) *)
Definition returns {St A} (r : R St A) (f : A -> St -> bool) : bool := match r with Ret a s _ => f a s | _ => false end.
Definition throwing {St A} (r : R St A) (f : kind -> St -> bool) : bool := match r with Exn k s _ => f k s | _ => false end.
Definition is_n (v : value N N) (m : N) : bool := match v with VN j => j =? m | _ => false end.
Definition is_hash (k : kind) : bool := match k with KHash => true | _ => false end.
Definition is_construct (k : kind) : bool := match k with KConstruct => true | _ => false end.
