(** Concrete containers (keys and values are numbers), to show that the hypotheses of the theorems of Properties_Foa.v are met and to
    refute over-general statements. Hash object 0 is a multiplicative hash, every other one is constant. *)
From Coq Require Import NArith Bool List Arith Lia.
From Verif Require Import SizeModel GroupModel FoaModel FoaArr FoaIterModel FoaSpec FoaWorld.
Import ListNotations.
Local Open Scope N_scope.

Section Gen.
Context {K V : Type} (c : Cfg K V).
(** running a list of operations *)
Fixpoint steps (ops : list (op K V)) (w : mworld) (n : nat) : option (list (op K V * result K V) * mworld) :=
  match ops with
  | [] => Some ([], w)
  | o :: r =>
      match exec c o w n with
      | Undef => None
      | Ret v w' n' => match steps r w' n' with Some (rs, w2) => Some ((o, Done v) :: rs, w2) | None => None end
      | Exn k w' n' => match steps r w' n' with Some (rs, w2) => Some ((o, Threw k) :: rs, w2) | None => None end
      end
  end.
Fixpoint pres (ops : list (op K V)) (w : mworld) (n : nat) : Prop :=
  match ops with
  | [] => True
  | o :: r => pre c o w /\ match exec c o w n with Undef => True | Ret _ w' n' | Exn _ w' n' => pres r w' n' end
  end.
Lemma steps_runs ops : forall rs0 w n rs w', runs c rs0 w -> pres ops w n -> steps ops w n = Some (rs, w') -> runs c (rs0 ++ rs) w'.
Proof.
  induction ops as [|o ops IH]; intros rs0 w n rs w' R P X; cbn [steps] in X.
  - injection X as <- <-. rewrite app_nil_r. exact R.
  - destruct P as [P1 P2]. destruct (exec c o w n) as [v w1 n1|k w1 n1|] eqn:E; [| |discriminate];
      (destruct (steps ops w1 n1) as [[rs1 w2]|] eqn:S; [|discriminate]); injection X as <- <-;
      [pose proof (runs_snoc c rs0 w o n (Done v) w1 R P1) as R1|pose proof (runs_snoc c rs0 w o n (Threw k) w1 R P1) as R1];
      rewrite E in R1; specialize (R1 (conj eq_refl eq_refl)); specialize (IH _ _ _ _ _ R1 P2 S); rewrite <- app_assoc in IH; exact IH.
Qed.
End Gen.

Definition ecfg (thr : kind -> nat -> bool) (mv : bool) : Cfg N N := {|
  hashf := fun h k => if h =? 0 then k * 11400714819323198485 else 0;
  keqf := fun _ => N.eqb; throws := thr; esz := 16; gmax := 64; moves := mv; pocca := false; pocma := false; pocs := true; regular := true |}.
Lemma ecfg_good thr mv : good_cfg (ecfg thr mv). Proof. constructor; vm_compute; congruence. Qed.
Lemma ecfg_agree thr mv h p : agree (ecfg thr mv) h p.
Proof.
  split; [split; [|split]|]; cbn.
  - apply N.eqb_refl.
  - apply N.eqb_sym.
  - intros x y z A B. apply N.eqb_eq in A, B. apply N.eqb_eq. congruence.
  - intros x y A. apply N.eqb_eq in A. subst; reflexivity.
Qed.
Section Pre.
Variables (thr : kind -> nat -> bool) (mv : bool).
Notation c := (ecfg thr mv).
Definition size_okb (n : N) : bool := (n <? 2 ^ 64) && buffer_fits 16 (groups_for n).
Definition pre1b (o : op1 N N) (t : table N N) : bool :=
  match o with
  | EraseNth m => N.of_nat m <? sz t
  | EraseRange m m2 => (m <=? m2)%nat && (N.of_nat m2 <=? sz t)
  | Rehash n => size_okb n
  | Reserve n => size_okb (ceil_div_mlf n)
  | _ => true
  end.
Definition has (w : mworld) (i : nat) : bool := match slot (K:=N) (V:=N) w i with Some _ => true | None => false end.
Definition preb (o : op N N) (w : mworld) : bool :=
  match o with
  | On i o => match slot w i with Some t => pre1b o t | None => false end
  | New h p al n => size_okb n
  | CopyConstruct j _ | MoveConstruct j | MoveConstructAl j _ => has w j
  | Destroy i => has w i
  | CopyAssign i j | Merge i j => negb (Nat.eqb i j) && has w i && has w j
  | MoveAssign i j => negb (Nat.eqb i j) && match slot w i, slot w j with Some t, Some x => (aid t =? aid x) || ((hid t =? hid x) && (pid t =? pid x)) | _, _ => false end
  | Swap i j => negb (Nat.eqb i j) && has w i && has w j
  | Equal i j _ => has w i && has w j
  end.
Lemma has_ok w i : has w i = true -> exists t, slot w i = Some t.
Proof. unfold has. destruct (slot w i); [eauto|discriminate]. Qed.
Lemma size_okb_ok n : size_okb n = true -> size_ok c n.
Proof. intros H. apply andb_prop in H as [A B]. split; [apply N.ltb_lt; exact A|exact B]. Qed.
Lemma preb_ok o w : preb o w = true -> pre c o w.
Proof.
  destruct o as [i o|h p al n|j al|j|j al|i|i j|i j|i j|i j|i j eeq]; cbn [preb pre]; intros H.
  - destruct (slot w i) as [t|]; [|discriminate]. exists t. split; [reflexivity|]. destruct o; cbn in *; auto using size_okb_ok.
    + apply N.ltb_lt. exact H.
    + apply andb_prop in H as [A B]. split; [apply Nat.leb_le; exact A|apply N.leb_le; exact B].
  - split; [apply ecfg_agree|apply size_okb_ok; exact H].
  - apply has_ok. exact H.
  - apply has_ok. exact H.
  - apply has_ok. exact H.
  - apply has_ok. exact H.
  - apply andb_prop in H as [H H3]. apply andb_prop in H as [H1 H2]. split; [apply negb_true_iff, Nat.eqb_neq in H1; exact H1|].
    destruct (has_ok _ _ H2), (has_ok _ _ H3). eauto.
  - apply andb_prop in H as [H1 H2]. split; [apply negb_true_iff, Nat.eqb_neq in H1; exact H1|].
    destruct (slot w i) as [t|]; [|discriminate]. destruct (slot w j) as [x|]; [|discriminate]. exists t, x. split; [reflexivity|]. split; [reflexivity|].
    right. apply orb_prop in H2 as [H2|H2]; [left; apply N.eqb_eq; exact H2|right]. apply andb_prop in H2 as [A B]. split; apply N.eqb_eq; assumption.
  - apply andb_prop in H as [H H3]. apply andb_prop in H as [H1 H2]. split; [apply negb_true_iff, Nat.eqb_neq in H1; exact H1|].
    destruct (has_ok _ _ H2), (has_ok _ _ H3). eauto 6.
  - apply andb_prop in H as [H H3]. apply andb_prop in H as [H1 H2]. split; [apply negb_true_iff, Nat.eqb_neq in H1; exact H1|].
    destruct (has_ok _ _ H2), (has_ok _ _ H3). eauto.
  - apply andb_prop in H as [H2 H3]. destruct (has_ok _ _ H2), (has_ok _ _ H3). eauto.
Qed.
Fixpoint presb (ops : list (op N N)) (w : mworld) (n : nat) : bool :=
  match ops with
  | [] => true
  | o :: r => preb o w && match exec c o w n with Undef => true | Ret _ w' n' | Exn _ w' n' => presb r w' n' end
  end.
Lemma presb_ok ops : forall w n, presb ops w n = true -> pres c ops w n.
Proof.
  induction ops as [|o ops IH]; intros w n H; cbn [presb pres] in *; [exact I|]. apply andb_prop in H as [A B]. split; [apply preb_ok; exact A|].
  destruct (exec c o w n); auto.
Qed.
Lemma ops_runs ops rs w : presb ops [] 0 = true -> steps c ops [] 0 = Some (rs, w) -> runs c rs w.
Proof. intros P S. apply (steps_runs c ops [] [] 0 rs w (runs_nil c)); [apply presb_ok; exact P|exact S]. Qed.
(** container number i after the operations *)
Definition nth_table (ops : list (op N N)) (i : nat) : option (table N N) :=
  match steps c ops [] 0 with Some (_, w) => slot w i | None => None end.
Lemma nth_reachable ops i t : presb ops [] 0 = true -> nth_table ops i = Some t -> reachable c t.
Proof.
  intros P H. unfold nth_table in H. destruct (steps c ops [] 0) as [[rs w]|] eqn:S; [|discriminate].
  exists rs, w, i. split; [apply (ops_runs ops); assumption|exact H].
Qed.
End Pre.
Definition nothrow : kind -> nat -> bool := fun _ _ => false.
Definition ins (i : nat) (ks : list nat) : list (op N N) := map (fun k => On i (Insert (N.of_nat k, N.of_nat k + 100))) ks.
Definition ers (i : nat) (ks : list nat) : list (op N N) := map (fun k => On i (Erase (N.of_nat k))) ks.
(** the table obtained, with a default that is never used *)
Definition tab_of thr mv ops i : table N N := match nth_table thr mv ops i with Some t => t | None => Tab 0 0 0 (dummy_arrays 0) 0 0 end.
Lemma tab_reachable thr mv ops i : presb thr mv ops [] 0 && match nth_table thr mv ops i with Some _ => true | None => false end = true ->
  reachable (ecfg thr mv) (tab_of thr mv ops i).
Proof.
  intros H. apply andb_prop in H as [A B]. unfold tab_of. destruct (nth_table thr mv ops i) as [t|] eqn:E; [|discriminate]. eapply nth_reachable; eauto.
Qed.

(** 40 insertions (growing), erasures, a copy, a merge; some keys collide, as two containers use a constant hash *)
Definition ops1 : list (op N N) :=
  New 0 0 0 0 :: New 1 0 0 10 :: ins 0 (seq 0 40) ++ ers 0 [3; 7; 39]%nat ++ ins 1 (seq 20 45) ++ ers 1 (seq 20 8) ++
  [On 0 (Insert (5, 0)); On 0 (Find 5); On 0 (Find 7); CopyConstruct 0 0; Merge 2 1; On 2 Size; On 1 Iterate; Destroy 1; On 0 Clear].
Definition t_big : table N N := tab_of nothrow true ops1 2.
Lemma t_big_reachable : reachable (ecfg nothrow true) t_big.
Proof. apply tab_reachable. vm_compute. reflexivity. Qed.
(** 20 colliding elements in a container of 29 slots, 5 of them erased: the maximum load has drifted down to 24 *)
Definition ops_drift : list (op N N) := New 1 0 0 0 :: ins 0 (seq 0 20) ++ ers 0 (seq 0 5).
Definition t_drift : table N N := tab_of nothrow true ops_drift 0.
Lemma t_drift_reachable : reachable (ecfg nothrow true) t_drift.
Proof. apply tab_reachable. vm_compute. reflexivity. Qed.
(** exceptions from event 1000 on *)
Definition late (k0 : kind) : kind -> nat -> bool := fun k n =>
  match k0, k with KAlloc, KAlloc | KHash, KHash | KTransfer, KTransfer | KConstruct, KConstruct | KEq, KEq => (1000 <=? n)%nat | _, _ => false end.
Definition t_late (k : kind) (mv : bool) (j : nat) : table N N := tab_of (late k) mv (New 0 0 0 0 :: ins 0 (seq 0 j)) 0.
