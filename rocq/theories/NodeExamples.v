(** Concrete programs with node containers and handles, for the examples of Properties_Node.v. Keys and mapped values are numbers. *)
From Coq Require Import NArith Bool List Arith Lia.
From Verif Require Import SizeModel GroupModel FoaModel FoaArr FoaIterModel FoaSpec FoaWorld NodeSpec FoaNodeModel FoaExamples.
Import ListNotations.
Local Open Scope N_scope.

Definition ncfg (thr : kind -> nat -> bool) : Cfg N (node N) := {|
  hashf := fun h k => if h =? 0 then k * 11400714819323198485 else 0;
  keqf := fun _ => N.eqb; throws := thr; esz := 8; gmax := 64; moves := true; pocca := false; pocma := false; pocs := true; regular := true |}.
Lemma ncfg_good thr : good_cfg (ncfg thr). Proof. constructor; vm_compute; congruence. Qed.
Lemma ncfg_node thr : (forall n, thr KTransfer n = false) -> node_cfg (ncfg thr). Proof. intros H. split; [reflexivity|exact H]. Qed.
Lemma ncfg_agree thr h p : agree (ncfg thr) h p.
Proof.
  split; [split; [|split]|]; cbn.
  - apply N.eqb_refl.
  - apply N.eqb_sym.
  - intros x y z A B. apply N.eqb_eq in A, B. apply N.eqb_eq. congruence.
  - intros x y A. apply N.eqb_eq in A. subst; reflexivity.
Qed.
Section Pre.
Variable thr : kind -> nat -> bool.
Notation c := (ncfg thr).
Definition nsize_okb (n : N) : bool := (n <? 2 ^ 64) && buffer_fits 8 (groups_for n).
(** sufficient conditions for the preconditions *)
Definition nodupb (l : list N) : bool := Nat.eqb (length (nodup N.eq_dec l)) (length l).
Definition hasb (w : nworld N N) (i : nat) : bool := match slot (boxes w) i with Some _ => true | None => false end.
Definition npreb (o : nop N N) (w : nworld N N) : bool :=
  match o with
  | Box (New h p al n) => nsize_okb n && nodupb (addresses (nlook c w))
  | Box (On i (Insert e)) => match slot (boxes w) i with Some t => (n_owner (snd e) =? aid t) && nodupb (addresses (nlook c w) ++ [n_addr (snd e)]) | None => false end
  | Box (On i (Erase _)) => hasb w i && nodupb (addresses (nlook c w))
  | Extract i k => hasb w i
  | ExtractNth i m => match slot (boxes w) i with Some t => N.of_nat m <? sz t | None => false end
  | InsertNode i j | InsertNodeHint i j => match slot (boxes w) i, hand w j with Some t, Some h => h_empty h || match h_al h with Some a => a =? aid t | None => false end | _, _ => false end
  | HNew => true
  | HMove j | HDestroy j => match hand w j with Some _ => true | None => false end
  | HAssign i j => match hand w i, hand w j with Some hi, Some hj => h_empty hi || h_empty hj || match h_al hi, h_al hj with Some a, Some b => a =? b | _, _ => false end | _, _ => false end
  | HSwap i j => match hand w i, hand w j with Some hi, Some hj => true | _, _ => false end
  | HSet j _ _ => match hand w j with Some h => negb (h_empty h) | None => false end
  | _ => false
  end.
Lemma nodupb_ok l : nodupb l = true -> NoDup l.
Proof.
  unfold nodupb. intros H. apply Nat.eqb_eq in H. induction l as [|x l IH]; [constructor|]. cbn [nodup] in H. pose proof (NoDup_nodup N.eq_dec l) as D.
  assert (length (nodup N.eq_dec l) <= length l)%nat as L.
  { clear. induction l as [|y l IH]; cbn [nodup]; [auto|]. destruct (in_dec N.eq_dec y l); cbn; lia. }
  destruct (in_dec N.eq_dec x l) as [I|I]; cbn [length] in H; [lia|]. constructor; [exact I|apply IH; lia].
Qed.
Lemma hasb_ok w i : hasb w i = true -> exists t, slot (boxes w) i = Some t.
Proof. unfold hasb. destruct (slot (boxes w) i); [eauto|discriminate]. Qed.
Lemma npreb_ok o w : npreb o w = true -> npre c o w.
Proof.
  destruct o as [o|i k|i m|i j|i j| |j|i j|i j|j k v|j]; cbn [npreb npre]; intros H.
  - destruct o as [i o|h p al n| | | | | | | | |]; try discriminate.
    + destruct o; try discriminate.
      * destruct (slot (boxes w) i) as [t|] eqn:Et; [|discriminate]. apply andb_prop in H as [A B]. split; [cbn [pre]; exists t; split; [exact Et|exact Logic.I]|]. split; [exact Logic.I|].
        split; [apply nodupb_ok; exact B|]. intros i' o1 t' e' E Ht' He. injection E as <- <-. rewrite Et in Ht'. injection Ht' as <-. destruct He as [<-|[]]. apply N.eqb_eq. exact A.
      * apply andb_prop in H as [A B]. destruct (hasb_ok _ _ A) as [t Ht]. split; [cbn [pre]; exists t; split; [exact Ht|exact Logic.I]|]. split; [exact Logic.I|].
        cbn [news news1 map]. rewrite app_nil_r. split; [apply nodupb_ok; exact B|]. intros i' o1 t' e' E Ht' He. injection E as <- <-. destruct He.
    + apply andb_prop in H as [A B]. apply andb_prop in A as [A1 A2]. split; [split; [apply ncfg_agree|split; [apply N.ltb_lt; exact A1|exact A2]]|]. split; [exact Logic.I|].
      cbn [news map]. rewrite app_nil_r. split; [apply nodupb_ok; exact B|]. discriminate.
  - apply hasb_ok. exact H.
  - destruct (slot (boxes w) i) as [t|]; [|discriminate]. exists t. split; [reflexivity|]. apply N.ltb_lt. exact H.
  - destruct (slot (boxes w) i) as [t|]; [|discriminate]. destruct (hand w j) as [h|]; [|discriminate]. exists t, h. split; [reflexivity|]. split; [reflexivity|]. intros E. rewrite E in H. cbn [orb] in H.
    destruct (h_al h) as [a|]; [|discriminate]. apply N.eqb_eq in H. congruence.
  - destruct (slot (boxes w) i) as [t|]; [|discriminate]. destruct (hand w j) as [h|]; [|discriminate]. exists t, h. split; [reflexivity|]. split; [reflexivity|]. intros E. rewrite E in H. cbn [orb] in H.
    destruct (h_al h) as [a|]; [|discriminate]. apply N.eqb_eq in H. congruence.
  - exact Logic.I.
  - destruct (hand w j); [eauto|discriminate].
  - destruct (hand w i) as [hi|]; [|discriminate]. destruct (hand w j) as [hj|]; [|discriminate]. exists hi, hj. split; [reflexivity|]. split; [reflexivity|]. intros E1 E2. rewrite E1, E2 in H. cbn [orb] in H.
    destruct (h_al hi), (h_al hj); try discriminate. apply N.eqb_eq in H. right. congruence.
  - destruct (hand w i) as [hi|]; [|discriminate]. destruct (hand w j) as [hj|]; [|discriminate]. exists hi, hj. split; [reflexivity|]. split; [reflexivity|]. intros _ _. left. reflexivity.
  - destruct (hand w j) as [h|]; [|discriminate]. exists h. split; [reflexivity|]. apply negb_true_iff. exact H.
  - destruct (hand w j); [eauto|discriminate].
Qed.
(** running a list of operations, each with the number of the first event *)
Fixpoint nsteps (ops : list (nat * nop N N)) (w : nworld N N) : option (list (nop N N * nresult N N) * nworld N N) :=
  match ops with
  | [] => Some ([], w)
  | (n, o) :: r =>
      if npreb o w then
        match nexec c o w n with
        | Undef => None
        | Ret v w' _ => match nsteps r w' with Some (rs, w2) => Some ((o, NDone v) :: rs, w2) | None => None end
        | Exn k w' _ => match nsteps r w' with Some (rs, w2) => Some ((o, NThrew k) :: rs, w2) | None => None end
        end
      else None
  end.
Lemma nsteps_runs ops : forall rs0 w rs w', nruns c rs0 w -> nsteps ops w = Some (rs, w') -> nruns c (rs0 ++ rs) w'.
Proof.
  induction ops as [|[n o] ops IH]; intros rs0 w rs w' R X; cbn [nsteps] in X.
  - injection X as <- <-. rewrite app_nil_r. exact R.
  - destruct (npreb o w) eqn:P; [|discriminate]. apply npreb_ok in P. destruct (nexec c o w n) as [v w1 n1|k w1 n1|] eqn:E; [| |discriminate];
      (destruct (nsteps ops w1) as [[rs1 w2]|] eqn:S; [|discriminate]); injection X as <- <-;
      [pose proof (nruns_snoc c rs0 w o n (NDone v) w1 R P) as R1|pose proof (nruns_snoc c rs0 w o n (NThrew k) w1 R P) as R1];
      rewrite E in R1; specialize (R1 (conj eq_refl eq_refl)); specialize (IH _ _ _ _ R1 S); rewrite <- app_assoc in IH; exact IH.
Qed.
End Pre.
(** what is checked about a run: the last results, the contents of handles, the destroyed nodes, the sizes *)
Definition adr (e : N * node N) : N * N := (fst e, n_addr (snd e)).
Definition see (r : option (list (nop N N * nresult N N) * nworld N N)) (skip : nat) :=
  option_map (fun p => (map snd (skipn skip (fst p)), map (option_map (fun h => (option_map adr (h_p h), h_al h))) (hands (snd p)), map adr (gone (snd p)), map (option_map (fun t => sz t)) (boxes (snd p)))) r.
Definition nins (i : nat) (al : N) (base : N) (ks : list nat) : list (nat * nop N N) :=
  map (fun k => (O, Box (On i (Insert (N.of_nat k, Node (base + N.of_nat k) al (N.of_nat k)))))) ks.
(** two containers of allocator 7 and one of allocator 8 *)
Definition nops1 : list (nat * nop N N) :=
  [(O, Box (New 0 0 7 0)); (O, Box (New 1 0 7 0)); (O, Box (New 0 0 8 0))] ++ nins 0 7 1000 (seq 0 40) ++ nins 1 7 2000 (seq 30 10) ++ nins 2 8 3000 [1; 2]%nat ++
  [(O, Extract 0 5); (O, Extract 0 77); (O, InsertNode 1 0); (O, Extract 0 30); (O, InsertNode 1 3); (O, InsertNodeHint 1 4);
   (O, HSet 4 31 99); (O, InsertNodeHint 1 4); (O, HMove 4); (O, HSwap 5 4); (O, HSwap 4 4); (O, HSet 4 300 99); (O, InsertNodeHint 0 4); (O, ExtractNth 0 3); (O, ExtractNth 0 3);
   (O, HAssign 6 7); (O, HAssign 6 6); (O, Extract 2 2); (O, HSwap 8 6); (O, HDestroy 6); (O, HDestroy 7)].
(** the hash function throws from event 1000 on *)
Definition late_hash : kind -> nat -> bool := fun k n => match k with KHash => (1000 <=? n)%nat | _ => false end.
Definition nops2 : list (nat * nop N N) :=
  [(O, Box (New 0 0 7 0)); (O, Box (New 0 0 7 0))] ++ nins 0 7 1000 (seq 0 29) ++ nins 1 7 2000 [50]%nat ++ [(O, Extract 1 50); (999%nat, InsertNode 0 0)].
