(** Serialization: proofs. *)
From Coq Require Import NArith ZArith Bool List Arith Lia ZifyBool ZifyNat ZifyN Permutation.
From Verif Require Import FloatModel SizeModel SizeProofs GroupModel GroupSpec FoaModel FoaGroup FoaBase FoaFind FoaArr FoaInv FoaRehash FoaOps FoaCopy FoaAssign FoaMerge FoaIterModel FoaIter FoaSpec FoaWorld FoaApi FoaRun FoaProps FoaProps2 FoaProps3
  SerialSpec SerialFacts SerialModel.
Import ListNotations.
Local Open Scope N_scope.

Section Serial.
Context {K V : Type} (c : Cfg K V).
Hypothesis HC : good_cfg c.
Notation table := (table K V).
Notation outcome := FoaBase.outcome.
Definition eqv (p : N) (x y : K * V) : bool := keqf c p (fst x) (fst y).

Lemma uniq_distinct p l : Uniq c p l <-> distinct (eqv p) l.
Proof. unfold Uniq, distinct, eqv. tauto. Qed.
Definition at_loc (t : table) (l : nat * nat) (e : K * V) : Prop := stored t (slot_index (fst l) (snd l)) e.

(** one insertion below the maximum load *)
Lemma insert_step (t : table) e n : Inv c t -> sz t < ml t ->
  outcome (m_insert c e t n)
    (fun r t' => Inv c t' /\ Ids t t' /\ ml t' = ml t /\ capacity (arr t') = capacity (arr t) /\
      if (snd r : bool) then sz t' = sz t + 1 /\ Permutation (elems (arr t')) (e :: elems (arr t)) /\ at_loc t' (fst r) e /\ (forall i x, stored t i x -> stored t' i x)
      else t' = t /\ existsb (eqv (pid t) e) (elems (arr t)) = true)
    (fun kd t' => Inv c t' /\ Ids t t' /\ (kd = KAlloc \/ raised c kd) /\ elems (arr t') = elems (arr t)).
Proof.
  intros H Lt. eapply outcome_weaken; [apply (emplace_impl_ok c KConstruct t e n HC H)| |].
  - intros [l b] t' [I Id L15 F T B _]. cbn [fst snd] in *. split; [exact I|]. split; [exact Id|]. destruct b.
    + destruct (T eq_refl) as (A & P & Es & Hc). specialize (B eq_refl Lt). split; [apply (in_ml _ _ _ _ B)|]. split; [eapply inserted_cap; eassumption|]. split; [exact Es|]. split; [exact P|]. split; [exact Hc|].
      intros i x Hi. unfold stored in *. rewrite (in_cells _ _ _ _ B), set_nth_err.
      * destruct (Nat.eqb_spec i (slot_index (fst l) (snd l))) as [->|]; [|exact Hi]. rewrite (in_free _ _ _ _ B) in Hi. discriminate.
      * apply nth_error_Some. rewrite (in_free _ _ _ _ B). discriminate.
    + destruct (F eq_refl) as (-> & e' & Hc & Hk). split; [reflexivity|]. split; [reflexivity|]. split; [reflexivity|]. apply existsb_exists. exists e'. split; [|exact Hk].
      apply (live_elems c t e' H). exists (slot_index (fst l) (snd l)). exact Hc.
  - intros kd t' (I & Id & [[S Hk]|(_ & _ & E & _)]); [|lia]. split; [exact I|]. split; [exact Id|].
    split; [destruct Hk as [[_ R]|[-> _]]; auto|]. destruct S as [_ S]. apply ext_elems. exact S.
Qed.

(** how far the loop went *)
Definition went (done : list (K * V)) (s : nat) (l : list (K * V)) (p : N) (r : load_result) (k : nat) : Prop :=
  match r with
  | Loaded => k = s /\ (s <= length l)%nat
  | ReadFailed => k = length l /\ (length l < s)%nat
  | BadArchive => (k < s)%nat /\ exists e, nth_error l k = Some e /\ existsb (eqv p e) (done ++ firstn k l) = true
  end.
Lemma load_items_ok : forall s l tracked (t : table) n done, Inv c t -> Permutation (elems (arr t)) done -> sz t + N.of_nat s <= ml t -> Forall2 (at_loc t) tracked done ->
  outcome (load_items c s l tracked t n)
    (fun r t' => Inv c t' /\ Ids t t' /\ ml t' = ml t /\ capacity (arr t') = capacity (arr t) /\ exists k, went done s l (pid t) (fst r) k /\
       Permutation (elems (arr t')) (done ++ firstn k l) /\ Forall2 (at_loc t') (snd r) (done ++ firstn k l))
    (fun kd t' => Inv c t' /\ Ids t t' /\ (kd = KAlloc \/ raised c kd) /\ exists k, (k <= s)%nat /\ (k <= length l)%nat /\ Permutation (elems (arr t')) (done ++ firstn k l)).
Proof.
  induction s as [|s IH]; intros l tracked t n done H P L F; cbn [load_items].
  - cbn [ret outcome fst snd went]. split; [exact H|]. split; [apply Ids_refl|]. split; [reflexivity|]. split; [reflexivity|]. exists O. cbn [firstn]. rewrite app_nil_r. repeat split; auto; lia.
  - destruct l as [|e r].
    { cbn [ret outcome fst snd went]. split; [exact H|]. split; [apply Ids_refl|]. split; [reflexivity|]. split; [reflexivity|]. exists O. cbn [firstn length]. rewrite app_nil_r. repeat split; auto; lia. }
    eapply outcome_bind; [eapply outcome_weaken; [apply (insert_step t e n H); lia| |]|].
    + intros x t' X. exact X.
    + intros kd t' (I & Id & R & E). split; [exact I|]. split; [exact Id|]. split; [exact R|]. exists O. cbn [firstn]. rewrite app_nil_r, E. repeat split; auto; lia.
    + intros [lc b] t1 n1 (I & Id & Em & Ec & X). cbn [fst snd] in *. destruct b.
      * destruct X as (Es & P1 & Hl & St). specialize (IH r (tracked ++ [lc]) t1 n1 (done ++ [e]) I).
        assert (Permutation (elems (arr t1)) (done ++ [e])) as P2 by (rewrite P1, P; apply Permutation_cons_append).
        assert (Forall2 (at_loc t1) (tracked ++ [lc]) (done ++ [e])) as F2.
        { apply Forall2_app; [|repeat constructor; exact Hl]. clear - F St. induction F as [|x y xs ys A F IHF]; constructor; [apply St; exact A|exact IHF]. }
        eapply outcome_weaken; [apply (IH P2 ltac:(lia) F2)| |].
        -- intros [r0 tr] t2 (I2 & Id2 & Em2 & Ec2 & k & W & P3 & F3). cbn [fst snd] in *. split; [exact I2|]. split; [eapply ids_trans; eassumption|]. split; [congruence|]. split; [congruence|].
           exists (S k). cbn [firstn]. change (e :: firstn k r) with ([e] ++ firstn k r). rewrite app_assoc. split; [|split; assumption]. rewrite (id_p _ _ Id) in W. clear - W. destruct r0; cbn [went length nth_error] in *.
           ++ lia.
           ++ destruct W as (A & x & B & D). split; [lia|]. exists x. split; [exact B|]. rewrite <- app_assoc in D. exact D.
           ++ lia.
        -- intros kd t2 (I2 & Id2 & R & k & K1 & K2 & P3). split; [exact I2|]. split; [eapply ids_trans; eassumption|]. split; [exact R|]. exists (S k). cbn [firstn length].
           change (e :: firstn k r) with ([e] ++ firstn k r). rewrite app_assoc. repeat split; auto; lia.
      * destruct X as [-> Ex]. cbn [ret outcome fst snd]. split; [exact I|]. split; [exact Id|]. split; [reflexivity|]. split; [reflexivity|]. exists O. cbn [firstn]. rewrite app_nil_r. split; [|split; assumption].
        cbn [went firstn nth_error]. split; [lia|]. exists e. split; [reflexivity|]. rewrite app_nil_r. apply existsb_exists in Ex as (x & Hx & E). apply existsb_exists. exists x. split; [|exact E]. eapply Permutation_in; eassumption.
Qed.

(** loading: the previous contents do not matter *)
Lemma clear_reserve (t : table) s : Inv c t -> size_ok c (ceil_div_mlf s) -> forall n,
  outcome (bind clear (fun _ => reserve c s) t n)
    (fun _ t' => Inv c t' /\ Ids t t' /\ elems (arr t') = [] /\ sz t' = 0 /\ s <= ml t')
    (fun kd t' => Inv c t' /\ Ids t t' /\ (kd = KAlloc \/ raised c kd) /\ elems (arr t') = []).
Proof.
  intros H Hs n. eapply outcome_bind; [eapply outcome_weaken; [apply (clear_ok c t n (inv_w c t H))| |]|].
  - intros u t' X. exact X.
  - intros kd t' [].
  - intros u t1 n1 (I & Id & E & Em & Es & Ec). eapply outcome_weaken; [apply (reserve_ok c HC t1 s n1 I Hs)| |].
    + intros _ t2 (I2 & Id2 & P & Es2 & Ec2 & _ & L). split; [exact I2|]. split; [eapply ids_trans; eassumption|]. rewrite E in P. split; [apply Permutation_nil; symmetry; exact P|]. split; [congruence|]. apply (L Em).
    + intros kd t2 [(-> & -> & A)|(Hk & R & F)].
      * auto.
      * destruct (failed_inv c t1 t2 I F) as (I2 & Id2 & _ & lost & P & _). split; [exact I2|]. split; [eapply ids_trans; eassumption|]. split; [auto|]. rewrite E in P. apply Permutation_nil in P.
        apply app_eq_nil in P. apply P.
Qed.
Lemma load_ok (t : table) a n : Inv c t -> size_ok c (ceil_div_mlf (count a)) ->
  outcome (m_load c a t n)
    (fun r t' => Inv c t' /\ Ids t t' /\ loaded (eqv (pid t)) a (fst r) (elems (arr t')) /\
       (fst r = Loaded -> Forall2 (at_loc t') (snd r) (firstn (N.to_nat (count a)) (items a))))
    (fun kd t' => Inv c t' /\ Ids t t' /\ (kd = KAlloc \/ raised c kd) /\ interrupted (eqv (pid t)) a (elems (arr t'))).
Proof.
  intros H Hs.
  assert (forall (t' : table), Inv c t' -> Ids t t' -> forall l, Permutation (elems (arr t')) l -> distinct (eqv (pid t)) l) as D.
  { intros t' I Id l P. apply uniq_distinct. rewrite <- (id_p _ _ Id). eapply uniq_perm; [apply (i_compat _ _ I)|exact P|apply (i_uniq _ _ I)]. }
  unfold m_load. rewrite <- bind_bind.
  eapply outcome_bind; [eapply outcome_weaken; [apply (clear_reserve t (count a) H Hs n)| |]|].
  - intros u t' X. exact X.
  - intros kd t' (I & Id & R & E). split; [exact I|]. split; [exact Id|]. split; [exact R|]. exists [], (items a). rewrite E. repeat split; [cbn; lia|constructor|reflexivity].
  - intros u t1 n1 (I & Id & E & Es & L).
    eapply outcome_weaken; [apply (load_items_ok (N.to_nat (count a)) (items a) [] t1 n1 [] I)| |].
    + rewrite E. reflexivity.
    + lia.
    + constructor.
    + intros [r tr] t2 (I2 & Id2 & _ & _ & k & W & P & F). cbn [fst snd app] in *. pose proof (ids_trans _ _ _ Id Id2) as Id3. pose proof (D t2 I2 Id3 _ P) as Dl. rewrite (id_p _ _ Id) in W.
      split; [exact I2|]. split; [exact Id3|]. destruct r; cbn [went loaded app] in *.
      * destruct W as [-> W]. split; [auto|]. auto.
      * destruct W as (W1 & e & W2 & W3). split; [|discriminate]. apply nth_error_split in W2 as (l1 & l2 & E2 & Lk). exists l1, e, l2. rewrite E2 in *. rewrite <- Lk, firstn_app, Nat.sub_diag, firstn_all in *. cbn [firstn] in *. rewrite app_nil_r in *.
        repeat split; auto.
      * destruct W as [-> W]. rewrite firstn_all in *. split; [auto|discriminate].
    + intros kd t2 (I2 & Id2 & R & k & K1 & K2 & P). cbn [app] in P. pose proof (ids_trans _ _ _ Id Id2) as Id3. split; [exact I2|]. split; [exact Id3|]. split; [exact R|].
      exists (firstn k (items a)), (skipn k (items a)). split; [symmetry; apply firstn_skipn|]. split; [rewrite firstn_length; lia|]. split; [eapply D; eassumption|exact P].
Qed.
(** saving *)
Lemma save_ok {St} (t : table) (s : St) n : Inv c t -> m_save c t s n = Ret (Archive (sz t) (elems (arr t))) s n.
Proof. intros H. unfold m_save, bind. rewrite (iterate_ok c t s n H). reflexivity. Qed.

(** the concurrent versions *)
Lemma insert_below (t : table) e n : sz t < ml t -> m_insert c e t n =
  match hash_for c (hid t) (fst e) t n with
  | Ret hash t0 n0 =>
      match find_at c t (fst e) (position hash (a_gsi (arr t))) hash t0 n0 with
      | Ret (Some l) t1 n1 => Ret (l, false) t1 n1
      | Ret None t1 n1 =>
          match unchecked_emplace_at c KConstruct (position hash (a_gsi (arr t))) hash e t1 n1 with
          | Ret l t2 n2 => Ret (l, true) t2 n2 | Exn k t2 n2 => Exn k t2 n2 | Undef => Undef end
      | Exn k t1 n1 => Exn k t1 n1 | Undef => Undef end
  | Exn k t0 n0 => Exn k t0 n0 | Undef => Undef end.
Proof.
  intros L. apply N.ltb_lt in L. unfold m_insert, emplace_impl, bind, get. destruct (hash_for c (hid t) (fst e) t n) as [h t0 n0|k t0 n0|]; try reflexivity. cbv zeta.
  destruct (find_at c t (fst e) (position h (a_gsi (arr t))) h t0 n0) as [[l|] t1 n1|k t1 n1|]; try reflexivity. rewrite L. reflexivity.
Qed.
Lemma c_items_eq : forall s l tracked (t : table) n, Inv c t -> sz t + N.of_nat s <= ml t ->
  c_load_items c s l t n = match load_items c s l tracked t n with Ret r t' n' => Ret (fst r) t' n' | Exn k t' n' => Exn k t' n' | Undef => Undef end.
Proof.
  induction s as [|s IH]; intros l tracked t n H L; cbn [load_items c_load_items]; [reflexivity|]. destruct l as [|e r]; [reflexivity|].
  assert (sz t < ml t) as Lt by lia. pose proof (insert_step t e n H Lt) as X. unfold bind, get. rewrite (insert_below t e n Lt) in X |- *.
  destruct (hash_for c (hid t) (fst e) t n) as [h t0 n0|k t0 n0|]; try reflexivity. cbv zeta.
  destruct (find_at c t (fst e) (position h (a_gsi (arr t))) h t0 n0) as [[q|] t1 n1|k t1 n1|]; try reflexivity.
  destruct (unchecked_emplace_at c KConstruct (position h (a_gsi (arr t))) h e t1 n1) as [q t2 n2|k0 t2 n2|]; try reflexivity.
  cbn [outcome fst snd] in X |- *. destruct X as (I & _ & Em & _ & Es & _). apply IH; [exact I|lia].
Qed.
Lemma c_load_eq (t : table) a n : Inv c t -> size_ok c (ceil_div_mlf (count a)) ->
  c_load c a t n = match m_load c a t n with Ret r t' n' => Ret (fst r) t' n' | Exn k t' n' => Exn k t' n' | Undef => Undef end.
Proof.
  intros H Hs. unfold c_load, m_load. rewrite <- !bind_bind. pose proof (clear_reserve t (count a) H Hs n) as X. unfold bind at 1. unfold bind at 2.
  destruct (bind clear (fun _ => reserve c (count a)) t n) as [u t1 n1|k t1 n1|]; cbn [outcome] in X; [|reflexivity|reflexivity]. destruct X as (I & _ & _ & Es & L). apply c_items_eq; [exact I|lia].
Qed.
Lemma c_load_ok (t : table) a n : Inv c t -> size_ok c (ceil_div_mlf (count a)) ->
  outcome (c_load c a t n)
    (fun r t' => Inv c t' /\ Ids t t' /\ loaded (eqv (pid t)) a r (elems (arr t')))
    (fun kd t' => Inv c t' /\ Ids t t' /\ (kd = KAlloc \/ raised c kd) /\ interrupted (eqv (pid t)) a (elems (arr t'))).
Proof.
  intros H Hs. rewrite (c_load_eq t a n H Hs). pose proof (load_ok t a n H Hs) as X. destruct (m_load c a t n) as [r t' n'|k t' n'|]; cbn [outcome] in *; [|exact X|exact X]. destruct X as (A & B & D & _). auto.
Qed.
Lemma c_save_ok (t : table) n : Inv c t -> exists n', c_save t tt n = Ret (Archive (sz t) (elems (arr t))) tt n'.
Proof.
  intros H. unfold c_save. pose proof (traverse_ok c t n H) as X. cbv beta in *. match goal with |- context [for_all ?a ?f ?s n] => destruct (for_all a f s n) as [u l n'|k l n'|] end; [|destruct X|destruct X]. subst. eauto.
Qed.

(** an operation on a reachable container gives a reachable container *)
Lemma reach_op (t : table) o n v t' n' : reachable c t -> pre1 c o t -> exec1 c o t n = Ret v t' n' \/ (exists k, exec1 c o t n = Exn k t' n') -> reachable c t'.
Proof.
  intros (rs & w & i & R & S) P E. destruct (slot_err w i t S) as [_ Li].
  assert (exists r, returned (exec c (On i o) w n) r (set w i (Some t'))) as [r Hr].
  { cbn [exec]. unfold run1. rewrite S. destruct E as [-> | [k ->]]; [exists (Done v)|exists (Threw k)]; split; reflexivity. }
  exists (rs ++ [(On i o, r)]), (set w i (Some t')), i. split; [eapply runs_snoc; [exact R| |exact Hr]|rewrite slot_set by exact Li; rewrite Nat.eqb_refl; reflexivity].
  exists t. auto.
Qed.
(** a set of containers closed under clear, reserve and insert is closed under load *)
Section Closed.
Variable P : table -> Prop.
Hypothesis HI : forall t, P t -> Inv c t.
Hypothesis HP : forall (t : table) o n v t' n', P t -> pre1 c o t -> (forall l, o <> AssignList l) -> exec1 c o t n = Ret v t' n' \/ (exists k, exec1 c o t n = Exn k t' n') -> P t'.
Lemma closed_insert (t : table) e n : P t -> match m_insert c e t n with Ret _ t' _ | Exn _ t' _ => P t' | Undef => True end.
Proof.
  intros R. pose proof (HI t R) as H. pose proof (insert_ok c HC t e n H) as X. destruct (m_insert c e t n) as [r t' n'|k t' n'|] eqn:E; cbn [outcome] in X; [| |exact I].
  - destruct X as (I' & _ & x & Hx & _). eapply (HP t (Insert e) n); [exact R|exact Logic.I|discriminate|left]. cbn [exec1]. unfold bind. rewrite E. cbn [get]. rewrite (read_cell c t' (fst r) x t' n' I' Hx). reflexivity.
  - eapply (HP t (Insert e) n (VUnit) t' n'); [exact R|exact Logic.I|discriminate|right]. exists k. cbn [exec1]. unfold bind. rewrite E. reflexivity.
Qed.
Lemma closed_load (t : table) a n : P t -> size_ok c (ceil_div_mlf (count a)) -> match m_load c a t n with Ret _ t' _ | Exn _ t' _ => P t' | Undef => True end.
Proof.
  intros R Hs. unfold m_load, bind. destruct (clear t n) as [u t1 n1|k t1 n1|] eqn:E1; [| |exact I].
  2:{ pose proof (clear_ok c t n (inv_w c t (HI t R))) as X. rewrite E1 in X. destruct X. }
  assert (P t1) as R1 by (eapply (HP t Clear n); [exact R|exact I|discriminate|left; cbn [exec1]; unfold bind; rewrite E1; reflexivity]).
  destruct (reserve c (count a) t1 n1) as [u2 t2 n2|k t2 n2|] eqn:E2; [| |exact I].
  2:{ eapply (HP t1 (Reserve (count a)) n1 VUnit); [exact R1|exact Hs|discriminate|right; exists k; cbn [exec1]; unfold bind; rewrite E2; reflexivity]. }
  assert (P t2) as R2 by (eapply (HP t1 (Reserve (count a)) n1); [exact R1|exact Hs|discriminate|left; cbn [exec1]; unfold bind; rewrite E2; reflexivity]).
  clear - R2 HC HI HP. generalize (@nil (nat * nat)) (items a). revert t2 R2 n2. induction (N.to_nat (count a)) as [|s IH]; intros t R n tr l; cbn [load_items]; [exact R|]. destruct l as [|e l]; [exact R|]. unfold bind.
  pose proof (closed_insert t e n R) as X. destruct (m_insert c e t n) as [[lc b] t' n'|k t' n'|]; [|exact X|exact I]. cbn [snd]. destruct b; [apply IH, X|exact X].
Qed.
End Closed.
Lemma reach_load (t : table) a n : reachable c t -> size_ok c (ceil_div_mlf (count a)) -> match m_load c a t n with Ret _ t' _ | Exn _ t' _ => reachable c t' | Undef => True end.
Proof. apply (closed_load (reachable c)); [apply (rinv c HC)|]. intros t0 o n0 v t' n' R P0 _ E. eapply reach_op; eauto. Qed.
End Serial.
