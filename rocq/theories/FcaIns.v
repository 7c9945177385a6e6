(** The insertion functions of the closed-addressing containers. *)
From Coq Require Import NArith ZArith Bool List Arith Lia Permutation.
From Verif Require Import FloatModel HashArithModel HashArithProofs FoaModel FoaGroup FoaBase FcaLinks FcaLinksProofs FcaModel FcaInv FcaIter FcaTab FcaRehash FcaOps.
Import ListNotations.
Local Open Scope m_scope.
Local Open Scope nat_scope.

Section Ins.
Context {K V : Type} (c : FCfg K V).
Notation node := (node K V).
Notation barray := (barray K V).
Notation table := (FcaModel.table K V).
Notation cb := (base c).
Notation St := (table * heap)%type.
Notation CInv := (CInv c). Notation TInv := (TInv c). Notation raised := (raised c). Notation keq := (keq c). Notation lookup := (lookup c).
Notation SI := (SI c). Notation OpExn := (OpExn c). Notation InsPost := (InsPost c). Notation InsPostG := (InsPostG c). Notation HintOk := (HintOk c).
Implicit Types (b nb : barray) (t : table) (x y : node) (s : St) (e : K * V).

Definition minus (s : St) : St := (fst s, Hp (Nat.pred (live (snd s))) (next (snd s))).
Definition plus (s : St) : St := (fst s, Hp (S (live (snd s))) (S (next (snd s)))).
Lemma delete_hand x s n : nd_al x = f_al (fst s) -> 0 < live (snd s) -> delete_node x s n = Ret tt (minus s) n.
Proof. intros A B. destruct s as [t h]. apply (delete_node_ok x t h n A B). Qed.
(** [s'] is s with a higher address counter *)
Lemma OpExn_next r s s1 l kd s' : Kept s s1 -> OpExn r s1 l kd s' -> OpExn r s l kd s'.
Proof.
  intros Kp (R & l' & lost & I & P & F & X). split; [exact R|]. exists l', lost. split; [exact I|]. split; [exact P|]. split; [apply (Fr_trans s s1); [apply Kept_Fr; exact Kp|exact F]|].
  destruct Kp as (A & B & C). rewrite A in X. intros Y. destruct (X Y) as ((A' & B' & C') & D). split; [|exact D]. split; [congruence|]. split; [congruence|lia].
Qed.
Lemma with_node_ok {A} r l x (m : M St A) (s : St) n Q : 0 < live (snd s) -> nd_al x = f_al (fst s) -> outcome (m s n) Q (OpExn (S r) s l) -> outcome (on_exn m (delete_node x) s n) Q (OpExn r (minus s) l).
Proof.
  intros Lv Al H. unfold on_exn. destruct (m s n) as [a s' n'|kd s' n'|]; cbn [outcome] in *; [exact H| |exact H].
  destruct H as (R & l' & lost & I & P & F & X). destruct s' as [t' h']. destruct F as ((S1 & S2 & S3 & S4) & M & Nx). cbn [fst snd] in *.
  assert (0 < live h') as Lv' by (pose proof (si_live _ _ _ _ I) as E; cbn in E; lia).
  rewrite delete_node_ok by (try exact Lv'; congruence). split; [exact R|]. exists l', lost. split; [|split; [exact P|split; [|]]].
  - destruct I as [I1 I2 I3]. constructor; cbn [fst snd live next] in *; [exact I1|lia|exact I3].
  - split; [repeat split; assumption|]. split; [exact M|exact Nx].
  - cbn [minus fst]. intros Y. destruct (X Y) as ((A' & B' & C') & D). split; [|exact D]. split; [exact A'|]. cbn [fst snd minus live next] in *. split; [rewrite B'; reflexivity|exact C'].
Qed.
Lemma plus_SI r s l : SI r s l -> SI (S r) (plus s) l.
Proof. intros [I1 I2 I3]. constructor; cbn [plus fst snd live next]; [exact I1|lia|]. eapply Forall_impl; [|exact I3]. cbn beta. intros a L. lia. Qed.
Lemma fresh_hand r s l e : SI r s l -> InHand (plus s) l (Nd (next (snd s)) (f_al (fst s)) e).
Proof.
  intros I. split; [reflexivity|]. split; [|cbn; lia]. cbn [nd_id]. intros X. apply in_map_iff in X as (y & E & Iy). pose proof (si_next _ _ _ _ I) as F. rewrite Forall_forall in F. specialize (F y Iy). lia.
Qed.
Lemma minus_plus s : minus (plus s) = (fst s, Hp (live (snd s)) (S (next (snd s)))). Proof. reflexivity. Qed.
Lemma kept_minus_plus s : Kept s (minus (plus s)). Proof. split; [reflexivity|]. split; [reflexivity|cbn; lia]. Qed.
Lemma fresh_ok {A} r s l kd e (f : node -> M St A) n Q : SI r s l ->
  (forall n', outcome (f (Nd (next (snd s)) (f_al (fst s)) e) (plus s) n') Q (OpExn r (minus (plus s)) l)) ->
  outcome (bind (new_node c kd e) f s n) Q (OpExn r s l).
Proof.
  intros I H. destruct s as [t h]. eapply outcome_bind; [eapply outcome_weaken; [apply (new_node_ok c kd e t h n)|intros a s' X; exact X|]|].
  - cbn beta. intros kd' s' (_ & R & [->| ->]); apply OpExn_kept; auto; [apply Kept_refl|]. apply (kept_minus_plus (t, h)).
  - cbn beta. intros x s' n' [-> ->]. eapply outcome_weaken; [apply H|auto|]. intros kd' s'. apply OpExn_next. apply (kept_minus_plus (t, h)).
Qed.

(** *** unique keys *)
Definition EUPost (r : nat) (s : St) (l : list node) (e : K * V) (p : eit * bool) (s' : St) : Prop :=
  match lookup (f_pid (fst s)) (fst e) l with
  | Some y => snd p = false /\ Kept s s' /\ NIt (f_b (fst s)) y (fst p)
  | None => snd p = true /\ exists x, nd_kv x = e /\ next (snd s) <= nd_id x /\ InsPostG r s l None x (fst p) s'
  end.
Lemma InsPost_fr r s s1 l hint x it s' : fst s1 = fst s -> next (snd s) <= next (snd s1) -> InsPost r s1 l hint x it s' -> InsPost r s l hint x it s'.
Proof.
  intros A B (l0 & l' & P & IA & I & F & N & X). exists l0, l'. split; [exact P|]. split; [exact IA|]. split; [exact I|]. split; [|split; [exact N|rewrite <- A; exact X]].
  destruct F as (F1 & F2 & F3). rewrite A in F1, F2. split; [exact F1|]. split; [exact F2|lia].
Qed.
Lemma InsPostG_fr r s s1 l hint x it s' : fst s1 = fst s -> next (snd s) <= next (snd s1) -> InsPostG r s1 l hint x it s' -> InsPostG r s l hint x it s'.
Proof. intros A B [P G]. split; [apply (InsPost_fr r s s1); assumption|]. unfold Grew in *. rewrite <- A. exact G. Qed.
Lemma grow_insert_ok r s l x itb n : SI (S r) s l -> InHand s l x -> at_hash (f_b (fst s)) (hash_of cb (f_hid (fst s)) (nkey x)) = Some itb -> lookup (f_pid (fst s)) (nkey x) l = None -> (N.of_nat (length l) + 1 < max_elems)%N ->
  outcome (grow_insert c x (hash_of cb (f_hid (fst s)) (nkey x)) itb s n) (InsPostG r s l None x) (OpExn (S r) s l).
Proof. intros I H A L Rm. destruct s as [t h]. apply (put_ok c r t h l x itb None n I H A L Rm). Qed.
Lemma emplace_unique_key_ok r s l kd e n : SI r s l -> (N.of_nat (length l) + 1 < max_elems)%N ->
  outcome (emplace_unique_key c kd e s n) (EUPost r s l e) (OpExn r s l).
Proof.
  intros I Rm. destruct s as [t h]. pose proof (ti_c _ _ _ (si_t _ _ _ _ I)) as H. cbn [fst] in H. unfold emplace_unique_key, get_t. rewrite bind_bind, bind_get, bind_ret. cbn [fst].
  apply outcome_hash; [intros R; apply OpExn_kept; [exact R|apply Kept_refl|exact I]|]. intros n1. destruct (at_hash_ok c t l (fst e) H) as (itb & A). rewrite A. cbn [of_option]. rewrite bind_ret.
  eapply outcome_bind; [eapply outcome_weaken; [apply (find_node_impl_ok c t l (fst e) itb (t, h) n1 H A)|intros a s' X; exact X|intros kd' s' X; apply RO_OpExn; assumption]|].
  cbn beta. intros ri s' n2 [-> ->]. unfold EUPost. cbn [fst]. destruct (lookup (f_pid t) (fst e) l) as [y|] eqn:L; cbn [option_map].
  - cbn [outcome ret fst snd]. split; [reflexivity|]. split; [apply Kept_refl|]. destruct (lookup_it c t l (fst e) y H L) as (itb' & A' & Ni). rewrite A in A'. injection A' as <-. exact Ni.
  - apply (fresh_ok r (t, h) l kd e); [exact I|]. intros n3. cbn [fst snd]. set (x := Nd (next h) (f_al t) e). eapply outcome_bind.
    + apply (with_node_ok r l x); [cbn; lia|reflexivity|]. apply (grow_insert_ok r (plus (t, h)) l x itb); [apply plus_SI; exact I|apply (fresh_hand r (t, h) l e I)|exact A|exact L|exact Rm].
    + intros it s' n4 P. cbn [outcome ret fst snd]. split; [reflexivity|]. exists x. split; [reflexivity|]. split; [cbn; lia|]. apply (InsPostG_fr r (t, h) (plus (t, h))); [reflexivity|cbn; lia|exact P].
Qed.
Lemma emplace_unique_nokey_ok r s l kd e n : SI r s l -> (N.of_nat (length l) + 1 < max_elems)%N ->
  outcome (emplace_unique_nokey c kd e s n) (EUPost r s l e) (OpExn r s l).
Proof.
  intros I Rm. destruct s as [t h]. pose proof (ti_c _ _ _ (si_t _ _ _ _ I)) as H. cbn [fst] in H. unfold emplace_unique_nokey. apply (fresh_ok r (t, h) l kd e); [exact I|]. intros n1. cbn [fst snd]. set (x := Nd (next h) (f_al t) e).
  pose proof (plus_SI r (t, h) l I) as I'. apply (with_node_ok r l x); [cbn; lia|reflexivity|]. unfold get_t. rewrite bind_bind, bind_get, bind_ret. cbn [plus fst snd] in *.
  apply outcome_hash; [intros R; apply OpExn_kept; [exact R|apply Kept_refl|exact I']|]. intros n2. destruct (at_hash_ok c t l (fst e) H) as (itb & A). rewrite A. cbn [of_option]. rewrite bind_ret.
  eapply outcome_bind; [eapply outcome_weaken; [apply (find_node_impl_ok c t l (fst e) itb _ n2 H A)|intros a s' X; exact X|intros kd' s' X; apply RO_OpExn; assumption]|].
  cbn beta. intros ri s' n3 [-> ->]. unfold EUPost. cbn [fst]. destruct (lookup (f_pid t) (fst e) l) as [y|] eqn:L; cbn [option_map].
  - unfold bind. rewrite delete_hand by (try reflexivity; cbn; lia). cbn [outcome ret fst snd live next Nat.pred minus plus]. split; [reflexivity|]. split; [split; [reflexivity|split; [reflexivity|cbn; lia]]|].
    destruct (lookup_it c t l (fst e) y H L) as (itb' & A' & Ni). rewrite A in A'. injection A' as <-. exact Ni.
  - eapply outcome_bind; [apply (grow_insert_ok r (plus (t, h)) l x itb); [apply plus_SI; exact I|apply (fresh_hand r (t, h) l e I)|exact A|exact L|exact Rm]|].
    intros it s' n4 P. cbn [outcome ret fst snd]. split; [reflexivity|]. exists x. split; [reflexivity|]. split; [cbn; lia|]. apply (InsPostG_fr r (t, h) (plus (t, h))); [reflexivity|cbn; lia|exact P].
Qed.
Lemma emplace_unique_ok r s l kf kd e n : SI r s l -> (N.of_nat (length l) + 1 < max_elems)%N ->
  outcome (emplace_unique c kf kd e s n) (EUPost r s l e) (OpExn r s l).
Proof. intros I Rm. unfold emplace_unique. destruct kf; [apply emplace_unique_key_ok|apply emplace_unique_nokey_ok]; assumption. Qed.

(** *** hints *)
Definition HIt (t : table) (l : list node) (hint : eit) : Prop := e_p hint = None \/ exists y, In y l /\ NIt (f_b t) y hint.
Lemma hint_matches_ok s t l hint k n : fst s = t -> TInv t l -> HIt t l hint ->
  outcome (hint_matches c hint k s n) (fun r s' => s' = s /\ (r = true -> exists y, In y l /\ NIt (f_b t) y hint /\ keqf cb (f_pid t) k (nkey y) = true) /\ forall y, In y l -> NIt (f_b t) y hint -> r = keqf cb (f_pid t) k (nkey y)) (RO c s).
Proof.
  intros <- H Hh. unfold hint_matches. destruct (e_p hint) as [i|] eqn:Ep; [|cbn; split; [reflexivity|split; [discriminate|]]; intros y _ (p & _ & ->); discriminate].
  destruct Hh as [X|(y & Iy & Ny)]; [congruence|]. unfold get_t. rewrite bind_bind, bind_get, bind_ret.
  assert (Wf (f_b (fst s)) l) as W by (apply BOk_cons; [apply (ci_b _ _ _ (ti_c _ _ _ H))|intros ->; destruct Iy]).
  rewrite (e_node_ok (f_b (fst s)) l y hint W (ci_ids _ _ _ (ti_c _ _ _ H)) Ny). cbn [of_option]. rewrite bind_ret. apply outcome_tick; [intros R; split; [reflexivity|auto]|]. intros n'. cbn [outcome ret]. split; [reflexivity|]. split; [intros E; eauto|]. intros y' Iy' Ny'.
  pose proof (e_node_ok (f_b (fst s)) l y hint W (ci_ids _ _ _ (ti_c _ _ _ H)) Ny) as E1. rewrite (e_node_ok (f_b (fst s)) l y' hint W (ci_ids _ _ _ (ti_c _ _ _ H)) Ny') in E1. injection E1 as ->. reflexivity.
Qed.
Lemma uniq_one t l x y k : TInv t l -> multi c = false -> In x l -> In y l -> keqf cb (f_pid t) k (nkey x) = true -> keqf cb (f_pid t) k (nkey y) = true -> x = y.
Proof.
  intros [H _ _] M Ix Iy Ex Ey. destruct (CInv_in c t l x H Ix) as (p & Jx). destruct (CInv_in c t l y H Iy) as (q & Jy).
  assert (q = p) as ->. { pose proof (ci_placed _ _ _ H p x Jx) as P1. pose proof (ci_placed _ _ _ H q y Jy) as P2. rewrite (same_pos c t l k x H Ex) in P1. rewrite (same_pos c t l k y H Ey), P1 in P2. injection P2 as P2. lia. }
  pose proof (ci_keys _ _ _ H p) as U. unfold KeysOk in U. rewrite M in U.
  assert (keq (f_pid t) x y = true) as E. { apply (keq_trans c t l H x (Nd 0 0 (k, snd (nd_kv x))) y); unfold FcaTab.keq; cbn [nkey nd_kv fst]; [|exact Ey]. destruct (ci_agree _ _ _ H) as [(_ & Sy & _) _]. rewrite Sy. exact Ex. }
  apply in_split in Jx as (l1 & l2 & El). rewrite El in U, Jy. apply in_elt_inv in Jy as [Jy|Jy]; [congruence|]. exfalso. apply uniq_app in U as (_ & U & D). apply in_app_or in Jy as [Jy|Jy].
  - rewrite (keq_sym c t l H), (D y x Jy (or_introl eq_refl)) in E. discriminate.
  - inversion U as [|? ? F _]. subst. rewrite Forall_forall in F. rewrite (F y Jy) in E. discriminate.
Qed.
Lemma lookup_of t l y k : TInv t l -> multi c = false -> In y l -> keqf cb (f_pid t) k (nkey y) = true -> lookup (f_pid t) k l = Some y.
Proof.
  intros H M I E. destruct (lookup (f_pid t) k l) as [z|] eqn:L.
  - f_equal. apply lookup_some in L as [Iz Ez]. apply (uniq_one t l z y k H M); assumption.
  - rewrite (proj1 (lookup_none c _ _ _) L y I) in E. discriminate.
Qed.
Lemma emplace_hint_unique_ok r s l kf hint e n : SI r s l -> multi c = false -> HIt (fst s) l hint -> (N.of_nat (length l) + 1 < max_elems)%N ->
  outcome (emplace_hint_unique c kf hint e s n) (fun it s' => exists b : bool, EUPost r s l e (it, b) s') (OpExn r s l).
Proof.
  intros I M Hh Rm. destruct s as [t h]. pose proof (si_t _ _ _ _ I) as T. pose proof (ti_c _ _ _ T) as H. cbn [fst] in *. unfold emplace_hint_unique. destruct kf.
  - eapply outcome_bind; [eapply outcome_weaken; [apply (hint_matches_ok (t, h) t l hint (fst e) n eq_refl T Hh)|intros a s' X; exact X|intros kd' s' X; apply RO_OpExn; assumption]|].
    cbn beta. intros b s' n1 (-> & Hb & _). destruct b.
    + cbn [outcome ret]. exists false. destruct (Hb eq_refl) as (y & Iy & Ny & Ey). unfold EUPost. cbn [fst]. rewrite (lookup_of t l y (fst e) T M Iy Ey). split; [reflexivity|]. split; [apply Kept_refl|exact Ny].
    + eapply outcome_bind; [apply (emplace_unique_key_ok r (t, h) l KConstruct e n1 I Rm)|]. intros [it b] s' n2 P. cbn [outcome ret fst]. exists b. exact P.
  - apply (fresh_ok r (t, h) l KConstruct e); [exact I|]. intros n1. cbn [fst snd]. set (x := Nd (next h) (f_al t) e).
    pose proof (plus_SI r (t, h) l I) as I'. apply (with_node_ok r l x); [cbn; lia|reflexivity|]. cbn [plus fst snd] in *.
    eapply outcome_bind; [eapply outcome_weaken; [apply (hint_matches_ok (plus (t, h)) t l hint (fst e) n1 eq_refl T Hh)|intros a s' X; exact X|intros kd' s' X; apply RO_OpExn; assumption]|].
    cbn beta. intros b s' n2 (-> & Hb & _). destruct b.
    + unfold bind. rewrite delete_hand by (try reflexivity; cbn; lia). cbn [outcome ret fst snd live next Nat.pred minus plus]. exists false. destruct (Hb eq_refl) as (y & Iy & Ny & Ey). unfold EUPost. cbn [fst]. rewrite (lookup_of t l y (fst e) T M Iy Ey).
      split; [reflexivity|]. split; [split; [reflexivity|split; [reflexivity|cbn; lia]]|exact Ny].
    + unfold get_t. rewrite bind_bind, bind_get, bind_ret. cbn [plus fst]. apply outcome_hash; [intros R; apply OpExn_kept; [exact R|apply Kept_refl|exact I']|]. intros n3. destruct (at_hash_ok c t l (fst e) H) as (itb & A). rewrite A. cbn [of_option]. rewrite bind_ret.
      eapply outcome_bind; [eapply outcome_weaken; [apply (find_node_impl_ok c t l (fst e) itb _ n3 H A)|intros a s' X; exact X|intros kd' s' X; apply RO_OpExn; assumption]|].
      cbn beta. intros ri s' n4 [-> ->]. unfold EUPost. cbn [fst]. destruct (lookup (f_pid t) (fst e) l) as [y|] eqn:L; cbn [option_map].
      * unfold bind. rewrite delete_hand by (try reflexivity; cbn; lia). cbn [outcome ret fst snd live next Nat.pred minus plus]. exists false. split; [reflexivity|]. split; [split; [reflexivity|split; [reflexivity|cbn; lia]]|].
        destruct (lookup_it c t l (fst e) y H L) as (itb' & A' & Ni). rewrite A in A'. injection A' as <-. exact Ni.
      * eapply outcome_weaken; [apply (grow_insert_ok r (plus (t, h)) l x itb); [apply plus_SI; exact I|apply (fresh_hand r (t, h) l e I)|exact A|exact L|exact Rm]| |auto].
        intros it s' P. exists true. split; [reflexivity|]. exists x. split; [reflexivity|]. split; [cbn; lia|]. apply (InsPostG_fr r (t, h) (plus (t, h))); [reflexivity|cbn; lia|exact P].
Qed.
End Ins.
