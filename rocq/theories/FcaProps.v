(** Properties of the closed-addressing containers of programs, in terms of what a user sees (used by Properties_Fca.v). *)
From Coq Require Import NArith ZArith Bool List Arith Lia Permutation.
From Verif Require Import FloatModel FloatProofs HashArithModel HashArithProofs FoaModel FoaGroup FoaBase FcaLinks FcaLinksProofs FcaModel FcaInv FcaIter FcaTab FcaRehash FcaLoad FcaOps FcaIns FcaIns2 FcaHandle FcaErase FcaErase2 FcaCopy FcaMove FcaMerge FcaQuery FcaEq FcaSpec FcaWorld FcaApi FcaRun FcaRun2 FcaRun3 FcaRun4.
Import ListNotations.
Local Open Scope m_scope.
Local Open Scope nat_scope.

Section Props.
Context {K V : Type} (c : FCfg K V).
Notation node := (node K V).
Notation table := (FcaModel.table K V).
Notation cb := (base c).
Notation St := (table * heap)%type.
Notation TInv := (TInv c). Notation raised := (raised c). Notation SI := (SI c). Notation WI := (WI c).
Notation mworld := (@mworld K V).
Notation el := (@el K V).
Implicit Types (t x : table) (y z : node) (w : mworld).

(** t is a container of a program and h the heap at that moment *)
Definition in_program t (h : heap) : Prop := exists rs w i, runs c rs w /\ slot w i = Some t /\ hp w = h.
(** its elements (address, (key, value)) in iteration order *)
Definition elems t : list (nat * (K * V)) := v_elems (look t).

Lemma prog_si t h : in_program t h -> exists r, SI r (t, h) (contents t).
Proof.
  intros (rs & w & i & R & Hs & <-). destruct (parts1 c w i t (proj1 (runs_ok c _ _ _ R)) Hs) as (rest & _ & _ & _ & _ & _ & I & _). eauto.
Qed.
Lemma prog_inv t h : in_program t h -> TInv t (contents t).
Proof. intros H. destruct (prog_si t h H) as (r & I). apply (si_t _ _ _ _ I). Qed.
Lemma elems_inv t l : TInv t l -> elems t = map el l. Proof. intros T. unfold elems, look. cbn [v_elems]. rewrite (contents_eq c t l T). reflexivity. Qed.

(** one more operation *)
Lemma step1 t h o n : in_program t h -> pre1 c o t ->
  match exec1 c o (t, h) n with
  | Ret v s' _ => in_program (fst s') (snd s') /\ FcaSpec.spec1 (keqf cb) (multi c) (f_pid t) o (elems t) (Done v) (elems (fst s')) /\ f_pid (fst s') = f_pid t /\ f_hid (fst s') = f_hid t
  | Exn k s' _ => in_program (fst s') (snd s') /\ FcaSpec.spec1 (keqf cb) (multi c) (f_pid t) o (elems t) (Threw k) (elems (fst s')) /\ f_pid (fst s') = f_pid t /\ f_hid (fst s') = f_hid t /\ raised k
  | Undef => False
  end.
Proof.
  intros H P. destruct (prog_si t h H) as (r & I). pose proof (exec1_ok c r (t, h) (contents t) o n I P) as Q.
  destruct H as (rs & w & i & R & Hs & Eh).
  assert (forall res (s' : St), returned (exec c (On i o) w n) res (put_tab w i (Some (fst s')) (snd s')) -> in_program (fst s') (snd s')) as NX.
  { intros res s' X. exists (rs ++ [(On i o, res)]), (put_tab w i (Some (fst s')) (snd s')), i. split; [|split; [|reflexivity]].
    - apply (runs_snoc c _ rs w (On i o) n res); [exact R|exists t; split; assumption|exact Logic.I|exact X].
    - rewrite (put_slot w i _ _ i t Hs), Nat.eqb_refl. reflexivity. }
  unfold exec, run1 in NX. rewrite Hs, Eh in NX.
  destruct (exec1 c o (t, h) n) as [v s' n'|kd s' n'|]; cbn [outcome] in Q; [| |exact Q].
  - destruct Q as (l' & Q). split; [apply (NX (Done v) s'); split; reflexivity|]. pose proof (p1_spec _ _ _ _ _ _ _ _ Q) as S. cbn [fst] in S. split; [|split; [apply (p1_pid _ _ _ _ _ _ _ _ Q)|apply (p1_hid _ _ _ _ _ _ _ _ Q)]].
    rewrite (elems_inv (fst s') l' (si_t _ _ _ _ (p1_si _ _ _ _ _ _ _ _ Q))). exact S.
  - destruct Q as (Rk & l' & Q). split; [apply (NX (Threw kd) s'); split; reflexivity|]. pose proof (p1_spec _ _ _ _ _ _ _ _ Q) as S. cbn [fst] in S. split; [|split; [apply (p1_pid _ _ _ _ _ _ _ _ Q)|split; [apply (p1_hid _ _ _ _ _ _ _ _ Q)|exact Rk]]].
    rewrite (elems_inv (fst s') l' (si_t _ _ _ _ (p1_si _ _ _ _ _ _ _ _ Q))). exact S.
Qed.

(** *** keys, size, addresses *)
Lemma pairs_map {A B} (f : A -> B) (R : B -> B -> Prop) l : ForallOrdPairs (fun a b => R (f a) (f b)) l -> ForallOrdPairs R (map f l).
Proof. induction 1 as [|a l F _ IH]; cbn [map]; constructor; [|exact IH]. apply Forall_map. exact F. Qed.
Lemma unique_keys t h : in_program t h -> multi c = false -> ForallOrdPairs (fun a b => keqf cb (f_pid t) (key a) (key b) = false) (elems t).
Proof.
  intros H M. pose proof (prog_inv t h H) as T. pose proof (keysok_all c _ _ T) as U. unfold KeysOk in U. rewrite M in U. rewrite (elems_inv t _ T). apply pairs_map. exact U.
Qed.
Lemma grouped_keys t h l1 a l2 b l3 : in_program t h -> elems t = l1 ++ a :: l2 ++ b :: l3 -> keqf cb (f_pid t) (key a) (key b) = true -> Forall (fun d => keqf cb (f_pid t) (key a) (key d) = true) l2.
Proof.
  intros H E K1. pose proof (prog_inv t h H) as T. pose proof (keysok_grouped c _ _ (keysok_all c _ _ T)) as G. rewrite (elems_inv t _ T) in E.
  apply map_eq_app in E as (m1 & r & E & <- & E2). apply map_eq_cons in E2 as (x & r2 & -> & <- & E2). apply map_eq_app in E2 as (m2 & r3 & -> & <- & E3).
  apply map_eq_cons in E3 as (x2 & m3 & -> & <- & _). apply Forall_map. apply (G m1 x m2 x2 m3 E K1).
Qed.
Lemma size_ok t h : in_program t h -> f_size t = N.of_nat (length (elems t)).
Proof. intros H. pose proof (prog_inv t h H) as T. rewrite (elems_inv t _ T), map_length. apply (ti_size _ _ _ T). Qed.
Lemma no_leak rs w : runs c rs w -> NoDup (addresses (look_all w)) /\ live (hp w) = length (addresses (look_all w)).
Proof.
  intros R. pose proof (proj1 (runs_ok c _ _ _ R)) as W. rewrite (all_addr c w W). split; [apply (wi_ids _ _ W)|rewrite map_length; apply (wi_live _ _ W)].
Qed.

(** *** iteration *)
Lemma iterate t h : in_program t h ->
  exists l, elements t = Some l /\ elems t = map el l /\ NoDup (map fst (elems t)) /\ Permutation (elems t) (map el (concat (b_chains (f_b t)))) /\
  forall m, m <= length (elems t) -> exists it, nth_it t m = Some it /\ e_eqb it e_end = (m =? length (elems t)) /\
    forall (x : nat * (K * V)), nth_error (elems t) m = Some x -> forall n, deref it (t, h) n = Ret x (t, h) n.
Proof.
  intros H. pose proof (prog_inv t h H) as T. pose proof (ti_c _ _ _ T) as C. set (l := contents t) in *. exists l.
  split; [apply (elements_ok t l (ci_b _ _ _ C) (ci_ids _ _ _ C) (ti_size _ _ _ T))|]. rewrite (elems_inv t l T). split; [reflexivity|]. split; [rewrite ids_el; apply (ci_ids _ _ _ C)|].
  split; [apply Permutation_map; symmetry; apply (nodes_total c t l C)|]. rewrite map_length. intros m Lm. destruct (nth_it_ok t l m (ci_b _ _ _ C) (ci_ids _ _ _ C) (ti_size _ _ _ T) Lm) as (it & E & P).
  exists it. split; [exact E|]. split; [apply (e_end_pos (f_b t)); assumption|]. intros q Q n. rewrite nth_error_map in Q. destruct (nth_error l m) as [y|] eqn:Ey; [|discriminate]. cbn [option_map] in Q. assert (el y = q) as <- by congruence.
  pose proof (pos_node _ _ _ _ _ P Ey) as Ny. unfold deref. rewrite get_t_eq. rewrite (e_node_ok _ l y it); [reflexivity| |apply (ci_ids _ _ _ C)|exact Ny].
  apply (TInv_wf c t l y T). eapply nth_error_In. exact Ey.
Qed.

(** *** iterators stay valid while the number of buckets does not change *)
Lemma sizes_nodup : NoDup sizes.
Proof. repeat (constructor; [vm_compute; intuition congruence|]). constructor. Qed.
Lemma same_idx i j n : fca_size i = Some n -> fca_size j = Some n -> i = j.
Proof.
  unfold fca_size. intros A B. apply (proj1 (NoDup_nth_error sizes) sizes_nodup); [|congruence]. apply nth_error_Some. congruence.
Qed.
Lemma NIt_same t t' l l' y y' it : TInv t l -> TInv t' l' -> f_hid t' = f_hid t -> bucket_count (f_b t') = bucket_count (f_b t) -> In y l -> In y' l' -> el y = el y' -> NIt (f_b t) y it -> NIt (f_b t') y' it.
Proof.
  intros T T' Eh Eb Iy Iy' El (p & J & ->). pose proof (ti_c _ _ _ T) as C. pose proof (ti_c _ _ _ T') as C'.
  assert (nd_id y = nd_id y' /\ nd_kv y = nd_kv y') as [Ei Ek] by (unfold FcaWorld.el in El; split; congruence).
  pose proof (TInv_wf c t l y T Iy) as W. pose proof (TInv_wf c t' l' y' T' Iy') as W'. destruct (NIt_exists _ _ _ W' Iy') as (it' & q & J' & Eq).
  assert (b_idx (f_b t') = b_idx (f_b t)) as Ix. { destruct W as (o & W & _), W' as (o' & W' & _). apply (same_idx _ _ (bucket_count (f_b t))); [rewrite (wb_size _ _ _ W'); unfold bucket_count in *; congruence|apply (wb_size _ _ _ W)]. }
  pose proof (ci_placed _ _ _ C _ _ J) as P. pose proof (ci_placed _ _ _ C' _ _ J') as P'. rewrite Eh, Ix in P'. unfold nkey in *. rewrite Ek in P. rewrite P in P'.
  assert (p = q) as -> by (assert (N.of_nat p = N.of_nat q) by congruence; lia). exists q. rewrite Ei. split; [exact J'|reflexivity].
Qed.
Lemma iterators_stay t t' h h' (x : nat * (K * V)) j it : in_program t h -> in_program t' h' -> f_hid t' = f_hid t -> bucket_count (f_b t') = bucket_count (f_b t) ->
  nth_it t j = Some it -> nth_error (elems t) j = Some x -> In x (elems t') -> exists j', nth_it t' j' = Some it /\ nth_error (elems t') j' = Some x.
Proof.
  intros H H' Eh Eb Hn Hx Hi. pose proof (prog_inv t h H) as T. pose proof (prog_inv t' h' H') as T'. pose proof (ti_c _ _ _ T) as C. pose proof (ti_c _ _ _ T') as C'.
  rewrite (elems_inv t _ T) in Hx. rewrite (elems_inv t' _ T') in *. rewrite nth_error_map in Hx. destruct (nth_error (contents t) j) as [y|] eqn:Ey; [|discriminate]. cbn [option_map] in Hx. assert (el y = x) as <- by congruence. clear Hx.
  apply in_map_iff in Hi as (y' & E & Iy'). assert (j < length (contents t)) as Lj by (apply nth_error_Some; congruence).
  destruct (nth_it_ok t (contents t) j (ci_b _ _ _ C) (ci_ids _ _ _ C) (ti_size _ _ _ T) ltac:(lia)) as (it0 & E0 & P0). assert (it0 = it) as -> by congruence.
  pose proof (pos_node _ _ _ _ _ P0 Ey) as Ny. pose proof (NIt_same t t' _ _ y y' it T T' Eh Eb (nth_error_In _ _ Ey) Iy' (eq_sym E) Ny) as Ny'.
  destruct (In_nth_error _ _ Iy') as (j' & Ej'). exists j'. assert (j' < length (contents t')) as Lj' by (apply nth_error_Some; congruence).
  destruct (nth_it_ok t' (contents t') j' (ci_b _ _ _ C') (ci_ids _ _ _ C') (ti_size _ _ _ T') ltac:(lia)) as (it1 & E1 & P1). pose proof (pos_node _ _ _ _ _ P1 Ej') as N1.
  rewrite (NIt_inj _ (contents t') y' it it1 (TInv_wf c t' _ y' T' Iy') (ci_ids _ _ _ C') Ny' N1). split; [exact E1|]. rewrite nth_error_map, Ej'. cbn. congruence.
Qed.

(** *** which operations keep the buckets *)
Definition ends {A} (r : R St A) (P : St -> Prop) : Prop := match r with Ret _ s _ | Exn _ s _ => P s | Undef => True end.
Lemma ends_bind {A B} (m : M St A) (f : A -> M St B) s n Q (E : kind -> St -> Prop) P : outcome (m s n) Q E -> (forall a s' n', Q a s' -> ends (f a s' n') P) -> (forall k s', E k s' -> P s') -> ends (bind m f s n) P.
Proof. unfold bind. destruct (m s n) as [a s1 n1|k s1 n1|]; cbn; intros H1 H2 H3; [apply H2; exact H1|apply (H3 k); exact H1|exact I]. Qed.
Lemma ends_deref {B} it (f : _ -> M St B) s n P : (forall a, ends (f a s n) P) -> ends (bind (deref it) f s n) P.
Proof. intros H. destruct s as [t h]. unfold deref. rewrite bind_bind, get_t_eq. destruct (e_node (f_b t) it); cbn [of_option]; [rewrite bind_bind, bind_ret; apply H|exact I]. Qed.
Lemma ends_deref_opt {B} it (f : _ -> M St B) s n P : (forall a, ends (f a s n) P) -> ends (bind (deref_opt it) f s n) P.
Proof. intros H. unfold deref_opt. destruct (e_eqb it e_end); [rewrite bind_ret; apply H|]. rewrite bind_bind. apply ends_deref. intros a. rewrite bind_ret. apply H. Qed.

Definition removes (o : op1 K V) : Prop := match o with EraseKey _ | EraseNth _ | EraseRange _ _ | EraseIf _ | Clear => True | _ => False end.
Definition same_bc (s : St) (s' : St) : Prop := bucket_count (f_b (fst s')) = bucket_count (f_b (fst s)).
Lemma erase_same_bc t h o n : in_program t h -> pre1 c o t -> removes o -> ends (exec1 c o (t, h) n) (same_bc (t, h)).
Proof.
  intros H Hp Ro. destruct (prog_si t h H) as (r & I). set (l := contents t) in *. pose proof (si_t _ _ _ _ I) as T. cbn [fst] in T. pose proof (ti_size _ _ _ T) as Sz.
  destruct o; try destruct Ro; cbn [exec1 pre1] in *.
  - destruct (multi c) eqn:Mu.
    + eapply ends_bind; [apply (erase_key_equiv_ok c r (t, h) l k n I Mu)| |].
      * cbv beta zeta. intros a s' n' (_ & B & _). apply B.
      * cbv beta. intros kd s' (_ & [->|(run & _ & B & _)]); [reflexivity|apply B].
    + eapply ends_bind; [apply (erase_key_unique_ok c r (t, h) l k n I)| |].
      * cbv beta. cbn [fst]. intros a s' n' X. destruct (FcaTab.lookup c (f_pid t) k l); [destruct X as (_ & l1 & l2 & _ & _ & B & _); apply B|destruct X as [_ ->]; reflexivity].
      * intros kd s' (-> & _). reflexivity.
  - match goal with |- ends (bind _ ?f _ n) _ => destruct (it_at_ok c r (t, h) l m f n I ltac:(lia)) as (it & Ph & ->) end. apply ends_deref. intros a. cbn [fst] in *.
    destruct (nth_error l m) as [y|] eqn:Ey; [|apply nth_error_None in Ey; lia]. pose proof (pos_node _ _ _ _ _ Ph Ey) as Ny. destruct (nth_error_split l m Ey) as (l1 & l2 & El & Ll). rewrite El in I.
    eapply ends_bind; [apply (erase_node_ok c r (t, h) l1 y l2 it n (fun _ _ => False) I Ny)| |intros ? ? []]. cbv beta. intros it' s' n' ((_ & B & _) & _). apply ends_deref_opt. intros z. apply B.
  - destruct Hp as [L1 L2]. match goal with |- ends (bind _ ?f _ n) _ => destruct (it_at_ok c r (t, h) l m f n I ltac:(lia)) as (it & Ph & ->) end.
    match goal with |- ends (bind _ ?f _ n) _ => destruct (it_at_ok c r (t, h) l m2 f n I ltac:(lia)) as (it2 & Ph2 & ->) end.
    eapply ends_bind; [apply (erase_nodes_range_ok c r (t, h) l m m2 it it2 n (fun _ _ => False) I L1 ltac:(lia) Ph Ph2)| |intros ? ? []]. cbv beta. intros u s' n' (_ & B & _). apply B.
  - eapply ends_bind; [apply (erase_if_ok c r pr (t, h) l n I)| |].
    + cbv beta. intros a s' n' ((_ & B & _) & _). apply B.
    + cbv beta. intros kd s' (_ & d & u & _ & _ & B & _). apply B.
  - eapply ends_bind; [apply (clear_ok c r (t, h) l n (fun _ _ => False) I)| |intros ? ? []]. cbv beta. intros u s' n' (_ & B). apply B.
Qed.

(** insertions *)
Definition ins_of (r : nat) (s : St) (l : list node) (s' : St) : Prop := (fst s' = fst s \/ (f_size (fst s') = f_size (fst s) /\ same_bc s s' /\ f_mlf (fst s') = f_mlf (fst s))) \/ exists hint y it, InsPostG c r s l hint y it s'.
Lemma insert_cases t h r o n : SI r (t, h) (contents t) -> pre1 c o t -> strong1 o ->
  match exec1 c o (t, h) n with Ret _ s' _ => ins_of r (t, h) (contents t) s' | Exn k s' _ => OpExn c r (t, h) (contents t) k s' | Undef => True end.
Proof.
  intros I Hp So. set (l := contents t) in *. pose proof (si_t _ _ _ _ I) as T. cbn [fst] in T. pose proof (ti_size _ _ _ T) as Sz.
  assert (FcaWorld.room t 1 -> FcaIns2.room l 1) as Rm. { intros X. unfold FcaWorld.room, FcaIns2.room, max_elems in *. rewrite Sz in X. lia. }
  assert (FcaWorld.room t 1 -> (N.of_nat (length l) + 1 < max_elems)%N) as Rm1. { intros X. unfold FcaWorld.room, max_elems in *. rewrite Sz in X. lia. }
  assert (forall B (m : M St B) (f : B -> M St (value K V)) (Q : B -> St -> Prop), outcome (m (t, h) n) Q (OpExn c r (t, h) l) -> (forall a s' n', Q a s' -> match f a s' n' with Ret _ s2 _ => s2 = s' /\ ins_of r (t, h) l s' | Exn _ _ _ => False | Undef => True end) ->
    match bind m f (t, h) n with Ret _ s' _ => ins_of r (t, h) l s' | Exn k s' _ => OpExn c r (t, h) l k s' | Undef => True end) as Bd.
  { intros B m f Q O F. unfold bind. destruct (m (t, h) n) as [a s' n'|k s' n'|]; cbn [outcome] in O; [|exact O|exact Logic.I]. specialize (F a s' n' O). destruct (f a s' n') as [v s2 n2|k s2 n2|]; [|destruct F|exact Logic.I]. destruct F as [-> F]. exact F. }
  assert (forall it (s' : St) n' (g : nat * (K * V) -> value K V), ins_of r (t, h) l s' -> match (y <- deref it ;; ret (g y)) s' n' with Ret _ s2 _ => s2 = s' /\ ins_of r (t, h) l s' | Exn _ _ _ => False | Undef => True end) as Dr.
  { intros it s' n' g X. destruct s' as [t' h']. unfold deref. rewrite bind_bind, get_t_eq. destruct (e_node (f_b t') it); cbn [of_option]; [rewrite bind_bind, bind_ret, bind_ret; cbn [ret]; auto|exact Logic.I]. }
  assert (forall e it b s', EUPost c r (t, h) l e (it, b) s' -> ins_of r (t, h) l s') as Eu.
  { intros e it b s' X. unfold EUPost in X. cbn [fst] in X. destruct (FcaTab.lookup c (f_pid t) (fst e) l); [destruct X as (_ & (Ks & _) & _); left; left; exact Ks|]. destruct X as (_ & y & _ & _ & X). right. eauto. }
  destruct o; try destruct So; cbn [exec1 pre1] in *.
  - destruct (multi c) eqn:Mu.
    + rewrite <- bind_bind. eapply Bd; [apply (emplace_fresh_equiv_ok c r (t, h) l KConstruct e n Mu I (Rm Hp))|]. cbv beta. intros it s' n' (y & _ & _ & X). apply Dr. right. eauto.
    + eapply Bd; [apply (emplace_unique_ok c r (t, h) l kf KConstruct e n I (Rm1 Hp))|]. intros [it b] s' n' X. cbn [fst snd]. apply Dr. eapply Eu. exact X.
  - destruct Hp as [Hr Hm]. match goal with |- match bind _ ?f _ n with _ => _ end => destruct (it_at_ok c r (t, h) l m f n I ltac:(lia)) as (hint & Ph & ->) end.
    pose proof (pos_hint c r (t, h) l m hint I ltac:(lia) Ph) as Hh. destruct (multi c) eqn:Mu.
    + rewrite <- bind_bind. eapply Bd; [apply (emplace_fresh_hint_equiv_ok c r (t, h) l KConstruct hint e n Mu I Hh (Rm Hr))|]. cbv beta. intros it s' n' (y & ho & _ & _ & _ & X). apply (Dr it s' n' (fun q => VFound (Some q))). right. eauto.
    + eapply Bd; [apply (emplace_hint_unique_ok c r (t, h) l kf hint e n I Mu Hh (Rm1 Hr))|]. cbv beta. intros it s' n' (b & X). apply (Dr it s' n' (fun q => VFound (Some q))). eapply Eu. exact X.
  - destruct Hp as [Hr Mu]. eapply Bd; [apply (insert_or_assign_ok c r (t, h) l k v n I (Rm1 Hr))|]. intros [it b] s' n' X. cbn [fst snd]. apply Dr. unfold AssignPost in X. cbn [fst snd] in X.
    destruct (FcaTab.lookup c (f_pid t) k l) as [z|]; [|destruct X as (_ & y & _ & _ & X); right; eauto]. destruct X as (_ & l1 & l2 & El & S' & F & _ & Bc). left. right.
    split; [|split; [exact Bc|]]; [rewrite (ti_size _ _ _ (si_t _ _ _ _ S')); cbn [fst]; rewrite Sz, El, !app_length; reflexivity|]. destruct F as ((_ & _ & _ & Fm) & _). exact Fm.
  - destruct Hp as [Hr Mu]. eapply Bd; [apply (emplace_unique_ok c r (t, h) l true KConstruct (k, dv) n I (Rm1 Hr))|]. intros [it b] s' n' X. cbn [fst snd]. apply (Dr it s' n' (fun q => VVal (snd (snd q)))). eapply Eu. exact X.
Qed.
End Props.
