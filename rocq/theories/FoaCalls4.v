(** Calls of user-supplied functions by the open-addressing containers: merge. *)
From Coq Require Import NArith Bool List Arith Lia ZifyBool ZifyNat ZifyN Permutation.
From Verif Require Import SizeModel SizeProofs GroupModel GroupSpec FoaModel FoaGroup FoaBase FoaFind FoaArr FoaInv FoaRehash FoaOps FoaIterModel FoaSpec FoaWorld FoaApi FoaRun CallSpec FoaCalls FoaCalls2 FoaCalls3.
Import ListNotations.
Local Open Scope nat_scope.
Section C.
Context {K V : Type} (c : Cfg K V).
Hypothesis HC : good_cfg c.
Notation arrays := (arrays K V).
Notation table := (table K V).
(** traversal with d calls per element in states that satisfy J; the index counts the elements ahead *)
Definition StepJ {St A} (J : nat -> St -> Prop) d (m : M St A) : Prop := forall j s n, J (S j) s -> calls (m s n) n d /\ match m s n with Ret _ s' _ => J j s' | _ => True end.
Definition GKeepJ {St A} (sel : St -> arrays) (J : nat -> St -> Prop) (g : nat) (m : M St A) : Prop := forall j s n a s' n', J (S j) s -> m s n = Ret a s' n' -> forall g', g' <> g -> nth_error (a_groups (sel s')) g' = nth_error (a_groups (sel s)) g'.
Lemma mask_callsJ {St} (sel : St -> arrays) (J : nat -> St -> Prop) (f : nat -> nat -> M St bool) g d : (forall n, StepJ J d (f g n)) -> (forall n, GKeepJ sel J g (f g n)) ->
  forall ns r s n, J (length ns + r) s -> calls (fa_mask f g ns s n) n (d * length ns) /\
    match fa_mask f g ns s n with Ret b s' _ => (forall g', g' <> g -> nth_error (a_groups (sel s')) g' = nth_error (a_groups (sel s)) g') /\ (b = true -> J r s') | _ => True end.
Proof.
  intros Hc Hk. induction ns as [|m r IH]; intros q s n HJ; cbn [fa_mask length]; [split; [apply calls_ret|cbn; auto]|]. cbn [length] in HJ. destruct (Hc m _ s n HJ) as [C1 J1].
  split.
  - rewrite Nat.mul_succ_r, Nat.add_comm. apply calls_bind; [exact C1|]. intros b s' n' E. rewrite E in J1. destruct b; [apply (IH q), J1|apply calls_ret].
  - unfold bind. destruct (f g m s n) as [b s' n'|k s' n'|] eqn:E; try exact I. pose proof (Hk _ _ _ _ _ _ _ HJ E) as X. destruct b; [|split; [exact X|discriminate]].
    destruct (IH q s' n' J1) as [_ Y]. destruct (fa_mask f g r s' n') as [b s2 n2|k s2 n2|]; try exact I. destruct Y as [Y Z]. split; [|exact Z]. intros g' Hg. rewrite Y, X by exact Hg. reflexivity.
Qed.
Lemma groups_callsJ {St} (sel : St -> arrays) (J : nat -> St -> Prop) (f : nat -> nat -> M St bool) d k (a0 : arrays) : Shape k a0 -> (forall g n, StepJ J d (f g n)) -> (forall g n, GKeepJ sel J g (f g n)) ->
  let G := N.to_nat (2 ^ k) in forall rem g s n, g + rem = G -> (forall g', g <= g' -> nth_error (a_groups (sel s)) g' = nth_error (a_groups a0) g') ->
  J (length (flat_map (occ_group a0 G) (seq g rem))) s ->
  calls (fa_groups sel f G rem g s n) n (d * length (flat_map (occ_group a0 G) (seq g rem))).
Proof.
  intros HS Hc Hk G. induction rem as [|rem IH]; intros g s n Hg HK HJ; cbn [fa_groups]; [apply calls_ret|]. rewrite bind_get.
  unfold get_group. rewrite HK by lia. assert (g < G) as Lg by lia. pose proof (shape_get_group k a0 g HS Lg) as Eg. unfold get_group in Eg. rewrite Eg.
  cbn [seq flat_map] in HJ |- *. rewrite app_length in HJ |- *. rewrite Nat.mul_add_distr_l. unfold occ_group at 1 in HJ. rewrite map_length in HJ.
  pose proof (really_occupied_bits (grp a0 g) (S g =? G) (shape_grp_len _ _ _ HS Lg)) as Eb. rewrite <- Eb in HJ.
  destruct (mask_callsJ sel J f g d (Hc g) (Hk g) (mask_loop 16 (match_really_occupied (grp a0 g) (S g =? G))) _ s n HJ) as [X Y].
  unfold occ_group at 1. rewrite map_length.
  rewrite Eb in X, Y |- *. apply calls_bind; [exact X|]. intros b s' n' E. rewrite E in Y. destruct Y as [Y Z]. destruct b; [|apply calls_ret].
  apply IH; [lia| |apply Z; reflexivity]. intros g' Hg'. rewrite Y by lia. apply HK. lia.
Qed.
Lemma for_all_callsJ {St} (sel : St -> arrays) (J : nat -> St -> Prop) (f : nat -> nat -> M St unit) d h s n : ArrOK c h (sel s) -> (forall g n, StepJ J d (f g n)) -> (forall g n, GKeepJ sel J g (f g n)) ->
  J (length (elems (sel s))) s -> calls (for_all sel f s n) n (d * length (elems (sel s))).
Proof.
  intros H Hc Hk HJ. unfold for_all. apply calls_0then; [|intro; apply nc_ret]. unfold for_all_while. rewrite bind_get. destruct H as [E | (k & HG & _)].
  - rewrite E. cbn [a_elems dummy_arrays]. apply calls_ret.
  - pose proof HG as [HS _]. rewrite (sh_elems _ _ HS), (sh_mask _ _ HS). assert (2 ^ k - 1 + 1 = 2 ^ k)%N as -> by (pose proof (pow2_pos k); lia).
    rewrite <- (occ_length c h k (sel s) HG), (occ_flat k (sel s) HS) in HJ |- *. apply (groups_callsJ sel J); auto; try lia.
    + intros g m j s1 n1 X. destruct (Hc g m j s1 n1 X) as [X1 X2]. split; [apply calls_0then; [exact X1|intro; apply nc_ret]|]. unfold bind. destruct (f g m s1 n1); exact X2 || exact I.
    + intros g m j s1 n1 a s' n' HJ1 E. unfold bind in E. destruct (f g m s1 n1) as [u s2 n2|kd s2 n2|] eqn:Ef; try discriminate. unfold ret in E. injection E as _ <- _. eapply Hk; [exact HJ1|exact Ef].
Qed.
Lemma emplace_size (t : table) kd e n r t' n' : Inv c t -> emplace_impl c kd e t n = Ret r t' n' -> Inv c t' /\ nel t' <= S (nel t).
Proof.
  intros H E. pose proof (emplace_impl_ok c kd t e n HC H) as X. rewrite E in X. cbn [outcome] in X. destruct X as [I2 _ _ Hf Ht _ _]. split; [exact I2|]. destruct r as [l b]. cbn [fst snd] in *. destruct b.
  - destruct (Ht eq_refl) as (_ & P & _). apply Permutation_length in P. unfold nel. cbn in P. lia.
  - destruct (Hf eq_refl) as (-> & _). lia.
Qed.
(** the target stays well-formed and gains at most one element per step *)
Definition Jm (T j : nat) (s : table * table) : Prop := Inv c (fst s) /\ nel (fst s) + j <= T.
Lemma snd_nc {A} (m : M table A) (s : table * table) n : Nc m -> match on_snd m s n with Ret _ s' n' => fst s' = fst s /\ n' = n | Exn _ _ _ => False | Undef => True end.
Proof. intros H. unfold on_snd, lens. pose proof (H (snd s) n) as X. destruct (m (snd s) n); cbn in *; auto. Qed.
Lemma merge_step_J T g m : StepJ (Jm T) (3 + 3 * T) (merge_step c g m).
Proof.
  intros j s n [H L]. unfold merge_step. pose proof (nc_read (St:=table * table) (arr (snd s)) (slot_index g m) s n) as R.
  assert (forall e s1 n1, read_element (arr (snd s)) (slot_index g m) s n = Ret e s1 n1 -> s1 = s) as Rs by (unfold read_element; destruct (get_cell _ _) as [[| |]|]; unfold ret, undef; intros; congruence).
  destruct (read_element (arr (snd s)) (slot_index g m) s n) as [e s1 n1|kd s1 n1|]; cbn [no_calls] in R; [|contradiction|split; exact I]. subst n1. rewrite (Rs _ _ _ eq_refl). clear Rs s1.
  unfold on_fst at 1 2, lens at 1 2. pose proof (proj1 (emplace_impl_calls c (fst s) KTransfer e n H)) as C. pose proof (emplace_size (fst s) KTransfer e n) as Z.
  assert (calls (emplace_impl c KTransfer e (fst s) n) n (3 + 3 * T)) as C1 by (eapply calls_le; [exact C|]; destruct (_ <? _)%N; lia). clear C.
  destruct (emplace_impl c KTransfer e (fst s) n) as [[l b] t1 n1|kd t1 n1|]; cbn [calls] in C1.
  - destruct (Z _ _ _ H eq_refl) as [I1 L1]. destruct b.
    + unfold bind. pose proof (snd_nc (on_arr (put_cell (V:=V) (slot_index g m) (Moved (K:=K)))) (t1, snd s) n1 (nc_on_arr _ (nc_put_cell _ _))) as Y. destruct (on_snd (on_arr _) (t1, snd s) n1) as [u s2 n2|kd s2 n2|]; [|contradiction|split; exact I].
      destruct Y as [Y1 ->]. pose proof (snd_nc (erase_at g m) s2 n1 (nc_erase_at g m)) as Y. destruct (on_snd (erase_at g m) s2 n1) as [u2 s3 n3|kd s3 n3|]; [|contradiction|split; exact I]. destruct Y as [Y2 ->].
      cbn [calls]. split; [exact C1|]. unfold Jm. rewrite Y2, Y1. cbn [fst]. split; [exact I1|lia].
    + split; [exact C1|]. unfold Jm. cbn [fst]. split; [exact I1|lia].
  - pose proof (snd_nc (erase_at g m) (t1, snd s) n1 (nc_erase_at g m)) as Y. destruct (on_snd (erase_at g m) (t1, snd s) n1) as [u2 s3 n3|kd3 s3 n3|]; [|contradiction|split; exact I]. destruct Y as [_ ->]. split; [exact C1|exact I].
  - split; exact I.
Qed.
Lemma erase_keeps g m (t : table) n u t' n' : erase_at g m t n = Ret u t' n' -> forall g', g' <> g -> nth_error (a_groups (arr t')) g' = nth_error (a_groups (arr t)) g'.
Proof.
  intros E g' Hg. apply (gk_erase_at g m (t, @nil (K * V)) n u (t', []) n'); [|exact Hg]. unfold on_fst, lens. cbn [fst snd]. rewrite E. reflexivity.
Qed.
Lemma gk_merge_step g m : GKeep (fun s : table * table => arr (snd s)) g (merge_step c g m).
Proof.
  intros s n u s' n' E g' Hg. unfold merge_step in E. unfold read_element in E. destruct (get_cell (arr (snd s)) (slot_index g m)) as [[| |e]|]; cbn [ret undef] in E; try discriminate.
  unfold on_fst, lens in E. destruct (emplace_impl c KTransfer e (fst s) n) as [[l b] t1 n1|kd t1 n1|]; [destruct b| |discriminate].
  - unfold bind, on_snd, lens in E. cbn [fst snd] in E. unfold on_arr, lens in E. destruct (put_cell (slot_index g m) Moved (arr (snd s)) n1) as [u1 a1 n2|kd a1 n2|] eqn:Ep; try discriminate. cbn [fst snd] in E.
    destruct (erase_at g m (set_arr (snd s) a1) n2) as [u2 t2 n3|kd t2 n3|] eqn:Ee; try discriminate. injection E as _ <- _. cbn [snd]. rewrite (erase_keeps _ _ _ _ _ _ _ Ee g' Hg). cbn [arr set_arr].
    f_equal. exact (ak_put_cell _ _ _ _ _ _ _ Ep).
  - injection E as _ <- _. reflexivity.
  - exfalso. unfold on_snd, lens in E. destruct (erase_at _ _ _ _) in E; discriminate.
Qed.
Lemma merge_calls (t x : table) n : Inv c t -> Inv c x -> calls (merge c (t, x) n) n (nel x * (3 + 3 * (nel t + nel x))).
Proof.
  intros H Hx. unfold merge. rewrite Nat.mul_comm. apply (for_all_callsJ (fun s : table * table => arr (snd s)) (Jm (nel t + nel x)) _ _ (hid x) (t, x) n); [apply (i_arr _ _ Hx)|intros; apply merge_step_J|intros g m j s1 n1 a s' n' _; apply gk_merge_step|].
  split; [exact H|]. cbn [fst snd]. unfold nel. lia.
Qed.
(** merging a container into itself looks up each element *)
Lemma merge_self_calls (t : table) n : Inv c t -> calls (merge_self c t n) n (nel t * (1 + nel t)).
Proof.
  intros H. unfold merge_self. rewrite Nat.mul_comm.
  match goal with |- calls (for_all arr ?F _ _) _ _ => set (f := F) end.
  assert (forall g m n, calls (f g m t n) n (1 + nel t) /\ match f g m t n with Ret _ t' _ => t' = t | _ => True end) as F.
  { intros g m n1. unfold f. rewrite bind_get. unfold read_element. destruct (get_cell (arr t) (slot_index g m)) as [[| |e]|] eqn:Ec; try (split; exact I). rewrite bind_ret. unfold bind.
    assert (present c t (fst e)) as P.
    { exists e. split; [apply in_elems; exists (slot_index g m); unfold get_cell in Ec; unfold cells; destruct (a_elems (arr t)); [exact Ec|discriminate]|]. destruct (i_compat _ _ H) as [[Rf _] _]. apply Rf. }
    destruct (emplace_impl_calls c t KTransfer e n1 H) as [_ X]. destruct (X P) as [X1 _]. pose proof (emplace_impl_ok c KTransfer t e n1 HC H) as Y.
    destruct (emplace_impl c KTransfer e t n1) as [[l b] t' n'|kd t' n'|]; cbn [outcome calls] in *; [|split; [exact X1|exact I]|split; exact I].
    destruct Y as [_ _ _ Hf _ _ _]. cbn [snd] in *. destruct b; [split; exact I|]. destruct (Hf eq_refl) as (-> & _). split; [exact X1|reflexivity]. }
  apply (for_all_callsJ arr (fun _ s => s = t) f _ (hid t) t n); [apply (i_arr _ _ H)| | |reflexivity].
  - intros g m j s n1 ->. apply F.
  - intros g m j s n1 a s' n' -> E g' _. destruct (F g m n1) as [_ X]. rewrite E in X. now rewrite X.
Qed.
End C.
