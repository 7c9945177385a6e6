(** Calls of user-supplied functions by the open-addressing containers: lookup, insertion, rehashing, copying. *)
From Coq Require Import NArith Bool List Arith Lia ZifyBool ZifyNat ZifyN.
From Verif Require Import SizeModel SizeProofs GroupModel GroupSpec FoaModel FoaGroup FoaBase FoaFind FoaArr FoaInv FoaIterModel FoaSpec FoaWorld CallSpec FoaCalls.
Import ListNotations.
Local Open Scope nat_scope.
Section C.
Context {K V : Type} (c : Cfg K V).
Notation arrays := (arrays K V).
Notation table := (table K V).
Definition nel (t : table) : nat := length (elems (arr t)).

Lemma find_at_calls {St} t key (s : St) n : Inv c t ->
  calls (find_at c t key (position (hash_of c (hid t) key) (a_gsi (arr t))) (hash_of c (hid t) key) s n) n (nel t).
Proof.
  intros H. unfold find_at, nel. pose proof (hash_lt c (hid t) key) as Hh.
  destruct (i_arr _ _ H) as [E | (k & HG & _)].
  - rewrite E. cbn [a_gsi dummy_arrays].
    rewrite dummy_find; [|apply (position_lt (hash_of c (hid t) key) 1); [exact Hh|lia]|lia]. apply (calls_ret (None : option (nat * nat)) s n).
  - pose proof HG as [HS _]. rewrite (sh_gsi _ _ HS), (sh_groups _ _ HS). pose proof (sh_k _ _ HS) as Hk.
    pose proof (find_loop_calls (St:=St) c (hid t) (pid t) k (arr t) key HG (S (N.to_nat (2 ^ k))) 0 [] s n) as L. cbv zeta in L.
    unfold pb_init. unfold pstate in L. rewrite probe_pos_0 in L by (apply position_lt; [exact Hh|lia]).
    cbn [length] in L. rewrite Nat.sub_0_r in L. apply L.
    + pose proof (pow2_pos k). lia.
    + constructor.
    + intros i [].
Qed.
Lemma hash_for_ret {St} h k s n r s' n' : hash_for (St:=St) c h k s n = Ret r s' n' -> r = hash_of c h k /\ s' = s /\ n' = S n.
Proof. unfold hash_for, bind, tick. destruct (throws c KHash n); [discriminate|]. unfold ret. intros [= <- <- <-]. auto. Qed.
Lemma find_calls {St} t key (s : St) n : Inv c t -> calls (find c t key s n) n (1 + nel t).
Proof.
  intros H. unfold find. apply calls_bind; [apply cb_hash|]. intros h s' n' E. apply hash_for_ret in E as (-> & -> & ->). apply find_at_calls, H.
Qed.
Lemma calls_0then {St A B} (m : M St A) (f : A -> M St B) s n d : calls (m s n) n d -> (forall a, Nc (f a)) -> calls (bind m f s n) n d.
Proof. intros H Hf. replace d with (d + 0) by lia. apply calls_bind; [exact H|]. intros a s' n' _. apply nc_cb, Hf. Qed.
Lemma m_find_calls t key n : Inv c t -> calls (m_find c key t n) n (1 + nel t).
Proof.
  intros H. unfold m_find. rewrite bind_get. apply calls_0then; [apply find_calls, H|]. intros [[g m]|]; [|apply nc_ret]. apply nc_bind; [apply nc_read|intro; apply nc_ret].
Qed.
Lemma m_erase_calls t key n : Inv c t -> calls (m_erase c key t n) n (1 + nel t).
Proof.
  intros H. unfold m_erase. rewrite bind_get. apply calls_0then; [apply find_calls, H|]. intros [[g m]|]; [|apply nc_ret]. apply nc_bind; [apply nc_erase_at|intro; apply nc_ret].
Qed.
Definition lookup1 (o : op1 K V) : bool := match o with Find _ | At _ | Count _ | Contains _ | EqualRange _ | Erase _ => true | _ => false end.
Lemma lookup1_calls o t n : lookup1 o = true -> Inv c t -> calls (exec1 c o t n) n (1 + nel t).
Proof.
  intros L H. destruct o; try discriminate; cbn [exec1].
  - apply calls_0then; [apply m_find_calls, H|intro; apply nc_ret].
  - apply calls_0then; [unfold m_at; apply calls_0then; [apply m_find_calls, H|intro; apply nc_ret]|intro; apply nc_ret].
  - apply calls_0then; [unfold m_count; apply calls_0then; [apply m_find_calls, H|intro; apply nc_ret]|intro; apply nc_ret].
  - apply calls_0then; [unfold m_contains; apply calls_0then; [apply m_find_calls, H|intro; apply nc_ret]|intro; apply nc_ret].
  - apply calls_0then; [|intros r; apply nc_bind; [apply nc_get|intro]; apply nc_bind; [apply nc_walk|intro; apply nc_ret]].
    unfold m_equal_range. apply calls_0then.
    + unfold m_find_it. rewrite bind_get. apply calls_0then; [apply find_calls, H|]. intros [?|]; apply nc_ret.
    + intros it. destruct (it_eqb it it_end); [apply nc_ret|]. apply nc_bind; [apply nc_get|intro]. apply nc_bind; [apply nc_opt|intro; apply nc_ret].
  - apply calls_0then; [apply m_erase_calls, H|intro; apply nc_ret].
Qed.

(** *** insertion into arrays with room *)
Lemma cb_emplace_loop kd hash e fuel : forall pb, Cb 1 (emplace_loop c fuel kd hash e pb).
Proof.
  induction fuel as [|fuel IH]; intros pb; cbn [emplace_loop]; [apply nc_cb, nc_undef|]. apply cb_then0; [apply nc_get|]. intros a.
  destruct (get_group a _) as [b|]; [|apply nc_cb, nc_undef]. destruct (negb _).
  - apply cb_0then; [apply cb_construct|intro]. apply nc_bind; [apply nc_put_group|intro; apply nc_ret].
  - apply cb_then0; [apply nc_put_group|intro; apply IH].
Qed.
Lemma cb_nosize kd pos hash e : Cb 1 (nosize_unchecked_emplace_at (V:=V) c kd pos hash e).
Proof. unfold nosize_unchecked_emplace_at. apply cb_then0; [apply nc_get|intro; apply cb_emplace_loop]. Qed.
Lemma cb_unchecked_emplace kd pos hash e : Cb 1 (unchecked_emplace_at (V:=V) c kd pos hash e).
Proof. unfold unchecked_emplace_at. apply cb_0then; [apply cb_lens, cb_nosize|intro]. apply nc_bind; [apply nc_modify|intro; apply nc_ret]. Qed.
Lemma cb_unchecked_insert kd e : Cb 2 (unchecked_insert (V:=V) c kd e).
Proof.
  unfold unchecked_insert. apply cb_then0; [apply nc_get|intro]. apply (cb_bind _ _ 1 1); [apply cb_hash|intro]. apply cb_0then; [apply cb_unchecked_emplace|intro; apply nc_ret].
Qed.

(** *** traversal: d calls per element *)
Definition GKeep {St A} (sel : St -> arrays) (g : nat) (m : M St A) : Prop :=
  forall s n a s' n', m s n = Ret a s' n' -> forall g', g' <> g -> nth_error (a_groups (sel s')) g' = nth_error (a_groups (sel s)) g'.
Lemma fa_mask_calls {St} (sel : St -> arrays) (f : nat -> nat -> M St bool) g d ns : (forall n, Cb d (f g n)) -> (forall n, GKeep sel g (f g n)) ->
  forall s n, calls (fa_mask f g ns s n) n (d * length ns) /\
    match fa_mask f g ns s n with Ret _ s' _ => forall g', g' <> g -> nth_error (a_groups (sel s')) g' = nth_error (a_groups (sel s)) g' | _ => True end.
Proof.
  intros Hc Hk. induction ns as [|m r IH]; intros s n; cbn [fa_mask length]; [split; [apply calls_ret|cbn; reflexivity]|].
  split.
  - rewrite Nat.mul_succ_r, Nat.add_comm. apply calls_bind; [apply Hc|]. intros b s' n' E. destruct b; [apply IH|apply calls_ret].
  - unfold bind. destruct (f g m s n) as [b s' n'|k s' n'|] eqn:E; try exact I. pose proof (Hk _ _ _ _ _ _ E) as X. destruct b; [|exact X].
    destruct (IH s' n') as [_ Y]. destruct (fa_mask f g r s' n') as [b s2 n2|k s2 n2|]; try exact I. intros g' Hg. rewrite Y, X by exact Hg. reflexivity.
Qed.
Lemma fa_groups_calls {St} (sel : St -> arrays) (f : nat -> nat -> M St bool) d k (a0 : arrays) : Shape k a0 -> (forall g n, Cb d (f g n)) -> (forall g n, GKeep sel g (f g n)) ->
  let G := N.to_nat (2 ^ k) in forall rem g s n, g + rem = G -> (forall g', g <= g' -> nth_error (a_groups (sel s)) g' = nth_error (a_groups a0) g') ->
  calls (fa_groups sel f G rem g s n) n (d * length (flat_map (occ_group a0 G) (seq g rem))).
Proof.
  intros HS Hc Hk G. induction rem as [|rem IH]; intros g s n Hg HK; cbn [fa_groups]; [apply calls_ret|]. rewrite bind_get.
  unfold get_group. rewrite HK by lia. assert (g < G) as Lg by lia. pose proof (shape_get_group k a0 g HS Lg) as Eg. unfold get_group in Eg. rewrite Eg.
  cbn [seq flat_map]. rewrite app_length, Nat.mul_add_distr_l.
  destruct (fa_mask_calls sel f g d (mask_loop 16 (match_really_occupied (grp a0 g) (S g =? G))) (Hc g) (Hk g) s n) as [X Y].
  unfold occ_group at 1. rewrite map_length.
  pose proof (really_occupied_bits (grp a0 g) (S g =? G) (shape_grp_len _ _ _ HS Lg)) as Eb.
  rewrite Eb in X, Y |- *. apply calls_bind; [exact X|]. intros b s' n' E. rewrite E in Y. destruct b; [|apply calls_ret].
  apply IH; [lia|]. intros g' Hg'. rewrite Y by lia. apply HK. lia.
Qed.
Lemma while_calls {St} (sel : St -> arrays) (f : nat -> nat -> M St bool) d h s n : ArrOK c h (sel s) -> (forall g n, Cb d (f g n)) -> (forall g n, GKeep sel g (f g n)) ->
  calls (for_all_while sel f s n) n (d * length (elems (sel s))).
Proof.
  intros H Hc Hk. unfold for_all_while. rewrite bind_get. destruct H as [E | (k & HG & _)].
  - rewrite E. cbn [a_elems dummy_arrays]. apply calls_ret.
  - pose proof HG as [HS _]. rewrite (sh_elems _ _ HS), (sh_mask _ _ HS). assert (2 ^ k - 1 + 1 = 2 ^ k)%N as -> by (pose proof (pow2_pos k); lia).
    rewrite <- (occ_length c h k (sel s) HG), (occ_flat k (sel s) HS). apply fa_groups_calls; auto; lia.
Qed.
Lemma for_all_calls {St} (sel : St -> arrays) (f : nat -> nat -> M St unit) d h s n : ArrOK c h (sel s) -> (forall g n, Cb d (f g n)) -> (forall g n, GKeep sel g (f g n)) ->
  calls (for_all sel f s n) n (d * length (elems (sel s))).
Proof.
  intros H Hc Hk. unfold for_all. apply calls_0then; [|intro; apply nc_ret]. eapply while_calls; [exact H| |].
  - intros g m. apply cb_0then; [apply Hc|intro; apply nc_ret].
  - intros g m s1 n1 a s' n' E. unfold bind in E. destruct (f g m s1 n1) as [u s2 n2|k s2 n2|] eqn:Ef; try discriminate. unfold ret in E. injection E as _ <- _. eapply Hk, Ef.
Qed.
(** sufficient conditions for GKeep *)
Lemma gk_const {St A} (a : arrays) g (m : M St A) : GKeep (fun _ => a) g m.
Proof. intros s n x s' n' _ g' _. reflexivity. Qed.
Definition AKeep {St A} (sel : St -> arrays) (m : M St A) : Prop := forall s n a s' n', m s n = Ret a s' n' -> a_groups (sel s') = a_groups (sel s).
Lemma ak_gk {St A} (sel : St -> arrays) g (m : M St A) : AKeep sel m -> GKeep sel g m.
Proof. intros H s n a s' n' E g' _. rewrite (H _ _ _ _ _ E). reflexivity. Qed.
Lemma ak_ret {St A} (sel : St -> arrays) (a : A) : AKeep sel (ret a).
Proof. intros s n b s' n' [= _ <- _]. reflexivity. Qed.
Lemma ak_same {St A} (sel : St -> arrays) (m : M St A) : (forall s n a s' n', m s n = Ret a s' n' -> s' = s) -> AKeep sel m.
Proof. intros H s n b s' n' E. apply H in E as ->. reflexivity. Qed.
Lemma ak_bind {St A B} (sel : St -> arrays) (m : M St A) (f : A -> M St B) : AKeep sel m -> (forall a, AKeep sel (f a)) -> AKeep sel (bind m f).
Proof. intros H Hf s n b s' n' E. unfold bind in E. destruct (m s n) as [a s1 n1|k s1 n1|] eqn:Em; try discriminate. rewrite (Hf _ _ _ _ _ _ E). apply (H _ _ _ _ _ Em). Qed.
Lemma ak_finally {St A} (sel : St -> arrays) (m : M St A) h : AKeep sel m -> AKeep sel h -> AKeep sel (finally m h).
Proof.
  intros H Hh s n b s' n' E. unfold finally in E. destruct (m s n) as [a s1 n1|k s1 n1|] eqn:Em; try discriminate.
  - destruct (h s1 n1) as [u s2 n2|k s2 n2|] eqn:Eh; try discriminate. injection E as _ <- _. rewrite (Hh _ _ _ _ _ Eh). apply (H _ _ _ _ _ Em).
  - destruct (h s1 n1); discriminate.
Qed.
Lemma ak_put_cell i x : AKeep (fun a : arrays => a) (@put_cell K V i x).
Proof. intros s n u s' n' E. unfold put_cell in E. destruct (a_elems s) as [l|]; [|discriminate]. destruct (nth_error l i); [|discriminate]. injection E as _ <- _. reflexivity. Qed.
Lemma ak_destroy i : AKeep (fun a : arrays => a) (@destroy_element K V i).
Proof. intros s n u s' n' E. unfold destroy_element in E. rewrite bind_get in E. destruct (get_cell s i) as [[]|]; try discriminate; apply (ak_put_cell _ _ _ _ _ _ _ E). Qed.
Lemma ak_lens {St T A} (sel : St -> arrays) (selT : T -> arrays) g (p : St -> T -> St) (m : M T A) : AKeep selT m -> (forall s, sel s = selT (g s)) -> (forall s t, sel (p s t) = selT t) -> AKeep sel (lens g p m).
Proof. intros H H1 H2 s n a s' n' E. unfold lens in E. destruct (m (g s) n) as [b t n1|k t n1|] eqn:Em; try discriminate. injection E as _ <- _. rewrite H2, H1. apply (H _ _ _ _ _ Em). Qed.
Lemma ak_frame {St T A} (sel : St -> arrays) g (p : St -> T -> St) (m : M T A) : (forall s t, sel (p s t) = sel s) -> AKeep sel (lens g p m).
Proof. intros H s n a s' n' E. unfold lens in E. destruct (m (g s) n) as [b t n1|k t n1|] eqn:Em; try discriminate. injection E as _ <- _. rewrite H. reflexivity. Qed.
Lemma ak_read {St} (sel : St -> arrays) (a : arrays) i : AKeep sel (read_element a i).
Proof. apply ak_same. intros s n e s' n' E. unfold read_element in E. destruct (get_cell a i) as [[]|]; try discriminate. injection E as _ <- _. reflexivity. Qed.
Lemma ak_hash {St} (sel : St -> arrays) h k : AKeep sel (hash_for c h k).
Proof. apply ak_same. intros s n e s' n' E. apply hash_for_ret in E. tauto. Qed.
Lemma ak_get {St} (sel : St -> arrays) : AKeep sel get.
Proof. intros s n a s' n' [= _ <- _]. reflexivity. Qed.
Lemma ak_modify {St} (sel : St -> arrays) f : (forall s, sel (f s) = sel s) -> AKeep sel (modify f).
Proof. intros H s n a s' n' [= _ <- _]. rewrite H. reflexivity. Qed.
(** *** rehashing *)
Lemma cb_transfer g n : Cb 2 (transfer_element (V:=V) c g n).
Proof.
  unfold transfer_element. apply cb_then0; [apply nc_get|intros s]. apply cb_then0; [apply nc_read|intros e]. apply (cb_bind _ _ 1 1); [apply cb_hash|intros h].
  destruct (moves c).
  - apply cb_then0; [apply nc_modify|intro]. apply cb_finally; [|apply nc_on_tab, nc_on_arr, nc_destroy]. apply cb_0then; [apply cb_lens, cb_nosize|intro]. apply nc_on_tab, nc_on_arr, nc_put_cell.
  - apply cb_0then; [apply cb_lens, cb_nosize|intro; apply nc_ret].
Qed.
Lemma ak_transfer g n : AKeep (fun s : @RS K V => arr (rs_tab s)) (transfer_element c g n).
Proof.
  assert (forall m : M arrays unit, AKeep (fun a => a) m -> AKeep (fun s : @RS K V => arr (rs_tab s)) (on_tab (on_arr m))) as Ht.
  { intros m H. unfold on_tab. apply (ak_lens _ arr); [|reflexivity|reflexivity]. unfold on_arr. apply (ak_lens _ (fun a => a)); [exact H|reflexivity|reflexivity]. }
  unfold transfer_element. apply ak_bind; [apply ak_get|intros s]. apply ak_bind; [apply ak_read|intros e]. apply ak_bind; [apply ak_hash|intros h].
  destruct (moves c).
  - apply ak_bind; [apply ak_modify; reflexivity|intro]. apply ak_finally; [apply ak_bind; [apply ak_frame; reflexivity|intro; apply Ht, ak_put_cell]|apply Ht, ak_destroy].
  - apply ak_bind; [apply ak_frame; reflexivity|intro; apply ak_ret].
Qed.
Lemma calls_on_exn {St A} (m : M St A) h s n d : calls (m s n) n d -> Nc h -> calls (on_exn m h s n) n d.
Proof. intros H H2. unfold on_exn. destruct (m s n) as [a s' n'|k s' n'|]; cbn in *; auto. specialize (H2 s' n'). destruct (h s' n'); cbn in *; subst; auto. Qed.
Lemma calls_finally {St A} (m : M St A) h s n d : calls (m s n) n d -> Nc h -> calls (finally m h s n) n d.
Proof. intros H H2. unfold finally. destruct (m s n) as [a s' n'|k s' n'|]; cbn in *; auto; specialize (H2 s' n'); destruct (h s' n'); cbn in *; subst; auto. Qed.
Lemma rehash_body_calls (t : table) na m n : ArrOK c (hid t) (arr t) -> calls (unchecked_rehash_body c (t, na, m) n) n (2 * nel t).
Proof.
  intros H. unfold unchecked_rehash_body. apply calls_0then.
  - unfold rehash_loop. apply calls_on_exn.
    + apply (for_all_calls (fun s : @RS K V => arr (rs_tab s)) _ 2 (hid t) (t, na, m) n); [exact H|apply cb_transfer|intros; apply ak_gk, ak_transfer].
    + apply nc_bind; [apply nc_get|intros s]. apply nc_bind.
      * destruct (Nat.eqb (snd s) 0); [apply nc_ret|]. apply nc_bind; [|intro; apply nc_ret]. apply nc_while. intros g i. apply nc_bind; [apply nc_on_tab, nc_recover|intro].
        apply nc_bind; [apply nc_modify|intro]. apply nc_bind; [apply nc_get|intro; apply nc_ret].
      * intro. apply nc_bind; [apply nc_for_all; intros; apply nc_on_new, nc_destroy|intro]. apply nc_bind; [apply nc_get|intro; apply nc_delete].
  - intro. apply nc_bind; [apply nc_get|intros s]. apply nc_bind.
    + destruct (negb _); [|apply nc_ret]. apply nc_for_all. intros. apply nc_on_tab, nc_on_arr, nc_destroy.
    + intro. apply nc_bind; [apply nc_get|intro]. apply nc_bind; [apply nc_delete|intro; apply nc_modify].
Qed.
Lemma with_new_calls {A} na (m : M (@RS K V) A) t n d : calls (m (t, na, O) n) n d -> calls (with_new na m t n) n d.
Proof. unfold with_new. destruct (m (t, na, 0) n); cbn; auto. Qed.
Lemma new_arrays_same {St} al r s n a s' n' : new_arrays (St:=St) c al r s n = Ret a s' n' -> s' = s.
Proof.
  unfold new_arrays. destruct (r =? 0)%N; [intros [= _ <- _]; reflexivity|]. destruct (2 ^ 64 <=? r)%N; [discriminate|]. destruct (negb _); [discriminate|]. destruct (gmax c <? _)%N; [discriminate|].
  unfold bind, tick. destruct (throws c KAlloc n); [discriminate|]. intros E. unfold ret in E. injection E as _ <- _. reflexivity.
Qed.
Lemma unchecked_rehash_calls (t : table) r n : ArrOK c (hid t) (arr t) -> calls (unchecked_rehash c r t n) n (1 + 2 * nel t).
Proof.
  intros H. unfold unchecked_rehash. rewrite bind_get. apply calls_bind; [apply cb_new|]. intros na t' n' E. apply new_arrays_same in E as ->. apply with_new_calls, rehash_body_calls, H.
Qed.
Lemma rehash_calls (t : table) r n : ArrOK c (hid t) (arr t) -> calls (rehash c r t n) n (1 + 2 * nel t).
Proof. intros H. unfold rehash. rewrite bind_get. destruct (negb _); [exact I|]. destruct (negb _); [apply unchecked_rehash_calls, H|apply calls_ret]. Qed.
Lemma reserve_calls (t : table) r n : ArrOK c (hid t) (arr t) -> calls (reserve c r t n) n (1 + 2 * nel t).
Proof. intros H. unfold reserve. destruct (negb _); [exact I|apply rehash_calls, H]. Qed.
Lemma emplace_with_rehash_calls (t : table) kd hash e n : ArrOK c (hid t) (arr t) -> calls (unchecked_emplace_with_rehash c kd hash e t n) n (2 + 2 * nel t).
Proof.
  intros H. unfold unchecked_emplace_with_rehash. rewrite bind_get. apply (calls_bind _ _ t n 1 (1 + 2 * nel t)); [apply cb_new|]. intros na t' n' E. apply new_arrays_same in E as ->.
  apply calls_0then; [|intro; apply nc_bind; [apply nc_modify|intro; apply nc_ret]]. apply with_new_calls. apply calls_bind.
  - apply calls_on_exn; [apply cb_lens, cb_nosize|]. apply nc_bind; [apply nc_get|intro; apply nc_delete].
  - intros l s' n2 E. assert (rs_tab s' = t) as Et.
    { unfold on_exn in E. unfold on_new, lens in E. destruct (nosize_unchecked_emplace_at _ _ _ _ _ _ _) as [x na' m'|k na' m'|].
      - injection E as _ <- _. reflexivity.
      - match type of E with match ?h with _ => _ end = _ => destruct h; discriminate end.
      - discriminate. }
    apply calls_0then; [|intro; apply nc_ret]. destruct s' as [[t2 na2] m2]. cbn in Et. subst t2. apply rehash_body_calls, H.
Qed.
(** *** insertion *)
Definition present (t : table) (k : K) : Prop := exists x, In x (elems (arr t)) /\ keqf c (pid t) k (fst x) = true.
Lemma emplace_impl_calls (t : table) kd e n : Inv c t ->
  calls (emplace_impl c kd e t n) n (if (sz t <? ml t)%N then 2 + nel t else 3 + 3 * nel t) /\
  (present t (fst e) -> calls (emplace_impl c kd e t n) n (1 + nel t) /\ throws_only (emplace_impl c kd e t n) (fun k => k = KHash \/ k = KEq)).
Proof.
  intros H. unfold emplace_impl. rewrite bind_get. split.
  - assert (forall d, d = 1 + nel t + (if (sz t <? ml t)%N then 1 else 2 + 2 * nel t) -> d = (if (sz t <? ml t)%N then 2 + nel t else 3 + 3 * nel t)) as D by (intros d ->; destruct (_ <? _)%N; lia).
    rewrite <- (D _ eq_refl), <- Nat.add_assoc. apply calls_bind; [apply cb_hash|]. intros h s' n' E. apply hash_for_ret in E as (-> & -> & ->).
    apply calls_bind; [apply find_at_calls, H|]. intros loc s2 n2 E2.
    assert (s2 = t) as ->.
    { pose proof (find_at_ok c t (fst e) t (S n) H) as X. cbv zeta in X. rewrite E2 in X. apply X. }
    destruct loc as [l|]; [apply calls_ret|]. destruct (sz t <? ml t)%N.
    + apply calls_0then; [apply cb_unchecked_emplace|intro; apply nc_ret].
    + apply calls_0then; [apply emplace_with_rehash_calls, H|intro; apply nc_ret].
  - intros (x & Ix & Ex). 
    pose proof (find_at_ok c t (fst e) t (S n) H) as X. pose proof (find_at_calls t (fst e) t (S n) H) as Y. cbv zeta in X.
    unfold hash_for, bind, tick, ret. destruct (throws c KHash n); [split; cbn; [lia|auto]|].
    destruct (find_at c t (fst e) _ _ t (S n)) as [loc s2 n2|k s2 n2|]; cbn in X, Y; [|split; cbn; [lia|right; apply X]|contradiction].
    destruct X as [-> X]. destruct loc as [l|]; [split; cbn; [lia|exact I]|]. exfalso. cbn in X. specialize (X _ Ix). congruence.
Qed.
End C.
