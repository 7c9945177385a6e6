(** The instrumented functions of FcaMem.v: dropping the log gives FcaModel.v back, and the log balances. *)
From Coq Require Import NArith ZArith Bool List Arith Lia Permutation.
From Verif Require Import FloatModel HashArithModel FoaModel FcaLinks FcaModel FcaIter FcaSpec FcaWorld MemSpec FcaMem FcaMemKeep.
From Verif Require FoaMem FoaMemKeep FoaMemProofs.
Import ListNotations.
Local Open Scope m_scope.

Notation Live := FoaMemProofs.Live.
Notation ok := FoaMemProofs.ok.
Notation ok_bind := FoaMemProofs.ok_bind.
Notation ok_get := FoaMemProofs.ok_get.
Notation ok_ret := FoaMemProofs.ok_ret.
Notation ok_quiet := FoaMemProofs.ok_quiet.
Notation ok_modify := FoaMemProofs.ok_modify.
Notation ok_on_exn := FoaMemProofs.ok_on_exn.
Notation live_perm := FoaMemProofs.live_perm.

Section Proofs.
Context {K V : Type} (c : FCfg K V).
Notation node := (node K V).
Notation barray := (barray K V).
Notation table := (FcaModel.table K V).
Notation cb := (base c).
Notation St := (table * heap)%type.
Notation RSt := (St * barray)%type.
Notation St2 := ((table * table) * heap)%type.
Notation blocks := (list (N * N)).

(** the blocks of arrays of a given shape *)
Definition owns (s : N * nat) : blocks :=
  if Nat.eqb (snd s) 0 then [] else [(for_buckets (fst s), buckets_len (snd s)); (for_groups (fst s), groups_len (snd s))].
Definition block (t : table) : blocks := owns (tsh t).

Lemma prime_pos i szN : fca_size i = Some szN -> N.to_nat szN <> 0%nat.
Proof.
  intros H. unfold fca_size in H. apply nth_error_In in H.
  assert (forallb (fun x => negb (N.eqb x 0)) sizes = true) as X by (vm_compute; reflexivity).
  rewrite forallb_forall in X. specialize (X _ H). destruct (N.eqb_spec szN 0); [discriminate|]. lia.
Qed.
Lemma ok_new {X} al m (W : X -> blocks) s log n : Live log (W s) ->
  ok (fun b s => owns (bsh b) ++ W s) W (new_barray c al m s n) (new_barray' c al m (s, log) n).
Proof.
  intros H. unfold new_barray, new_barray'. destruct (N.eqb m 0); [cbn; auto|]. cbv zeta.
  destruct (fca_size (fca_size_index m)) as [szN|] eqn:E; [|exact I]. pose proof (prime_pos _ _ E) as Hp.
  clear E. generalize (fca_size_index m). intros idx.
  unfold FoaMem.quiet, bind, lens, tick, of_option, on_exn, FoaMem.emit, modify, ret. cbv beta iota. cbn [fst snd].
  generalize dependent (N.to_nat szN). intros sz Hp.
  destruct (throws cb KAlloc n) eqn:T1; [cbn; auto|]. cbn [fst snd].
  destruct (throws cb KAlloc (S n)) eqn:T2.
  - cbn [ok fst snd]. (repeat split). apply FoaMemProofs.live_free. apply FoaMemProofs.live_alloc. exact H.
  - destruct (new_groups sz) as [gs|]; [|exact I]. cbn [ok fst snd]. (repeat split).
    unfold owns, bsh. cbn [fst snd b_own b_size]. destruct (Nat.eqb_spec sz 0) as [Z|Z]; [contradiction|].
    eapply live_perm; [apply FoaMemProofs.live_alloc, FoaMemProofs.live_alloc; exact H|]. cbn. apply perm_swap.
Qed.
Lemma new_same {X} al m (s : X) n b s1 n1 : new_barray c al m s n = Ret b s1 n1 -> s1 = s.
Proof.
  unfold new_barray. destruct (N.eqb m 0); [intros [=]; auto|]. cbv zeta. destruct (fca_size _) as [szN|]; [|discriminate].
  unfold of_option, bind, tick, ret. destruct (throws cb KAlloc n); [discriminate|]. destruct (throws cb KAlloc (S n)); [discriminate|].
  destruct (new_groups _); [|discriminate]. intros [=]; auto.
Qed.
Lemma ok_del {X} al (b : barray) (W : X -> blocks) WE s log n : Live log (owns (bsh b) ++ W s) ->
  ok (fun _ s => W s) WE (of_option (b_dealloc al b) s n) (b_dealloc' al b (s, log) n).
Proof.
  intros H. unfold b_dealloc', b_dealloc. unfold owns, bsh in H. cbn [fst snd] in H. destruct (Nat.eqb (b_size b) 0) eqn:E; [cbn; auto|].
  destruct (N.eqb (b_own b) al) eqn:E2; [|exact I]. apply N.eqb_eq in E2. destruct (forallb is_nil (b_chains b)); [|exact I]. cbn. (repeat split).
  rewrite E2 in H. apply FoaMemProofs.live_free. apply FoaMemProofs.live_free. exact H.
Qed.
Lemma ok_opt {X A} W WE (o : option A) (s : X) log n : Live log (W s) -> ok (fun _ => W) WE (of_option o s n) (of_option o (s, log) n).
Proof. intros H. destruct o; cbn; auto. Qed.

(** *** One container, frame r *)
Definition fine {A} (m : M St A) (m' : M (L St) A) : Prop := forall r s log n, Live log (block (fst s) ++ r) ->
  ok (fun _ s => block (fst s) ++ r) (fun s => block (fst s) ++ r) (m s n) (m' (s, log) n).
Lemma fine_bind {A B} (m : M St A) m' (f : A -> M St B) f' : fine m m' -> (forall a, fine (f a) (f' a)) -> fine (bind m f) (bind m' f').
Proof. intros H Hf r t log n Hl. eapply ok_bind; [apply H; exact Hl|]. intros a s1 log1 n1 _ H1. apply Hf. exact H1. Qed.
Lemma fine_get_t : fine (@get_t K V) get_t'.
Proof. intros r t log n Hl. apply (ok_ret (fun _ s => block (fst s) ++ r)). exact Hl. Qed.
Lemma fine_ret {A} (a : A) : fine (ret a) (ret a). Proof. intros r t log n Hl. apply ok_ret. exact Hl. Qed.
Lemma fine_undef {A} : fine (A:=A) undef undef. Proof. intros r t log n Hl. exact I. Qed.
Lemma fine_opt {A} (o : option A) : fine (of_option o) (of_option o). Proof. destruct o; [apply fine_ret|apply fine_undef]. Qed.
Lemma fine_quiet {A} (m : M St A) : keeps sh m -> fine m (quiet m).
Proof. intros Hk r t log n Hl. apply (ok_quiet sh (fun s => owns s ++ r) m t log n Hk Hl). Qed.
Lemma fine_on_exn {A} (m : M St A) m' h h' : fine m m' -> fine h h' -> fine (on_exn m h) (on_exn m' h').
Proof. intros H Hh r t log n Hl. eapply ok_on_exn; [apply H; exact Hl|]. intros k s1 log1 n1 _ H1. apply (Hh r). exact H1. Qed.

(** *** Rehashing *)
Definition rw (r : blocks) (x : (N * nat) * (N * nat)) : blocks := owns (fst x) ++ owns (snd x) ++ r.
Definition rehash_body (t : table) : M RSt unit :=
  on_exn (transfer_all c (seq 0 (b_size (f_b t))))
    (s <- get ;;
     it <- of_option (b_begin (snd s)) ;;
     delete_transferred (S (b_size (snd s))) it ;;;
     on_st (on_b (@b_unlink_empty K V)) ;;;
     s <- get ;;
     of_option (b_dealloc (f_al t) (snd s)) ;;; ret tt) ;;;
  s <- get ;;
  of_option (b_dealloc (f_al t) (f_b (fst (fst s)))) ;;;
  modify (fun s : RSt => ((recalc (set_b (snd s) (fst (fst s))), snd (fst s)), b_null (f_al t))).
Lemma rehash_impl_eq n : rehash_impl c n =
  (t <- @get_t K V ;; nb <- new_barray c (f_al t) n ;;
   fun s m => match rehash_body t (s, nb) m with Ret a s' m' => Ret a (fst s') m' | Exn k s' m' => Exn k (fst s') m' | Undef => Undef end).
Proof. reflexivity. Qed.
Lemma ok_body r t s log n : Live log (rw r (rsh s)) ->
  ok (fun _ s => block (fst (fst s)) ++ r) (fun s => block (fst (fst s)) ++ r) (rehash_body t s n) (rehash_body' c t (s, log) n).
Proof.
  intros H. unfold rehash_body, rehash_body'. eapply ok_bind with (WR1 := fun _ s => rw r (rsh s)).
  - eapply ok_on_exn with (WE2 := fun s => rw r (rsh s)); [apply (ok_quiet rsh (rw r)); [apply keeps_ta|exact H]|].
    intros k s1 log1 n1 _ H1. apply ok_get. cbn [fst snd]. eapply ok_bind; [apply (ok_opt (fun s => rw r (rsh s))); exact H1|].
    intros it s2 log2 n2 _ H2. cbv beta in H2. eapply ok_bind; [apply (ok_quiet rsh (rw r)); [apply keeps_dt|exact H2]|].
    intros u s3 log3 n3 _ H3. cbv beta in H3. eapply ok_bind; [apply (ok_quiet rsh (rw r)); [apply keeps_on_st, keeps_on_b; intros; now apply bue_keep|exact H3]|].
    intros u2 s4 log4 n4 _ H4. cbv beta in H4. apply ok_get. cbn [fst snd].
    eapply ok_bind; [apply (ok_del _ _ (fun s => block (fst (fst s)) ++ r))|].
    + eapply live_perm; [exact H4|]. unfold rw, rsh. cbn [fst snd]. rewrite !app_assoc. apply Permutation_app_tail, Permutation_app_comm.
    + intros u5 s5 log5 n5 _ H5. apply ok_ret. exact H5.
  - intros u s1 log1 n1 _ H1. cbv beta in H1. apply ok_get. cbn [fst snd].
    eapply ok_bind; [apply (ok_del _ _ (fun s => owns (bsh (snd s)) ++ r)); exact H1|].
    intros u2 s2 log2 n2 _ H2. cbv beta in H2. apply ok_modify. exact H2.
Qed.
Lemma ok_local r (nb : barray) (m : M RSt unit) (m' : M (L RSt) unit) (s : St) log n :
  ok (fun _ s => block (fst (fst s)) ++ r) (fun s => block (fst (fst s)) ++ r) (m (s, nb) n) (m' ((s, nb), log) n) ->
  ok (fun _ s => block (fst s) ++ r) (fun s => block (fst s) ++ r)
     (match m (s, nb) n with Ret a s' m' => Ret a (fst s') m' | Exn k s' m' => Exn k (fst s') m' | Undef => Undef end)
     (match m' ((s, nb), log) n with Ret a s' m' => Ret a (fst (fst s'), snd s') m' | Exn k s' m' => Exn k (fst (fst s'), snd s') m' | Undef => Undef end).
Proof.
  intros H. destruct (m (s, nb) n) as [a s1 n1|k s1 n1|], (m' (s, nb, log) n) as [a' [q ql] n'|k' [q ql] n'|]; cbn in *; try contradiction; auto;
    destruct H as (-> & -> & -> & H); (repeat split); exact H.
Qed.
Lemma fine_rehash_impl n : fine (rehash_impl c n) (rehash_impl' c n).
Proof.
  intros r s log m Hl. rewrite rehash_impl_eq. unfold rehash_impl', get_t.
  change (ok (fun _ s => block (fst s) ++ r) (fun s => block (fst s) ++ r)
    ((nb <- new_barray c (f_al (fst s)) n ;; fun q m => match rehash_body (fst s) (q, nb) m with Ret a s' m' => Ret a (fst s') m' | Exn k s' m' => Exn k (fst s') m' | Undef => Undef end) s m)
    ((nb <- new_barray' c (f_al (fst s)) n ;; fun q m => match rehash_body' c (fst s) ((fst q, nb), snd q) m with Ret a s' m' => Ret a (fst (fst s'), snd s') m' | Exn k s' m' => Exn k (fst (fst s'), snd s') m' | Undef => Undef end) (s, log) m)).
  eapply ok_bind; [apply (ok_new _ _ (fun s => block (fst s) ++ r)); exact Hl|].
  intros nb s1 log1 n1 E H1. pose proof (new_same _ _ _ _ _ _ _ E) as ->. cbv beta in H1. cbn [fst snd]. apply ok_local. apply ok_body.
  eapply live_perm; [exact H1|]. unfold rw, rsh. cbn [fst snd]. rewrite !app_assoc. apply Permutation_app_tail, Permutation_app_comm.
Qed.

Create HintDb fin.
Hint Resolve fine_get_t fine_ret fine_undef fine_opt fine_rehash_impl : fin.
Hint Extern 1 (fine _ (FoaMem.quiet _)) => apply fine_quiet : fin.
Hint Extern 2 (fine (bind _ _) (bind _ _)) => apply fine_bind; [|intro] : fin.
Hint Extern 2 (fine (on_exn _ _) (on_exn _ _)) => apply fine_on_exn : fin.
Hint Extern 3 (fine (match ?x with _ => _ end) (match ?x with _ => _ end)) => destruct x : fin.
Hint Resolve keeps_tick keeps_hash keeps_fni keeps_nn keeps_dn keeps_hm keeps_av keeps_inr keeps_df keeps_clear keeps_cn keeps_deref keeps_ia : fin.
Hint Extern 2 (FoaMemKeep.keeps sh (mod_t _)) => apply keeps_mod_t; reflexivity : fin.
Hint Extern 2 (FoaMemKeep.keeps sh (on_b _)) => apply keeps_on_b; intros ? ? ?; eauto using in_keep, inh_keep : fin.
Ltac fn := auto 60 with fin.

Lemma fine_rehash n : fine (rehash c n) (rehash' c n). Proof. unfold rehash, rehash'. fn. Qed.
Hint Resolve fine_rehash : fin.
Lemma fine_reserve n : fine (reserve c n) (reserve' c n). Proof. unfold reserve, reserve'. fn. Qed.
Lemma fine_rfi n : fine (reserve_for_insert c n) (reserve_for_insert' c n).
Proof. unfold reserve_for_insert, reserve_for_insert'. cbv zeta. fn. Qed.
Hint Resolve fine_reserve fine_rfi : fin.
Lemma fine_gfo h b : fine (grow_for_one c h b) (grow_for_one' c h b). Proof. unfold grow_for_one, grow_for_one'. fn. Qed.
Hint Resolve fine_gfo : fin.
Lemma fine_gi x h b : fine (grow_insert c x h b) (grow_insert' c x h b). Proof. unfold grow_insert, grow_insert'. fn. Qed.
Hint Resolve fine_gi : fin.
Lemma fine_euk kd e : fine (emplace_unique_key c kd e) (emplace_unique_key' c kd e). Proof. unfold emplace_unique_key, emplace_unique_key'. fn. Qed.
Lemma fine_eun kd e : fine (emplace_unique_nokey c kd e) (emplace_unique_nokey' c kd e). Proof. unfold emplace_unique_nokey, emplace_unique_nokey'. fn. Qed.
Hint Resolve fine_euk fine_eun : fin.
Lemma fine_eu kf kd e : fine (emplace_unique c kf kd e) (emplace_unique' c kf kd e). Proof. unfold emplace_unique, emplace_unique'. fn. Qed.
Lemma fine_ehu kf h e : fine (emplace_hint_unique c kf h e) (emplace_hint_unique' c kf h e). Proof. unfold emplace_hint_unique, emplace_hint_unique'. fn. Qed.
Lemma fine_ioa k v : fine (insert_or_assign_unique c k v) (insert_or_assign_unique' c k v). Proof. unfold insert_or_assign_unique, insert_or_assign_unique'. fn. Qed.
Lemma fine_iru l : fine (insert_range_unique c l) (insert_range_unique' c l).
Proof. induction l as [|e l IH]; cbn [insert_range_unique insert_range_unique']; fn. Qed.
Hint Resolve fine_eu fine_ehu fine_ioa fine_iru : fin.
Lemma fine_ee x : fine (emplace_equiv c x) (emplace_equiv' c x). Proof. unfold emplace_equiv, emplace_equiv'. fn. Qed.
Lemma fine_ehe h x : fine (emplace_hint_equiv c h x) (emplace_hint_equiv' c h x). Proof. unfold emplace_hint_equiv, emplace_hint_equiv'. cbv zeta. fn. Qed.
Hint Resolve fine_ee fine_ehe : fin.
Lemma fine_iee l : fine (insert_each_equiv c l) (insert_each_equiv' c l).
Proof. induction l as [|e l IH]; cbn [insert_each_equiv insert_each_equiv']; fn. Qed.
Hint Resolve fine_iee : fin.
Lemma fine_ire fwd l : fine (insert_range_equiv c fwd l) (insert_range_equiv' c fwd l). Proof. unfold insert_range_equiv, insert_range_equiv'. fn. Qed.
Hint Resolve fine_ire : fin.
Lemma fine_db : fine (@delete_buckets K V) delete_buckets'.
Proof.
  unfold delete_buckets, delete_buckets'. apply fine_bind; [fn|]. intros t. apply fine_bind; [fn|]. intros it. apply fine_bind; [fn|]. intros _.
  intros r s log n Hl. unfold get_t, get_t'.
  change (ok (fun _ s => block (fst s) ++ r) (fun s => block (fst s) ++ r)
    ((of_option (b_dealloc (f_al (fst s)) (f_b (fst s))) ;;; mod_t (fun t => set_b (b_null (f_al t)) t)) s n)
    ((b_dealloc' (f_al (fst s)) (f_b (fst s)) ;;; quiet (mod_t (fun t => set_b (b_null (f_al t)) t))) (s, log) n)).
  eapply ok_bind; [apply (ok_del _ _ (fun _ => r)); exact Hl|]. intros u s1 log1 n1 _ H1. cbv beta in H1. unfold mod_t. apply ok_modify. exact H1.
Qed.
Hint Resolve fine_db : fin.
Lemma fine_ihu x : fine (insert_handle_unique c x) (insert_handle_unique' c x). Proof. unfold insert_handle_unique, insert_handle_unique'. fn. Qed.
Lemma fine_ihhu h x : fine (insert_handle_hint_unique c h x) (insert_handle_hint_unique' c h x). Proof. unfold insert_handle_hint_unique, insert_handle_hint_unique'. fn. Qed.
Lemma fine_ihe x : fine (insert_handle_equiv c x) (insert_handle_equiv' c x). Proof. unfold insert_handle_equiv, insert_handle_equiv'. fn. Qed.
Lemma fine_ihhe h x : fine (insert_handle_hint_equiv c h x) (insert_handle_hint_equiv' c h x). Proof. unfold insert_handle_hint_equiv, insert_handle_hint_equiv'. fn. Qed.
Hint Resolve fine_ihu fine_ihhu fine_ihe fine_ihhe : fin.
Lemma fine_ih h x : fine (insert_handle c h x) (insert_handle' c h x).
Proof. unfold insert_handle, insert_handle'. destruct (multi c), h; fn. Qed.
Hint Resolve fine_ih : fin.
Lemma fine_cb x : fine (copy_buckets c x) (copy_buckets' c x). Proof. unfold copy_buckets, copy_buckets'. fn. Qed.
Hint Resolve fine_cb : fin.
Lemma fine_an x : fine (assign_noprop c x) (assign_noprop' c x). Proof. unfold assign_noprop, assign_noprop'. fn. Qed.
Hint Resolve fine_an : fin.

(** destroying throws nothing *)
Notation calm := FoaMemProofs.calm.
Create HintDb clm.
Hint Resolve FoaMemProofs.calm_ret FoaMemProofs.calm_get FoaMemProofs.calm_undef FoaMemProofs.calm_modify : clm.
Hint Extern 2 (FoaMemProofs.calm (bind _ _)) => apply FoaMemProofs.calm_bind; [|intro] : clm.
Hint Extern 3 (FoaMemProofs.calm (match ?x with _ => _ end)) => destruct x : clm.
Lemma calm_opt {X A} (o : option A) : calm (St:=X) (of_option o). Proof. destruct o; cbn [of_option]; auto with clm. Qed.
Hint Resolve calm_opt : clm.
Lemma calm_db : calm (@delete_buckets K V).
Proof.
  assert (forall f (p : eit), calm (delete_from (K:=K) (V:=V) f p)) as H.
  { induction f as [|f IH]; intros p; cbn [delete_from]; unfold get_t, on_b, delete_node, mod_t, mod_h, get_t; auto 40 with clm. }
  unfold delete_buckets, get_t, mod_t. auto 40 with clm.
Qed.
Lemma ok_db r WE (s : St) log n : Live log (block (fst s) ++ r) -> ok (fun _ _ => r) WE (@delete_buckets K V s n) (delete_buckets' (s, log) n).
Proof.
  intros Hl. eapply FoaMemProofs.ok_calm; [|apply calm_db].
  eapply FoaMemProofs.ok_conv; [apply (fine_db r); exact Hl| |intros; reflexivity].
  intros a s1 n1 E. enough (block (fst s1) = []) as X by (cbv beta; rewrite X; reflexivity).
  unfold delete_buckets, get_t in E. unfold bind in E. cbn [get ret] in E.
  destruct (of_option (e_begin (fst s)) s n) as [it s2 n2| |] eqn:E1; [|discriminate|discriminate].
  destruct (delete_from (fuel_of (fst s)) it s2 n2) as [u s3 n3| |]; [|discriminate|discriminate].
  destruct (of_option _ s3 n3) as [u4 s4 n4| |]; [|discriminate|discriminate].
  unfold mod_t, modify in E. injection E as _ <- _. reflexivity.
Qed.

Lemma fine_copy_assign x : fine (copy_assign c x) (copy_assign' c x).
Proof.
  unfold copy_assign, copy_assign'. apply fine_bind; [fn|]. intros t. destruct (pocca cb); [|fn]. destruct (N.eqb (f_al t) (f_al x)); [fn|].
  intros r s log n Hl. eapply ok_bind; [apply (ok_new _ _ (fun s => block (fst s) ++ r)); exact Hl|].
  intros nb s1 log1 n1 _ H1. cbv beta in H1.
  eapply ok_bind with (WR1 := fun _ s => block (fst s) ++ owns (bsh nb) ++ r).
  { unfold mod_t. apply ok_modify. cbn [fst]. eapply live_perm; [exact H1|]. unfold block, tsh. cbn. rewrite !app_assoc. apply Permutation_app_tail, Permutation_app_comm. }
  intros u2 s2 log2 n2 _ H2. cbv beta in H2.
  eapply ok_bind; [apply (ok_db (owns (bsh nb) ++ r)); exact H2|]. intros u3 s3 log3 n3 _ H3. cbv beta in H3.
  eapply ok_bind with (WR1 := fun _ s => block (fst s) ++ r); [unfold mod_t; apply ok_modify; exact H3|].
  intros u4 s4 log4 n4 _ H4. cbv beta in H4. revert H4.
  apply (fine_bind (mod_t (set_mlf (f_mlf x))) (quiet (mod_t (set_mlf (f_mlf x)))) (fun _ => reserve c (f_size x) ;;; (if N.ltb 0 (f_size x) then copy_buckets c x else ret tt))
     (fun _ => reserve' c (f_size x) ;;; (if N.ltb 0 (f_size x) then copy_buckets' c x else ret tt))); fn.
Qed.
Hint Resolve fine_copy_assign : fin.

Lemma fine_exec1 o : fine (exec1 c o) (exec1' c o).
Proof.
  pose proof (keeps_exec1 c o) as Hk.
  destruct o; try (apply fine_quiet; exact Hk); cbn [exec1 exec1']; clear Hk.
  7: { apply fine_bind; [apply fine_rehash|intro; apply fine_ret]. }
  all: fn.
Qed.

(** *** Two containers *)
Definition pw (r : blocks) (s : St2) : blocks := block (fst (fst s)) ++ block (snd (fst s)) ++ r.
Definition pfine {A} (m : M St2 A) (m' : M (L St2) A) : Prop := forall r s log n, Live log (pw r s) ->
  ok (fun _ => pw r) (pw r) (m s n) (m' (s, log) n).
Lemma pfine_bind {A B} (m : M St2 A) m' (f : A -> M St2 B) f' : pfine m m' -> (forall a, pfine (f a) (f' a)) -> pfine (bind m f) (bind m' f').
Proof. intros H Hf r t log n Hl. eapply ok_bind; [apply H; exact Hl|]. intros a s1 log1 n1 _ H1. apply Hf. exact H1. Qed.
Lemma pfine_get2 : pfine (@get2 K V) get2'.
Proof. intros r t log n Hl. apply (ok_ret (fun _ => pw r)). exact Hl. Qed.
Lemma pfine_ret {A} (a : A) : pfine (ret a) (ret a). Proof. intros r t log n Hl. apply ok_ret. exact Hl. Qed.
Lemma pfine_undef {A} : pfine (A:=A) undef undef. Proof. intros r t log n Hl. exact I. Qed.
Lemma pfine_opt {A} (o : option A) : pfine (of_option o) (of_option o). Proof. destruct o; [apply pfine_ret|apply pfine_undef]. Qed.
Lemma pfine_quiet {A} (m : M St2 A) : keeps psh m -> pfine m (quiet m).
Proof. intros Hk r t log n Hl. apply (ok_quiet psh (fun s => owns (fst s) ++ owns (snd s) ++ r) m t log n Hk Hl). Qed.
Lemma pfine_on1 {A} (m : M St A) m' : fine m m' -> pfine (on1 m) (on1' m').
Proof.
  intros H r s log n Hl. unfold on1, on1'. eapply FoaMemProofs.ok_lens; [apply (H (block (snd (fst s)) ++ r)); exact Hl| |]; intros; reflexivity.
Qed.
Hint Resolve pfine_get2 pfine_ret pfine_undef pfine_opt pfine_on1 : fin.
Hint Extern 1 (pfine _ (FoaMem.quiet _)) => apply pfine_quiet : fin.
Hint Extern 2 (pfine (bind _ _) (bind _ _)) => apply pfine_bind; [|intro] : fin.
Hint Extern 3 (pfine (match ?x with _ => _ end) (match ?x with _ => _ end)) => destruct x : fin.
Hint Resolve keeps_mnf keeps_man keeps_mf keeps_on1 keeps_on2 keeps_ea : fin.
Lemma pfine_mmf fuel : pfine (merge_multi_from c fuel) (merge_multi_from' c fuel).
Proof. induction fuel as [|f IH]; cbn [merge_multi_from merge_multi_from']; fn. Qed.
Hint Resolve pfine_mmf : fin.
Lemma pfine_mu : pfine (merge_unique c) (merge_unique' c).
Proof. unfold merge_unique, merge_unique'. fn. Qed.
Hint Resolve pfine_mu : fin.
Lemma pfine_merge : pfine (merge c) (merge' c).
Proof. unfold merge, merge'. fn. Qed.

Lemma pfine_move_assign : pfine (move_assign c) (move_assign' c).
Proof.
  unfold move_assign, move_assign'. intros r s log n Hl.
  change (bind (@get2 K V) ?f s n) with (f (fst s) s n). change (bind (@get2' K V) ?f (s, log) n) with (f (fst s) (s, log) n). cbv beta.
  destruct s as [[t x] h]. cbn [fst snd]. destruct (pocma cb || N.eqb (f_al t) (f_al x)).
  - eapply ok_bind with (WR1 := fun _ s => block x ++ r).
    + unfold on1, on1'. eapply FoaMemProofs.ok_lens with (WR := fun _ _ => block x ++ r) (WE := fun s => block (fst s) ++ block x ++ r).
      * eapply ok_bind with (WR1 := fun _ s => block (fst s) ++ block x ++ r); [unfold mod_t; apply ok_modify; exact Hl|].
        intros u s1 log1 n1 _ H1. apply (ok_db (block x ++ r)). exact H1.
      * intros; reflexivity.
      * intros; reflexivity.
    + intros u s1 log1 n1 _ H1. cbv beta in H1. cbn. (repeat split). exact H1.
  - cbn [snd] in *. revert Hl. 
    apply (pfine_bind _ _ (fun _ => it <- of_option (e_begin x) ;; move_assign_nodes c (fuel_of x) it)
       (fun _ => it <- of_option (e_begin x) ;; quiet (move_assign_nodes c (fuel_of x) it))); [apply pfine_on1|intros _]; fn.
Qed.

(** *** Constructors and the destructor *)
Lemma ok_mk {X} f al m (W : X -> blocks) s log n : Live log (W s) -> (forall b, tsh (f b) = bsh b) ->
  ok (fun t s => block t ++ W s) W ((b <- new_barray c al m ;; ret (f b)) s n) ((b <- new_barray' c al m ;; ret (f b)) (s, log) n).
Proof.
  intros H Hf. eapply ok_bind; [apply (ok_new _ _ W); exact H|]. intros b s1 log1 n1 _ H1. cbv beta in H1. apply ok_ret. unfold block. rewrite Hf. exact H1.
Qed.
Lemma ok_construct (r : blocks) mk mk' (body : M St unit) body' h log n :
  ok (fun t _ => block t ++ r) (fun _ => r) (mk h n) (mk' (h, log) n) -> fine body body' ->
  ok (fun t _ => block t ++ r) (fun _ => r) (construct_then mk body h n) (construct_then' mk' body' (h, log) n).
Proof.
  intros H Hb. unfold construct_then, construct_then'.
  destruct (mk h n) as [t s1 n1|k s1 n1|], (mk' (h, log) n) as [t' [s1' l1] n1'|k' [s1' l1] n1'|]; cbn [FoaMemProofs.ok fst snd] in H; try contradiction; [|exact H|exact I].
  destruct H as (-> & -> & -> & H). specialize (Hb r (t, s1) l1 n1 H). cbn [fst snd].
  destruct (body (t, s1) n1) as [u q n2|k q n2|], (body' (t, s1, l1) n1) as [u' [q' l2] n2'|k' [q' l2] n2'|]; cbn [FoaMemProofs.ok fst snd] in Hb; try contradiction; [| |exact I].
  - destruct Hb as (_ & -> & -> & Hb). cbn. auto.
  - destruct Hb as (-> & -> & -> & Hb). unfold destroy_table, destroy_table'. pose proof (ok_db r (fun _ => r) q l2 n2 Hb) as Hd.
    destruct (delete_buckets q n2) as [v t3 n3|k3 t3 n3|], (delete_buckets' (q, l2) n2) as [v' [t3' l3] n3'|k3' [t3' l3] n3'|]; cbn [FoaMemProofs.ok fst snd] in *; try contradiction; auto.
    destruct Hd as (_ & -> & -> & Hd). auto.
Qed.
Lemma ok_copy_construct x al r h log n : Live log r ->
  ok (fun t _ => block t ++ r) (fun _ => r) (copy_construct c x al h n) (copy_construct' c x al (h, log) n).
Proof.
  intros H. unfold copy_construct, copy_construct'. apply ok_construct; [|fn]. apply (ok_mk _ _ _ (fun _ => r)); [exact H|reflexivity].
Qed.
Definition move_body (al : N) (x t : table) : M St2 unit :=
  if N.eqb al (f_al x) then
    of_option (b_dealloc al (f_b t)) ;;;
    put2 (FT (f_hid t) (f_pid t) al (f_size x) (f_mlf t) (f_ml x) (f_b x), emptied x)
  else if N.eqb (f_size x) 0 then ret tt
  else
    on1 (reserve c (f_size x)) ;;;
    it <- of_option (e_begin x) ;;
    move_nodes_from c (fuel_of x) it.
Lemma ok_move_body r al x t h log n : Live log (pw r ((t, x), h)) ->
  ok (fun _ => pw r) (pw r) (move_body al x t ((t, x), h) n) (move_body' c al x t (((t, x), h), log) n).
Proof.
  intros Hl. unfold move_body, move_body'. destruct (N.eqb al (f_al x)).
  - eapply ok_bind; [apply (ok_del _ _ (fun _ => block x ++ r)); exact Hl|]. intros u s1 log1 n1 _ H1. cbv beta in H1. cbn. (repeat split). exact H1.
  - destruct (N.eqb (f_size x) 0); [apply ok_ret; exact Hl|]. revert Hl.
    apply (pfine_bind _ _ (fun _ => it <- of_option (e_begin x) ;; move_nodes_from c (fuel_of x) it)
       (fun _ => it <- of_option (e_begin x) ;; quiet (move_nodes_from c (fuel_of x) it))); [apply pfine_on1|intros _]; fn.
Qed.
Lemma ok_move_al r al s log n : Live log (block (fst s) ++ r) ->
  ok (fun t s => block t ++ block (fst s) ++ r) (fun s => block (fst s) ++ r) (move_construct_al c al s n) (move_construct_al' c al (s, log) n).
Proof.
  intros Hl. unfold move_construct_al, move_construct_al'. destruct s as [x h]. cbn [fst snd] in *.
  pose proof (ok_mk (fun b : barray => recalc (FT (f_hid x) (f_pid x) al 0 (f_mlf x) 0 b)) al (bucket_count (f_b x)) (fun s => block (fst s) ++ r) (x, h) log n Hl (fun b => eq_refl)) as H.
  cbv beta in H. match type of H with FoaMemProofs.ok _ _ ?a ?b => destruct a as [t s1 n1|k s1 n1|] eqn:E, b as [t' [s1' l1] n1'|k' [s1' l1] n1'|] end;
    cbn [FoaMemProofs.ok fst snd] in H; try contradiction; [|exact H|exact I].
  destruct H as (-> & -> & -> & H).
  assert (s1 = (x, h)) as ->.
  { unfold bind in E. destruct (new_barray c al _ (x, h) n) as [b s2 n2| |] eqn:E2; [|discriminate|discriminate]. apply new_same in E2. unfold ret in E. injection E as _ <- _. exact E2. }
  cbn [fst snd] in *. pose proof (ok_move_body r al x t h l1 n1 H) as Hb.
  match goal with |- ok _ _ (match ?b with _ => _ end) _ => change b with (move_body al x t (t, x, h) n1) end.
  destruct (move_body al x t (t, x, h) n1) as [u q n2|k q n2|], (move_body' c al x t (t, x, h, l1) n1) as [u' [q' l2] n2'|k' [q' l2] n2'|]; cbn [FoaMemProofs.ok fst snd] in Hb; try contradiction; [| |exact I].
  - destruct Hb as (_ & -> & -> & Hb). cbn. auto.
  - destruct Hb as (-> & -> & -> & Hb). cbn [fst snd]. unfold destroy_table, destroy_table'. pose proof (ok_db (block (snd (fst q)) ++ r) (fun _ => r) (fst (fst q), snd q) l2 n2 Hb) as Hd.
    destruct (delete_buckets (fst (fst q), snd q) n2) as [v t3 n3|k3 t3 n3|], (delete_buckets' ((fst (fst q), snd q), l2) n2) as [v' [t3' l3] n3'|k3' [t3' l3] n3'|]; cbn [FoaMemProofs.ok fst snd] in *; try contradiction; auto.
    destruct Hd as (_ & -> & -> & Hd). auto.
Qed.

(** *** Programs *)
Notation mworld := (@mworld K V).
Definition held_tabs (l : list (option table)) : blocks := flat_map (fun o => match o with Some t => block t | None => [] end) l.
Definition held (w : mworld) : blocks := held_tabs (tabs w).
Lemma held_set l i t o : nth_error l i = Some (Some t) ->
  exists r, Permutation (held_tabs l) (block t ++ r) /\ Permutation (held_tabs (set l i o)) (match o with Some t' => block t' | None => [] end ++ r).
Proof.
  revert i. induction l as [|y l IH]; intros [|i] H; cbn [nth_error] in H; try discriminate.
  - injection H as ->. exists (held_tabs l). split; reflexivity.
  - destruct (IH i H) as (r & P1 & P2). exists ((match y with Some t => block t | None => [] end) ++ r).
    change (set (y :: l) (S i) o) with (y :: set l i o). unfold held_tabs in *. cbn [flat_map]. rewrite P1, P2. split; rewrite !app_assoc; apply Permutation_app_tail, Permutation_app_comm.
Qed.
Lemma held_frame l i t : nth_error l i = Some (Some t) -> exists r, Permutation (held_tabs l) (block t ++ r) /\
  forall o, Permutation (held_tabs (set l i o)) (match o with Some t' => block t' | None => [] end ++ r).
Proof.
  intros H. destruct (held_set l i t None H) as (r & P1 & P2). exists r. split; [exact P1|]. intros o.
  destruct (held_set l i t o H) as (r' & Q1 & Q2). rewrite Q2. apply Permutation_app_head. rewrite P1 in Q1. apply Permutation_app_inv_l in Q1. now symmetry.
Qed.
Lemma slot_nth (w : mworld) i t : slot w i = Some t -> nth_error (tabs w) i = Some (Some t).
Proof. unfold slot. destruct (nth_error (tabs w) i) as [o|]; [intros ->; reflexivity|discriminate]. Qed.
Lemma set_other {A} (l : list A) i j o x : i <> j -> nth_error l j = Some x -> nth_error (set l i o) j = Some x.
Proof. revert i j. induction l as [|y l IH]; intros [|i] [|j] N H; cbn in *; try discriminate; try congruence. apply IH; [congruence|exact H]. Qed.
Definition wfine {A} (m : M mworld A) (m' : M (L mworld) A) : Prop := forall w log n, Live log (held w) ->
  ok (fun _ => held) held (m w n) (m' (w, log) n).
Lemma wfine_bind {A B} (m : M mworld A) m' (f : A -> M mworld B) f' : wfine m m' -> (forall a, wfine (f a) (f' a)) -> wfine (bind m f) (bind m' f').
Proof. intros H Hf t log n Hl. eapply ok_bind; [apply H; exact Hl|]. intros a s1 log1 n1 _ H1. apply Hf. exact H1. Qed.
Lemma wfine_ret {A} (a : A) : wfine (ret a) (ret a). Proof. intros t log n Hl. apply ok_ret. exact Hl. Qed.
Lemma wfine_undef {A} : wfine (A:=A) undef undef. Proof. intros t log n Hl. exact I. Qed.
Lemma wfine_get {B} (f : mworld -> M mworld B) f' : (forall w log, wfine (f w) (f' (w, log))) -> wfine (bind get f) (bind get f').
Proof. intros Hf w log n Hl. apply ok_get. apply Hf. exact Hl. Qed.
Lemma wfine_opt {A} (o : option A) : wfine (of_option o) (of_option o). Proof. destruct o; [apply wfine_ret|apply wfine_undef]. Qed.
Lemma wfine_quiet {A} (m : M mworld A) : (forall w n, match m w n with Ret _ w' _ | Exn _ w' _ => Permutation (held w) (held w') | Undef => True end) -> wfine m (quiet m).
Proof.
  intros H w log n Hl. unfold FoaMem.quiet, lens. cbn [fst snd]. specialize (H w n). destruct (m w n); cbn; auto; (repeat split); eapply live_perm; eauto.
Qed.
Lemma ok_run1 {A} (X : A -> blocks) i (m : M St A) m' w log n :
  (forall r s log n, Live log (block (fst s) ++ r) -> ok (fun a s => X a ++ block (fst s) ++ r) (fun s => block (fst s) ++ r) (m s n) (m' (s, log) n)) ->
  Live log (held w) -> ok (fun a w => X a ++ held w) held (run1 i m w n) (run1' i m' (w, log) n).
Proof.
  intros H Hl. unfold run1, run1'. cbn [fst snd]. destruct (slot w i) as [t|] eqn:Es; [|exact I].
  destruct (held_frame (tabs w) i t (slot_nth _ _ _ Es)) as (r & P1 & P2). specialize (H r (t, hp w) log n (live_perm _ _ _ Hl P1)).
  destruct (m (t, hp w) n) as [a t1 n1|k t1 n1|], (m' (t, hp w, log) n) as [a' [t1' l1] n1'|k' [t1' l1] n1'|]; cbn [FoaMemProofs.ok fst snd] in *; try contradiction; auto;
    destruct H as (-> & -> & -> & H); (repeat split); (eapply live_perm; [exact H|]); unfold held, put_tab; cbn [tabs]; rewrite (P2 (Some (fst t1))); reflexivity.
Qed.
Lemma wfine_run1 {A} i (m : M St A) m' : fine m m' -> wfine (run1 i m) (run1' i m').
Proof. intros H w log n Hl. apply (ok_run1 (fun _ => []) i m m' w log n); [|exact Hl]. intros. apply H. assumption. Qed.
Lemma wfine_run2 {A} i j (m : M St2 A) m' : pfine m m' -> wfine (run2 i j m) (run2' i j m').
Proof.
  intros H w log n Hl. unfold run2, run2'. cbn [fst snd]. destruct (slot w i) as [t|] eqn:Si; [|exact I]. destruct (slot w j) as [x|] eqn:Sj; [|exact I].
  destruct (Nat.eqb i j) eqn:Eij; [exact I|]. apply Nat.eqb_neq in Eij. apply slot_nth in Si, Sj.
  assert (exists r, forall h, Permutation (held w) (pw r (t, x, h)) /\ forall t' x', Permutation (held_tabs (set (set (tabs w) i (Some t')) j (Some x'))) (pw r (t', x', h))) as (r & P).
  { destruct (held_frame _ i t Si) as (r1 & A1 & A2).
    pose proof (fun o => set_other (tabs w) i j o _ Eij Sj) as Sj'.
    destruct (held_frame _ j x (Sj' None)) as (r2 & B1 & B2). specialize (A2 None) as A3. cbn [app] in A3. rewrite A3 in B1.
    exists r2. intros h. split; [unfold pw, held; cbn [fst snd]; rewrite A1, B1; reflexivity|]. intros t' x'.
    destruct (held_frame _ j x (Sj' (Some t'))) as (r3 & C1 & C2). rewrite (C2 (Some x')). rewrite (A2 (Some t')) in C1. rewrite B1 in C1.
    assert (Permutation (block t' ++ r2) r3) as D.
    { apply (Permutation_app_inv_l (block x)). rewrite <- C1, !app_assoc. apply Permutation_app_tail, Permutation_app_comm. }
    unfold pw. cbn [fst snd]. rewrite <- D, !app_assoc. apply Permutation_app_tail, Permutation_app_comm. }
  destruct (P (hp w)) as [P1 P2].
  specialize (H r (t, x, hp w) log n (live_perm _ _ _ Hl P1)).
  destruct (m (t, x, hp w) n) as [a s1 n1|k s1 n1|], (m' (t, x, hp w, log) n) as [a' [s1' l1] n1'|k' [s1' l1] n1'|]; cbn [FoaMemProofs.ok fst snd] in *; try contradiction; auto;
    destruct H as (-> & -> & -> & H); (repeat split); (eapply live_perm; [exact H|]); unfold held, put_tab; cbn [tabs hands]; rewrite P2; reflexivity.
Qed.
Lemma ok_push t w log n : Live log (block t ++ held w) -> ok (fun _ => held) held ((push t ;;; ret (VUnit (K:=K) (V:=V))) w n) ((quiet (push t) ;;; ret VUnit) (w, log) n).
Proof.
  intros H. cbn. (repeat split). eapply live_perm; [exact H|]. unfold held, held_tabs. cbn. rewrite flat_map_app. cbn. rewrite app_nil_r. apply Permutation_app_comm.
Qed.
Lemma ok_run0 (m : M heap table) m' w log n :
  (forall r h log n, Live log r -> ok (fun t _ => block t ++ r) (fun _ => r) (m h n) (m' (h, log) n)) ->
  Live log (held w) -> ok (fun t w => block t ++ held w) held (run0 m w n) (run0' m' (w, log) n).
Proof.
  intros H Hl. specialize (H (held w) (hp w) log n Hl). unfold run0, run0', FoaMem.part, lens. cbn [fst snd].
  destruct (m (hp w) n) as [a h1 n1|k h1 n1|], (m' (hp w, log) n) as [a' [t1' l1] n1'|k' [t1' l1] n1'|]; cbn [FoaMemProofs.ok fst snd] in *; try contradiction; auto;
    destruct H as (-> & -> & -> & H); (repeat split); exact H.
Qed.
Lemma run1_held {A} i (m : M St A) w n : keeps sh m ->
  match run1 i m w n with Ret _ w' _ | Exn _ w' _ => Permutation (held w) (held w') | Undef => True end.
Proof.
  intros Hk. unfold run1. destruct (slot w i) as [t|] eqn:Es; [|exact I]. destruct (held_frame _ i t (slot_nth _ _ _ Es)) as (r & P1 & P2).
  specialize (Hk (t, hp w) n). destruct (m (t, hp w) n) as [a s1 n1|k s1 n1|]; [| |exact I]; unfold held, put_tab; cbn [tabs]; rewrite P1, (P2 (Some (fst s1)));
    unfold block; unfold sh in Hk; cbn [fst] in Hk; rewrite Hk; reflexivity.
Qed.
Lemma wfine_run1_quiet {A} i (m : M St A) : keeps sh m -> wfine (run1 i m) (quiet (run1 i m)).
Proof. intros Hk. apply wfine_quiet. intros w n. apply run1_held. exact Hk. Qed.
Definition hk {A} (m : M mworld A) : Prop := forall w n, match m w n with Ret _ w' _ | Exn _ w' _ => Permutation (held w) (held w') | Undef => True end.
Lemma hk_bind {A B} (m : M mworld A) (f : A -> M mworld B) : hk m -> (forall a, hk (f a)) -> hk (bind m f).
Proof.
  intros Hm Hf w n. unfold bind. specialize (Hm w n). destruct (m w n) as [a w1 n1|k w1 n1|]; [|exact Hm|exact I].
  specialize (Hf a w1 n1). destruct (f a w1 n1); try exact I; now rewrite Hm.
Qed.
Lemma hk_keeps {A} (m : M mworld A) : keeps (@tabs K V) m -> hk m.
Proof. intros H w n. specialize (H w n). unfold held. destruct (m w n); try exact I; now rewrite H. Qed.
Lemma hk_ret {A} (a : A) : hk (ret a). Proof. intros w n. apply Permutation_refl. Qed.
Lemma wfine_exec o : wfine (exec c o) (exec' c o).
Proof.
  destruct o as [i o|h p al m|j al|j|j al|i|i j|i j|i j|i j|i j eeq|i k|i m|h e|i h hint|h]; cbn [exec'].
  - apply wfine_run1, fine_exec1.
  - intros w log n Hl. cbn [exec]. eapply ok_bind; [apply ok_run0; [|exact Hl]|].
    + intros r q log1 n1 H1. unfold new_table, new_table'. apply (ok_mk _ _ _ (fun _ => r)); [exact H1|reflexivity].
    + intros t w1 log1 n1 _ H1. apply ok_push. exact H1.
  - cbn [exec]. apply wfine_get. intros w0 log0. cbn [fst]. apply wfine_bind; [apply wfine_opt|]. intros x w log n Hl.
    eapply ok_bind; [apply ok_run0; [|exact Hl]|].
    + intros r q log1 n1 H1. apply ok_copy_construct. exact H1.
    + intros t w1 log1 n1 _ H1. apply ok_push. exact H1.
  - apply wfine_quiet. intros w n. cbn [exec]. unfold run1, bind. destruct (slot w j) as [t|] eqn:Es; [|exact I].
    destruct (held_frame _ j t (slot_nth _ _ _ Es)) as (r & P1 & P2). cbn. unfold held, held_tabs. cbn [tabs]. rewrite flat_map_app. cbn [flat_map].
    fold (held_tabs (tabs w)). fold (held_tabs (set (tabs w) j (Some (emptied t)))). rewrite P1, (P2 (Some (emptied t))). rewrite app_nil_r. apply Permutation_app_comm.
  - intros w log n Hl. cbn [exec]. eapply ok_bind; [apply (ok_run1 block); [|exact Hl]|].
    + intros r s log1 n1 H1. apply ok_move_al. exact H1.
    + intros t w2 log2 n2 _ H2. apply ok_push. exact H2.
  - intros w log n Hl. cbn [exec]. unfold destroy_table, destroy_table'. unfold bind, run1, run1'. cbn [fst snd].
    destruct (slot w i) as [t|] eqn:Es; [|exact I]. destruct (held_frame _ i t (slot_nth _ _ _ Es)) as (r & P1 & P2).
    pose proof (ok_db r (fun _ => []) (t, hp w) log n (live_perm _ _ _ Hl P1)) as H. pose proof (calm_db (t, hp w) n) as C.
    destruct (delete_buckets (t, hp w) n) as [a t1 n1|k t1 n1|], (delete_buckets' ((t, hp w), log) n) as [a' [t1' l1] n1'|k' [t1' l1] n1'|]; cbn [FoaMemProofs.ok fst snd] in *; try contradiction; auto.
    + destruct H as (_ & -> & -> & H). cbn. (repeat split). eapply live_perm; [exact H|]. unfold held. cbn [tabs put_tab].
      destruct (held_frame (set (tabs w) i (Some (fst t1))) i (fst t1)) as (r2 & Q1 & Q2).
      { apply slot_nth in Es. clear - Es. revert i Es. induction (tabs w) as [|y l IH]; intros [|i] H; cbn in *; try discriminate; [reflexivity|apply IH; exact H]. }
      rewrite (Q2 None). cbn [app]. rewrite (P2 (Some (fst t1))) in Q1. apply Permutation_app_inv_l in Q1. exact Q1.
    + exfalso. exact (C _ _ _ eq_refl).
  - cbn [exec]. apply wfine_get. intros w0 log0. cbn [fst]. apply wfine_bind; [apply wfine_opt|]. intros x.
    apply wfine_bind; [apply wfine_run1, fine_copy_assign|intro; apply wfine_ret].
  - cbn [exec]. apply wfine_bind; [apply wfine_run2, pfine_move_assign|intro; apply wfine_ret].
  - cbn [exec]. apply wfine_bind; [apply wfine_run2|intro; apply wfine_ret].
    intros r s log m Hl. unfold swap_tables, FoaMem.quiet, lens, bind, get2, get, ret, bind, put2, modify, undef. destruct s as [[t x] h]. cbn [fst snd] in *.
    destruct (pocs cb); [|destruct (N.eqb (f_al t) (f_al x)); [|exact I]]; cbn; (repeat split); (eapply live_perm; [exact Hl|]);
      unfold pw, block, tsh; cbn; rewrite !app_assoc; apply Permutation_app_tail, Permutation_app_comm.
  - cbn [exec]. apply wfine_bind; [apply wfine_run2, pfine_merge|intro; apply wfine_ret].
  - apply wfine_quiet. apply (hk_keeps (exec c (Equal i j eeq))). cbn [exec].
    apply FoaMemKeep.keeps_bind; [apply FoaMemKeep.keeps_get|intro]. apply FoaMemKeep.keeps_bind; [apply FoaMemKeep.keeps_of_option|intro]. apply FoaMemKeep.keeps_bind; [apply FoaMemKeep.keeps_of_option|intro].
    apply FoaMemKeep.keeps_bind; [apply keeps_eq|intro; apply FoaMemKeep.keeps_ret].
  - apply wfine_quiet. apply (hk_bind (run1 i (extract_key c k))); [intros w n; apply run1_held, keeps_ek|intro a].
    apply hk_bind; [intros w n; apply Permutation_refl|intro; apply hk_ret].
  - apply wfine_quiet. apply (hk_bind (run1 i (it <- it_at m ;; extract_at it))); [intros w n; apply run1_held|intro a].
    + apply FoaMemKeep.keeps_bind; [apply keeps_ia|intro; apply keeps_ea].
    + apply hk_bind; [intros w n; apply Permutation_refl|intro; apply hk_ret].
  - apply wfine_quiet. apply (hk_keeps (exec c (SetHandle h e))). cbn [exec]. apply FoaMemKeep.keeps_bind; [apply FoaMemKeep.keeps_get|intro w].
    destruct (nth_error (hands w) h) as [[x|]|]; [|apply FoaMemKeep.keeps_undef|apply FoaMemKeep.keeps_undef].
    apply FoaMemKeep.keeps_bind; [intros q n; reflexivity|intro; apply FoaMemKeep.keeps_ret].
  - cbn [exec]. apply wfine_get. intros w0 log0. cbn [fst]. destruct (nth_error (hands w0) h) as [[x|]|]; [|apply wfine_ret|apply wfine_undef].
    apply wfine_bind.
    + apply wfine_run1. apply fine_bind; [apply fine_quiet; destruct hint; [apply FoaMemKeep.keeps_bind; [apply keeps_ia|intro; apply FoaMemKeep.keeps_ret]|apply FoaMemKeep.keeps_ret]|].
      intros hi. apply fine_bind; [apply fine_ih|]. intros q. apply fine_bind; [apply fine_quiet, keeps_deref|intro; apply fine_ret].
    + intros q. apply wfine_bind; [apply wfine_quiet; intros w n; apply Permutation_refl|intro; apply wfine_ret].
  - apply wfine_quiet. apply (hk_keeps (exec c (DropHandle h))). cbn [exec]. apply FoaMemKeep.keeps_bind; [apply FoaMemKeep.keeps_get|intro w].
    destruct (nth_error (hands w) h) as [[x|]|]; [|apply FoaMemKeep.keeps_ret|apply FoaMemKeep.keeps_undef].
    destruct (Nat.ltb 0 (live (hp w))); [|apply FoaMemKeep.keeps_undef]. apply FoaMemKeep.keeps_bind; [intros q n; reflexivity|intro; apply FoaMemKeep.keeps_ret].
Qed.

(** every run of a program has its log, and the log accounts for the blocks of the containers that are there *)
Lemma runs_log rs w : runs c rs w -> exists log, runs' c rs (w, log) /\ Live log (held w).
Proof.
  unfold runs. induction 1 as [|rs w o n r w' R (log & R' & H) P _ E]; [exists []; split; [constructor|exists []; auto]|].
  pose proof (wfine_exec o w log n H) as X.
  destruct (exec c o w n) as [v w1 n1|k w1 n1|], (exec' c o (w, log) n) as [v' [q l] n1'|k' [q l] n1'|] eqn:E'; cbn [FoaMemProofs.ok returned fst snd] in *; try contradiction;
    destruct X as (-> & -> & -> & X), E as (-> & ->); exists l; (split; [|exact X]);
    (eapply runs'_snoc; [exact R'|exact P|]); rewrite E'; cbn; auto.
Qed.
Lemma log_runs rs q : runs' c rs q -> runs c rs (fst q) /\ Live (snd q) (held (fst q)).
Proof.
  induction 1 as [|rs [w log] o n r w' R (R' & H) P E]; [split; [constructor|exists []; auto]|]. cbn [fst snd] in *.
  pose proof (wfine_exec o w log n H) as X.
  destruct (exec c o w n) as [v w1 n1|k w1 n1|] eqn:E', (exec' c o (w, log) n) as [v' [q l] n1'|k' [q l] n1'|]; cbn [FoaMemProofs.ok returned' fst snd] in *; try contradiction;
    destruct X as (-> & -> & -> & X), E as (-> & ->); cbn [fst snd]; (split; [|exact X]);
    (eapply runs_snoc; [exact R'|exact P|exact I|]); rewrite E'; cbn; auto.
Qed.
End Proofs.
