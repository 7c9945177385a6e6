(** The instrumented functions of FoaMem.v: dropping the log gives FoaModel.v back, and the log balances. *)
From Coq Require Import NArith Bool List Arith Lia Permutation.
From Verif Require Import SizeModel GroupModel FoaModel FoaIterModel FoaSpec FoaWorld MemSpec FoaMem FoaMemKeep.
Import ListNotations.
Local Open Scope m_scope.
Local Open Scope N_scope.

Definition Live (log : list mem) (l : list (N * N)) : Prop := exists l', outstanding log [] = Some l' /\ Permutation l' l.

Lemma take_in x l : In x l -> exists r, take x l = Some r /\ Permutation l (x :: r).
Proof.
  destruct x as [a b]. induction l as [|[a' b'] l IH]; [intros []|]. intros H. cbn [take fst snd].
  destruct ((a =? a') && (b =? b')) eqn:E.
  - apply andb_true_iff in E as [E1 E2]. apply N.eqb_eq in E1, E2. subst. exists l. auto.
  - destruct H as [[= -> ->]|H]; [rewrite !N.eqb_refl in E; discriminate|]. destruct (IH H) as (r & -> & P). cbn.
    exists ((a', b') :: r). split; [reflexivity|]. rewrite P. apply perm_swap.
Qed.
Lemma outstanding_app l1 l2 x : outstanding (l1 ++ l2) x = match outstanding l1 x with Some y => outstanding l2 y | None => None end.
Proof. revert x. induction l1 as [|[a n|a n] l IH]; intros x; cbn [outstanding app]; [reflexivity|apply IH|]. destruct (take (a, n) x); [apply IH|reflexivity]. Qed.
Lemma live_perm log l l2 : Live log l -> Permutation l l2 -> Live log l2.
Proof. intros (x & E & P) Q. exists x. split; [exact E|]. now rewrite P. Qed.
Lemma live_alloc log l a n : Live log l -> Live (log ++ [Alloc a n]) ((a, n) :: l).
Proof. intros (x & E & P). exists ((a, n) :: x). rewrite outstanding_app, E. split; [reflexivity|]. now apply perm_skip. Qed.
Lemma live_free log l a n : Live log ((a, n) :: l) -> Live (log ++ [Free a n]) l.
Proof.
  intros (x & E & P). destruct (take_in (a, n) x) as (r & T & Q); [apply (Permutation_in _ (Permutation_sym P)); now left|].
  exists r. rewrite outstanding_app, E. cbn [outstanding]. rewrite T. split; [reflexivity|].
  rewrite Q in P. now apply Permutation_cons_inv in P.
Qed.

Section Ok.
Context {St A : Type}.
Definition ok (WR : A -> St -> list (N * N)) (WE : St -> list (N * N)) (x : R St A) (x' : R (L St) A) : Prop :=
  match x, x' with
  | Ret a s n, Ret a' q n' => a' = a /\ fst q = s /\ n' = n /\ Live (snd q) (WR a s)
  | Exn k s n, Exn k' q n' => k' = k /\ fst q = s /\ n' = n /\ Live (snd q) (WE s)
  | Undef, Undef => True
  | _, _ => False
  end.
Lemma ok_conv WR WE WR2 WE2 x x' : ok WR WE x x' ->
  (forall a s n, x = Ret a s n -> Permutation (WR a s) (WR2 a s)) -> (forall k s n, x = Exn k s n -> Permutation (WE s) (WE2 s)) -> ok WR2 WE2 x x'.
Proof.
  intros H HR HE. destruct x as [a s n|k s n|], x' as [a' q n'|k' q n'|]; cbn in *; try contradiction; auto;
    destruct H as (-> & <- & -> & H); (repeat split); (eapply live_perm; [exact H|]); [eapply HR|eapply HE]; reflexivity.
Qed.
End Ok.

Lemma ok_bind {St A B} WR1 WR WE (m : M St A) (m' : M (L St) A) (f : A -> M St B) (f' : A -> M (L St) B) s log n :
  ok WR1 WE (m s n) (m' (s, log) n) ->
  (forall a s1 log1 n1, m s n = Ret a s1 n1 -> Live log1 (WR1 a s1) -> ok WR WE (f a s1 n1) (f' a (s1, log1) n1)) ->
  ok WR WE (bind m f s n) (bind m' f' (s, log) n).
Proof.
  intros H Hf. unfold bind. destruct (m s n) as [a s1 n1|k s1 n1|] eqn:E, (m' (s, log) n) as [a' [q ql] n'|k' [q ql] n'|]; cbn in *; try contradiction; auto.
  destruct H as (-> & -> & -> & H). apply Hf; auto.
Qed.
Lemma ok_on_exn {St A} WE2 WR WE1 WE (m : M St A) (m' : M (L St) A) h h' s log n :
  ok WR WE1 (m s n) (m' (s, log) n) ->
  (forall k s1 log1 n1, m s n = Exn k s1 n1 -> Live log1 (WE1 s1) -> ok (fun _ => WE) WE2 (h s1 n1) (h' (s1, log1) n1)) ->
  ok WR WE (on_exn m h s n) (on_exn m' h' (s, log) n).
Proof.
  intros H Hf. unfold on_exn. destruct (m s n) as [a s1 n1|k s1 n1|] eqn:E, (m' (s, log) n) as [a' [q ql] n'|k' [q ql] n'|]; cbn in *; try contradiction; auto.
  destruct H as (-> & -> & -> & H). specialize (Hf k s1 ql n1 eq_refl H).
  destruct (h s1 n1) as [u s2 n2|k2 s2 n2|], (h' (s1, ql) n1) as [u' [q2 ql2] n2'|k2' [q2 ql2] n2'|]; cbn in *; try contradiction; auto.
  destruct Hf as (_ & -> & -> & Hf). auto.
Qed.
Lemma ok_lens {St T A} (g : St -> T) p (m : M T A) (m' : M (L T) A) WR WE WR2 WE2 s log n :
  ok WR WE (m (g s) n) (m' (g s, log) n) ->
  (forall a t, Permutation (WR a t) (WR2 a (p s t))) -> (forall t, Permutation (WE t) (WE2 (p s t))) ->
  ok WR2 WE2 (lens g p m s n) (part g p m' (s, log) n).
Proof.
  intros H HR HE. unfold part, lens. cbn [fst snd].
  destruct (m (g s) n) as [a s1 n1|k s1 n1|], (m' (g s, log) n) as [a' [q ql] n'|k' [q ql] n'|]; cbn in *; try contradiction; auto;
    destruct H as (-> & -> & -> & H); (repeat split); (eapply live_perm; [exact H|auto]).
Qed.
Lemma ok_get {St A} WR WE (f : St -> M St A) f' s log n :
  ok WR WE (f s s n) (f' (s, log) (s, log) n) -> ok WR WE (bind get f s n) (bind get f' (s, log) n).
Proof. intros H. exact H. Qed.
Lemma ok_ret {St A} WR WE (a : A) (s : St) log n : Live log (WR a s) -> ok WR WE (ret a s n) (ret a (s, log) n).
Proof. intros H. cbn. auto. Qed.
Lemma ok_quiet {St A X} (h : St -> X) (W : X -> list (N * N)) (m : M St A) s log n : keeps h m -> Live log (W (h s)) ->
  ok (fun _ s => W (h s)) (fun s => W (h s)) (m s n) (quiet m (s, log) n).
Proof.
  intros Hk H. unfold quiet, lens. cbn [fst snd]. specialize (Hk s n).
  destruct (m s n) as [a s1 n1|k s1 n1|]; cbn; [| |exact I]; rewrite Hk; auto.
Qed.
Lemma ok_same {St A} (m : M St A) W s log n : keeps (fun s => s) m -> Live log (W s) -> ok (fun _ => W) W (m s n) (quiet m (s, log) n).
Proof. intros Hk H. exact (ok_quiet (fun s => s) W m s log n Hk H). Qed.
(** a change of the state that does not fail *)
Lemma ok_modify {St} (f : St -> St) WR WE s log n : Live log (WR tt (f s)) -> ok WR WE (modify f s n) (quiet (modify f) (s, log) n).
Proof. intros H. cbn. auto. Qed.
Lemma quiet_bind {St A B} (m : M St A) (f : A -> M St B) s n : quiet (bind m f) s n = bind (quiet m) (fun a => quiet (f a)) s n.
Proof. unfold quiet, bind, lens. destruct (m (fst s) n) as [a s1 n1|k s1 n1|]; cbn; [|reflexivity|reflexivity]. destruct (f a s1 n1); reflexivity. Qed.

Section Proofs.
Context {K V : Type} (c : Cfg K V).
Notation arrays := (arrays K V).
Notation table := (table K V).

(** the blocks that belong to arrays of a given shape *)
Definition owns (s : bool * N * N) : list (N * N) :=
  if fst (fst s) then [(snd (fst s), buffer_size_wrapped (esz c) (snd s + 1))] else [].
Definition block (t : table) : list (N * N) := owns (tshape t).
Definition rblocks (s : @RS K V) : list (N * N) := block (rs_tab s) ++ owns (shape (rs_new s)).
Definition pblocks (s : table * table) : list (N * N) := block (fst s) ++ block (snd s).

Lemma ok_new {St} al m (W : St -> list (N * N)) s log n : Live log (W s) ->
  ok (fun a s => owns (shape a) ++ W s) W (new_arrays c al m s n) (new_arrays' c al m (s, log) n).
Proof.
  intros H. unfold new_arrays', quiet. unfold bind, lens. cbn [fst snd]. unfold new_arrays.
  destruct (m =? 0); [cbn; auto|]. destruct (2 ^ 64 <=? m); [exact I|]. destruct (negb _); [exact I|].
  destruct (gmax c <? _); [cbn; auto|]. unfold bind, tick. destruct (throws c KAlloc n); [cbn; auto|].
  cbn [ret]. cbn [a_elems emit modify ok fst snd]. (repeat split). unfold owns, shape. cbn [a_elems a_owner a_mask a_gsi fst snd].
  assert (size_of (size_index_for m) - 1 + 1 = size_of (size_index_for m)) as ->.
  { unfold size_of. assert (2 ^ (64 - size_index_for m) <> 0) by (apply N.pow_nonzero; discriminate). lia. }
  apply live_alloc. exact H.
Qed.
Lemma ok_delete {St} al a W (WE : St -> list (N * N)) s log n : Live log (owns (shape a) ++ W) ->
  ok (fun _ _ => W) WE (delete_arrays al a s n) (delete_arrays' c al a (s, log) n).
Proof.
  intros H. unfold delete_arrays', quiet. unfold bind, lens. cbn [fst snd]. unfold delete_arrays.
  unfold owns, shape in H. destruct (a_elems a) as [cs|]; [|cbn; auto].
  destruct (forallb is_raw cs && (a_owner a =? al)) eqn:E; [|exact I]. apply andb_true_iff in E as [_ E]. apply N.eqb_eq in E.
  cbn. (repeat split). cbn in H. rewrite E in H. apply live_free. exact H.
Qed.
(** deleting leaves the state alone *)
Lemma delete_same {St} al (a : arrays) (s : St) n r : delete_arrays al a s n = r -> r = Ret tt s n \/ r = Undef.
Proof. intros <-. unfold delete_arrays. destruct (a_elems a); [destruct (_ && _)|]; auto. Qed.
Lemma new_same {St} al m (s : St) n a s1 n1 : new_arrays c al m s n = Ret a s1 n1 -> s1 = s.
Proof.
  unfold new_arrays. destruct (m =? 0); [intros [=]; auto|]. destruct (2 ^ 64 <=? m); [discriminate|]. destruct (negb _); [discriminate|].
  destruct (gmax c <? _); [discriminate|]. unfold bind, tick. destruct (throws c KAlloc n); [discriminate|]. intros [=]; auto.
Qed.

(** no exception *)
Definition calm {St A} (m : M St A) : Prop := forall s n k s' n', m s n <> Exn k s' n'.
Lemma calm_bind {St A B} (m : M St A) (f : A -> M St B) : calm m -> (forall a, calm (f a)) -> calm (bind m f).
Proof. intros Hm Hf s n k s' n'. unfold bind. specialize (Hm s n). destruct (m s n); [apply Hf|intros [= -> -> ->]; now apply (Hm k s' n')|discriminate]. Qed.
Lemma calm_ret {St A} (a : A) : calm (ret (St:=St) a). Proof. discriminate. Qed.
Lemma calm_get {St} : calm (get (St:=St)). Proof. discriminate. Qed.
Lemma calm_undef {St A} : calm (undef (St:=St) (A:=A)). Proof. discriminate. Qed.
Lemma calm_modify {St} (f : St -> St) : calm (modify f). Proof. discriminate. Qed.
Lemma calm_lens {St T A} (g : St -> T) p (m : M T A) : calm m -> calm (lens g p m).
Proof. intros Hm s n k s' n'. unfold lens. specialize (Hm (g s) n). destruct (m (g s) n) as [| k1 t1 n1 |]; [discriminate| |discriminate]. exfalso. now apply (Hm k1 t1 n1). Qed.
Lemma calm_put_cell i x : calm (put_cell (K:=K) (V:=V) i x).
Proof. intros a n k s' n'. unfold put_cell. destruct (a_elems a); [|discriminate]. destruct (nth_error _ i); discriminate. Qed.
Lemma calm_destroy i : calm (destroy_element (K:=K) (V:=V) i).
Proof. unfold destroy_element. apply calm_bind; [apply calm_get|]. intros a. destruct (get_cell a i) as [[| |]|]; try apply calm_undef; apply calm_put_cell. Qed.
Lemma calm_for_all {St} (sel : St -> arrays) f : (forall g n, calm (f g n)) -> calm (for_all sel f).
Proof.
  intros Hf. unfold for_all. apply calm_bind; [|intro; apply calm_ret].
  set (f' := fun g n => f g n ;;; ret true). assert (forall g n, calm (f' g n)) as Hf' by (intros; apply calm_bind; [apply Hf|intro; apply calm_ret]). clearbody f'.
  assert (forall g ns, calm (fa_mask f' g ns)) as H1.
  { intros g ns. induction ns as [|x ns IH]; cbn [fa_mask]; [apply calm_ret|]. apply calm_bind; [apply Hf'|]. intros [|]; [exact IH|apply calm_ret]. }
  assert (forall last rem g, calm (fa_groups sel f' last rem g)) as H2.
  { intros last rem. induction rem as [|x IH]; intros g; cbn [fa_groups]; [apply calm_ret|]. apply calm_bind; [apply calm_get|]. intros s.
    destruct (get_group (sel s) g); [|apply calm_undef]. apply calm_bind; [apply H1|]. intros [|]; [apply IH|apply calm_ret]. }
  unfold for_all_while. apply calm_bind; [apply calm_get|]. intros s. destruct (a_elems (sel s)); [apply H2|apply calm_ret].
Qed.
Lemma ok_calm {St A} WR WE WE2 (m : M St A) s n x' : ok WR WE (m s n) x' -> calm m -> ok WR WE2 (m s n) x'.
Proof. intros H C. eapply ok_conv; [exact H| |]; [intros; reflexivity|]. intros k s' n' E. exfalso. exact (C _ _ _ _ _ E). Qed.
Lemma ok_del {St} al a (W : St -> list (N * N)) WE s log n : Live log (owns (shape a) ++ W s) ->
  ok (fun _ s => W s) WE (delete_arrays al a s n) (delete_arrays' c al a (s, log) n).
Proof.
  intros H. eapply ok_conv; [apply (ok_delete _ _ (W s) WE); exact H| |].
  - intros a4 s4 n4 E. destruct (delete_same _ _ _ _ _ E) as [X|X]; [|discriminate]. injection X as _ -> _. reflexivity.
  - intros k4 s4 n4 E. destruct (delete_same _ _ _ _ _ E) as [X|X]; discriminate.
Qed.

(** *** Rehashing *)
Definition rw (r : list (N * N)) : (bool * N * N) * (bool * N * N) -> list (N * N) := fun x => owns (fst x) ++ owns (snd x) ++ r.
Lemma ok_rehash_loop r s log n : Live log (rw r (rshape s)) ->
  ok (fun _ s => rw r (rshape s)) (fun s => block (rs_tab s) ++ r) (rehash_loop c s n) (rehash_loop' c (s, log) n).
Proof.
  intros H. unfold rehash_loop, rehash_loop'. eapply ok_on_exn with (WE2 := fun s => rw r (rshape s)).
  - apply (ok_quiet rshape (rw r)); [|exact H]. apply keeps_for_all; intros. apply keeps_transfer.
  - intros k s1 log1 n1 _ H1.
    apply ok_get. cbn [fst].
    eapply ok_bind; [apply (ok_quiet rshape (rw r)); [|exact H1]|].
    + destruct (Nat.eqb (snd s1) 0); [apply keeps_ret|]. apply keeps_bind; [|intro; apply keeps_ret].
      apply keeps_fa; intros. apply keeps_bind; [apply keeps_on_tab, keeps_recover|intro]. apply keeps_bind; [now apply keeps_modify|intro]. apply keeps_bind; [apply keeps_get|intro; apply keeps_ret].
    + intros u s2 log2 n2 _ H2. eapply ok_bind; [apply (ok_quiet rshape (rw r)); [|exact H2]|].
      * apply keeps_for_all; intros. apply keeps_on_new, keeps_destroy.
      * intros u3 s3 log3 n3 _ H3. apply ok_get. cbn [fst].
        apply (ok_del _ _ (fun s => block (rs_tab s) ++ r)).
        eapply live_perm; [exact H3|]. unfold rw, rshape. cbn [fst snd]. rewrite !app_assoc. apply Permutation_app_tail, Permutation_app_comm.
Qed.

(** after the body the old arrays are gone and the new ones belong to the table; on an exception the new ones are gone *)
Lemma ok_rehash_body r s log n : Live log (rw r (rshape s)) ->
  ok (fun _ s => block (rs_tab s) ++ r) (fun s => block (rs_tab s) ++ r) (unchecked_rehash_body c s n) (unchecked_rehash_body' c (s, log) n).
Proof.
  intros H. unfold unchecked_rehash_body, unchecked_rehash_body'. eapply ok_bind; [apply ok_rehash_loop; exact H|].
  intros u s1 log1 n1 _ H1. apply ok_get. cbn [fst].
  eapply ok_bind; [eapply ok_calm; [apply (ok_quiet rshape (rw r)); [|exact H1]|]|].
  - destruct (negb _); [|apply keeps_ret]. apply keeps_for_all; intros. apply keeps_on_tab, keeps_on_arr, keeps_destroy.
  - destruct (negb _); [|apply calm_ret]. apply calm_for_all; intros. apply calm_lens, calm_lens, calm_destroy.
  - intros u2 s2 log2 n2 _ H2. apply ok_get. cbn [fst].
    eapply ok_bind; [apply (ok_del _ _ (fun s => owns (shape (rs_new s)) ++ r)); exact H2|].
    intros u3 s3 log3 n3 _ H3. apply ok_modify. exact H3.
Qed.
Lemma ok_with_new {A} r na (m : M (@RS K V) A) m' t log n :
  ok (fun _ s => block (rs_tab s) ++ r) (fun s => block (rs_tab s) ++ r) (m (t, na, O) n) (m' ((t, na, O), log) n) ->
  ok (fun _ t => block t ++ r) (fun t => block t ++ r) (with_new na m t n) (with_new' na m' (t, log) n).
Proof.
  intros H. unfold with_new, with_new'. cbn [fst snd].
  destruct (m (t, na, O) n) as [a s1 n1|k s1 n1|], (m' (t, na, O, log) n) as [a' [q ql] n'|k' [q ql] n'|]; cbn in *; try contradiction; auto;
    destruct H as (-> & -> & -> & H); (repeat split); exact H.
Qed.
(** the operations of one container: frame [r] *)
Definition fine {A} (m : M table A) (m' : M (L table) A) : Prop := forall r t log n, Live log (block t ++ r) ->
  ok (fun _ t => block t ++ r) (fun t => block t ++ r) (m t n) (m' (t, log) n).
Lemma fine_bind {A B} (m : M table A) m' (f : A -> M table B) f' : fine m m' -> (forall a, fine (f a) (f' a)) -> fine (bind m f) (bind m' f').
Proof. intros H Hf r t log n Hl. eapply ok_bind; [apply H; exact Hl|]. intros a s1 log1 n1 _ H1. apply Hf. exact H1. Qed.
Lemma fine_get {B} (f : table -> M table B) f' : (forall t log, fine (f t) (f' (t, log))) -> fine (bind get f) (bind get f').
Proof. intros Hf r t log n Hl. apply ok_get. apply Hf. exact Hl. Qed.
Lemma fine_ret {A} (a : A) : fine (ret a) (ret a). Proof. intros r t log n Hl. apply ok_ret. exact Hl. Qed.
Lemma fine_undef {A} : fine (A:=A) undef undef. Proof. intros r t log n Hl. exact I. Qed.
Lemma fine_quiet {A} (m : M table A) : keeps tshape m -> fine m (quiet m).
Proof. intros Hk r t log n Hl. apply (ok_quiet tshape (fun s => owns s ++ r) m t log n Hk Hl). Qed.

Lemma fine_unchecked_rehash n : fine (unchecked_rehash c n) (unchecked_rehash' c n).
Proof.
  intros r t log m Hl. unfold unchecked_rehash, unchecked_rehash'. apply ok_get. cbn [fst].
  eapply ok_bind; [apply (ok_new _ _ (fun t => block t ++ r)); exact Hl|].
  intros na s1 log1 n1 E H1. pose proof (new_same _ _ _ _ _ _ _ E) as ->. apply ok_with_new, ok_rehash_body.
  eapply live_perm; [exact H1|]. unfold rw, rshape. cbn [fst snd]. rewrite !app_assoc. apply Permutation_app_tail, Permutation_app_comm.
Qed.
Lemma fine_emplace_rehash kd x e : fine (unchecked_emplace_with_rehash c kd x e) (unchecked_emplace_with_rehash' c kd x e).
Proof.
  intros r t log m Hl. unfold unchecked_emplace_with_rehash, unchecked_emplace_with_rehash'. apply ok_get. cbn [fst].
  eapply ok_bind; [apply (ok_new _ _ (fun t => block t ++ r)); exact Hl|].
  intros na s1 log1 n1 E H1. pose proof (new_same _ _ _ _ _ _ _ E) as ->.
  eapply ok_bind; [apply (ok_with_new r)|].
  - eapply ok_bind; [eapply (ok_on_exn (fun s => [])); [apply (ok_quiet rshape (rw r))|]|].
    + apply keeps_on_new, keeps_emplace_at.
    + eapply live_perm; [exact H1|]. unfold rw, rshape. cbn [fst snd]. rewrite !app_assoc. apply Permutation_app_tail, Permutation_app_comm.
    + intros k s2 log2 n2 _ H2. apply ok_get. cbn [fst]. apply (ok_del _ _ (fun s => block (rs_tab s) ++ r)).
      eapply live_perm; [exact H2|]. unfold rw, rshape. cbn [fst snd]. rewrite !app_assoc. apply Permutation_app_tail, Permutation_app_comm.
    + intros l s2 log2 n2 _ H2. eapply ok_bind; [apply ok_rehash_body; exact H2|]. intros u s3 log3 n3 _ H3. apply ok_ret. exact H3.
  - intros l s2 log2 n2 _ H2. cbv beta in H2. eapply ok_bind; [apply (ok_modify _ (fun _ t => block t ++ r)); exact H2|]. intros u s3 log3 n3 _ H3. apply ok_ret. exact H3.
Qed.
Lemma fine_emplace kd e : fine (emplace_impl c kd e) (emplace_impl' c kd e).
Proof.
  unfold emplace_impl, emplace_impl'. apply fine_get. intros t log. cbn [fst]. apply fine_bind; [apply fine_quiet, keeps_hash|]. intros x.
  apply fine_bind; [apply fine_quiet, keeps_find_at|]. intros [l|]; [apply fine_ret|]. destruct (sz t <? ml t).
  - apply fine_bind; [apply fine_quiet, keeps_unchecked_emplace|intro; apply fine_ret].
  - apply fine_bind; [apply fine_emplace_rehash|intro; apply fine_ret].
Qed.
Lemma fine_rehash n : fine (rehash c n) (rehash' c n).
Proof.
  unfold rehash, rehash'. apply fine_get. intros t log. cbn [fst]. destruct (negb (ceil_div_mlf_ok (sz t))); [apply fine_undef|]. cbv zeta.
  destruct (negb _); [apply fine_unchecked_rehash|apply fine_ret].
Qed.
Lemma fine_reserve n : fine (reserve c n) (reserve' c n).
Proof. unfold reserve, reserve'. destruct (negb (ceil_div_mlf_ok n)); [apply fine_undef|apply fine_rehash]. Qed.
(** replacing the arrays of a table: new first, then the old ones are deleted *)
Lemma ok_replace (r : list (N * N)) al m t log n : Live log (block t ++ r) ->
  ok (fun _ t => block t ++ r) (fun t => block t ++ r)
     ((na <- new_arrays c al m ;; delete_arrays (aid t) (arr t) ;;; modify (fun t => set_ml (set_arr t na) (init_ml na))) t n)
     ((na <- new_arrays' c al m ;; delete_arrays' c (aid t) (arr t) ;;; quiet (modify (fun t => set_ml (set_arr t na) (init_ml na)))) (t, log) n).
Proof.
  intros Hl. eapply ok_bind; [apply (ok_new _ _ (fun t => block t ++ r)); exact Hl|].
  intros na s1 log1 n1 E H1. pose proof (new_same _ _ _ _ _ _ _ E) as ->. cbv beta in H1.
  eapply ok_bind; [apply (ok_del _ _ (fun _ => owns (shape na) ++ r))|].
  - eapply live_perm; [exact H1|]. unfold block. unfold tshape. rewrite !app_assoc. apply Permutation_app_tail, Permutation_app_comm.
  - intros u s2 log2 n2 _ H2. apply ok_modify. exact H2.
Qed.
Lemma fine_noshrink n : fine (noshrink_reserve c n) (noshrink_reserve' c n).
Proof.
  unfold noshrink_reserve, noshrink_reserve'. destruct (n =? 0); [apply fine_ret|]. destruct (negb (ceil_div_mlf_ok n)); [apply fine_undef|]. cbv zeta.
  intros r t log m Hl. apply ok_get. cbn [fst]. destruct (capacity (arr t) <? _); [|apply ok_ret; exact Hl]. apply ok_replace. exact Hl.
Qed.
Lemma fine_copy_assign x : fine (copy_assign c x) (copy_assign' c x).
Proof.
  unfold copy_assign, copy_assign'. apply fine_bind; [apply fine_quiet, keeps_clear|]. intros _.
  apply fine_bind; [apply fine_quiet; now apply keeps_modify|]. intros _.
  apply fine_bind; [|intros _; apply fine_bind; [apply fine_noshrink|intros _; apply fine_quiet, keeps_copy_elements]].
  destruct (pocca c); [|apply fine_ret]. intros r t log m Hl. apply ok_get. cbn [fst].
  eapply ok_bind with (WR1 := fun _ t => block t ++ r).
  - destruct (negb (aid t =? aid x)); [|apply ok_ret; exact Hl]. destruct (negb (ceil_div_mlf_ok (sz x))); [exact I|]. apply ok_replace. exact Hl.
  - intros u s1 log1 n1 _ H1. apply ok_modify. exact H1.
Qed.
Lemma fine_insert e : fine (m_insert c e) (m_insert' c e). Proof. apply fine_emplace. Qed.
Lemma fine_range l : fine (m_insert_range c l) (m_insert_range' c l).
Proof. induction l as [|e l IH]; cbn [m_insert_range m_insert_range']; [apply fine_ret|]. apply fine_bind; [apply fine_insert|intro; exact IH]. Qed.
Lemma fine_fa (g1 : nat -> nat -> M table bool) g2 : (forall g n, fine (g1 g n) (g2 g n)) ->
  fine (for_all_while (@arr K V) g1) (for_all_while (fun s => arr (fst s)) g2).
Proof.
  intros H.
  assert (forall g ns, fine (fa_mask g1 g ns) (fa_mask g2 g ns)) as H1.
  { intros g ns. induction ns as [|x ns IH]; cbn [fa_mask]; [apply fine_ret|]. apply fine_bind; [apply H|]. intros [|]; [exact IH|apply fine_ret]. }
  assert (forall last rem g, fine (fa_groups (@arr K V) g1 last rem g) (fa_groups (fun s => arr (fst s)) g2 last rem g)) as H2.
  { intros last rem. induction rem as [|x IH]; intros g; cbn [fa_groups]; [apply fine_ret|]. apply fine_get. intros t log. cbn [fst].
    destruct (get_group (arr t) g); [|apply fine_undef]. apply fine_bind; [apply H1|]. intros [|]; [apply IH|apply fine_ret]. }
  unfold for_all_while. apply fine_get. intros t log. cbn [fst]. destruct (a_elems (arr t)); [apply H2|apply fine_ret].
Qed.
Lemma fine_for_all (f : nat -> nat -> M table unit) f' : (forall g n, fine (f g n) (f' g n)) ->
  fine (for_all (@arr K V) f) (for_all (fun s => arr (fst s)) f').
Proof.
  intros Hf. unfold for_all. apply fine_bind; [|intro; apply fine_ret]. apply fine_fa. intros. apply fine_bind; [apply Hf|intro; apply fine_ret].
Qed.
Lemma fine_merge_self : fine (merge_self c) (merge_self' c).
Proof.
  unfold merge_self, merge_self'. apply fine_for_all. intros g n. apply fine_get. intros t log. cbn [fst].
  apply fine_bind; [apply fine_quiet, keeps_read|]. intros e. apply fine_bind; [apply fine_emplace|]. intros r. destruct (snd r); [apply fine_undef|apply fine_ret].
Qed.
Lemma fine_exec1 o : fine (exec1 c o) (exec1' c o).
Proof.
  pose proof (keeps_exec1 c o) as Hk.
  destruct o; try (apply fine_quiet; exact Hk); cbn [exec1 exec1']; clear Hk.
  - apply fine_bind; [apply fine_insert|]. intros x. apply fine_quiet. apply keeps_bind; [apply keeps_get|intro]. apply keeps_bind; [apply keeps_read|intro; apply keeps_ret].
  - apply fine_bind; [apply fine_range|intro; apply fine_ret].
  - apply fine_bind; [|intro; apply fine_ret]. apply fine_bind; [apply fine_quiet, keeps_clear|intro; apply fine_range].
  - apply fine_bind; [|intro; apply fine_ret]. apply fine_bind; [apply fine_insert|]. intros [[g n] b]. destruct b; [apply fine_ret|]. apply fine_quiet.
    apply keeps_bind; [apply keeps_get|intro]. apply keeps_bind; [apply keeps_read|intro]. apply keeps_bind; [apply keeps_tick|intro].
    apply keeps_bind; [apply keeps_on_arr, keeps_put_cell|intro; apply keeps_ret].
  - apply fine_bind; [|intro; apply fine_ret]. apply fine_bind; [apply fine_insert|]. intros x. apply fine_quiet.
    apply keeps_bind; [apply keeps_get|intro]. apply keeps_bind; [apply keeps_read|intro; apply keeps_ret].
  - apply fine_bind; [apply fine_rehash|intro; apply fine_ret].
  - apply fine_bind; [apply fine_reserve|intro; apply fine_ret].
  - apply fine_bind; [apply fine_merge_self|intro; apply fine_ret].
Qed.

(** *** Two containers *)
Definition pw (r : list (N * N)) (s : table * table) : list (N * N) := block (fst s) ++ block (snd s) ++ r.
Definition pfine {A} (m : M (table * table) A) (m' : M (L (table * table)) A) : Prop := forall r s log n, Live log (pw r s) ->
  ok (fun _ => pw r) (pw r) (m s n) (m' (s, log) n).
Lemma pfine_bind {A B} (m : M (table * table) A) m' (f : A -> M (table * table) B) f' : pfine m m' -> (forall a, pfine (f a) (f' a)) -> pfine (bind m f) (bind m' f').
Proof. intros H Hf r t log n Hl. eapply ok_bind; [apply H; exact Hl|]. intros a s1 log1 n1 _ H1. apply Hf. exact H1. Qed.
Lemma pfine_get {B} (f : table * table -> M (table * table) B) f' : (forall t log, pfine (f t) (f' (t, log))) -> pfine (bind get f) (bind get f').
Proof. intros Hf r t log n Hl. apply ok_get. apply Hf. exact Hl. Qed.
Lemma pfine_ret {A} (a : A) : pfine (ret a) (ret a). Proof. intros r t log n Hl. apply ok_ret. exact Hl. Qed.
Lemma pfine_undef {A} : pfine (A:=A) undef undef. Proof. intros r t log n Hl. exact I. Qed.
Lemma pfine_quiet {A} (m : M (table * table) A) : keeps pshape m -> pfine m (quiet m).
Proof. intros Hk r t log n Hl. apply (ok_quiet pshape (fun s => owns (fst s) ++ owns (snd s) ++ r) m t log n Hk Hl). Qed.
Lemma pfine_fst {A} (m : M table A) m' : fine m m' -> pfine (on_fst m) (on_fst' m').
Proof.
  intros H r s log n Hl. unfold on_fst, on_fst'. eapply ok_lens; [apply (H (block (snd s) ++ r)); exact Hl| |]; intros; reflexivity.
Qed.
Lemma pfine_fa (g1 : nat -> nat -> M (table * table) bool) g2 : (forall g n, pfine (g1 g n) (g2 g n)) ->
  pfine (for_all_while (fun s => arr (snd s)) g1) (for_all_while (fun s => arr (snd (fst s))) g2).
Proof.
  intros H.
  assert (forall g ns, pfine (fa_mask g1 g ns) (fa_mask g2 g ns)) as H1.
  { intros g ns. induction ns as [|x ns IH]; cbn [fa_mask]; [apply pfine_ret|]. apply pfine_bind; [apply H|]. intros [|]; [exact IH|apply pfine_ret]. }
  assert (forall last rem g, pfine (fa_groups (fun s => arr (snd s)) g1 last rem g) (fa_groups (fun s => arr (snd (fst s))) g2 last rem g)) as H2.
  { intros last rem. induction rem as [|x IH]; intros g; cbn [fa_groups]; [apply pfine_ret|]. apply pfine_get. intros t log. cbn [fst].
    destruct (get_group (arr (snd t)) g); [|apply pfine_undef]. apply pfine_bind; [apply H1|]. intros [|]; [apply IH|apply pfine_ret]. }
  unfold for_all_while. apply pfine_get. intros t log. cbn [fst]. destruct (a_elems (arr (snd t))); [apply H2|apply pfine_ret].
Qed.
Lemma pfine_merge_step g n : pfine (merge_step c g n) (merge_step' c g n).
Proof.
  intros r s log m Hl. unfold merge_step, merge_step'. cbn [fst].
  pose proof (pfine_quiet (read_element (arr (snd s)) (slot_index g n)) (keeps_read _ _ _) r s log m Hl) as H1.
  destruct (read_element _ _ s m) as [e s1 n1|k s1 n1|], (quiet _ (s, log) m) as [e' [s1' l1] n1'|k' [s1' l1] n1'|]; cbn [ok fst snd] in H1; try contradiction; [|exact H1|exact I].
  destruct H1 as (-> & -> & -> & H1).
  pose proof (pfine_fst _ _ (fine_emplace KTransfer e) r s1 l1 n1 H1) as H2.
  destruct (on_fst _ s1 n1) as [[x b] s2 n2|k s2 n2|], (on_fst' _ (s1, l1) n1) as [[x' b'] [s2' l2] n2'|k' [s2' l2] n2'|]; cbn [ok fst snd] in H2; try contradiction; [| |exact I].
  - destruct H2 as ([= -> ->] & -> & -> & H2). destruct b; [|cbn; auto].
    apply pfine_quiet; [|exact H2]. apply keeps_bind; [apply keeps_on_snd, keeps_on_arr, keeps_put_cell|intro; apply keeps_on_snd, keeps_erase_at].
  - destruct H2 as (-> & -> & -> & H2).
    pose proof (pfine_quiet (on_snd (erase_at g n)) (keeps_on_snd _ (keeps_erase_at g n)) r s2 l2 n2 H2) as H3.
    destruct (on_snd _ s2 n2) as [u s3 n3|k3 s3 n3|], (quiet _ (s2, l2) n2) as [u' [s3' l3] n3'|k3' [s3' l3] n3'|]; cbn [ok fst snd] in *; try contradiction; auto.
    destruct H3 as (_ & -> & -> & H3). auto.
Qed.
Lemma pfine_merge : pfine (merge c) (merge' c).
Proof.
  unfold merge, merge', for_all. apply pfine_bind; [|intro; apply pfine_ret]. apply pfine_fa. intros. apply pfine_bind; [apply pfine_merge_step|intro; apply pfine_ret].
Qed.
Lemma pfine_move_assign : pfine (move_assign c) (move_assign' c).
Proof.
  unfold move_assign, move_assign'. apply pfine_bind; [apply pfine_quiet, keeps_on_fst_p, keeps_clear|]. intros _.
  intros r s log n Hl. apply ok_get. cbn [fst]. destruct (pocma c || (aid (fst s) =? aid (snd s))).
  - eapply ok_bind; [apply (ok_new _ _ (pw r)); exact Hl|]. intros ah s1 log1 n1 E H1. pose proof (new_same _ _ _ _ _ _ _ E) as ->. cbv beta in H1.
    eapply ok_bind with (WR1 := fun _ q => owns (shape ah) ++ pw r q); [cbn; auto|].
    intros u s2 log2 n2 _ H2. apply ok_get. cbn [fst].
    eapply ok_bind; [apply (ok_del _ _ (fun s => owns (shape ah) ++ block (snd s) ++ r))|].
    { eapply live_perm; [exact H2|]. unfold pw, block, tshape. rewrite !app_assoc. do 2 apply Permutation_app_tail. apply Permutation_app_comm. }
    intros u3 s3 log3 n3 _ H3. cbv beta in H3.
    eapply ok_bind with (WR1 := fun _ q => owns (shape ah) ++ block (snd q) ++ r); [cbn; auto|].
    intros u4 s4 log4 n4 _ H4. cbv beta in H4.
    eapply ok_bind with (WR1 := fun _ q => owns (shape ah) ++ block (fst q) ++ r); [cbn; auto|].
    intros u5 s5 log5 n5 _ H5. cbv beta in H5. apply ok_modify. eapply live_perm; [exact H5|]. unfold pw. cbn [fst snd]. unfold block, tshape. cbn.
    rewrite !app_assoc. apply Permutation_app_tail, Permutation_app_comm.
  - apply (pfine_bind swap_hp (quiet swap_hp)); [apply pfine_quiet, keeps_swap_hp| |exact Hl]. intros _. apply pfine_get. intros s1 log1. cbn [fst].
    apply pfine_bind; [apply pfine_fst, fine_noshrink|intros _; apply pfine_quiet, keeps_move_elements].
Qed.

Lemma pfine_swap : pfine (swap_tables c) (quiet (swap_tables c)).
Proof.
  intros r s log n Hl. unfold swap_tables. unfold quiet, lens, bind, get, modify, swap_hp, ret, undef. cbn [fst snd].
  destruct (pocs c); [|destruct (aid (fst s) =? aid (snd s)); [|exact I]]; cbn; (repeat split); (eapply live_perm; [exact Hl|]);
    unfold pw, block, tshape; cbn; rewrite !app_assoc; apply Permutation_app_tail, Permutation_app_comm.
Qed.

(** *** Constructors and the destructor *)
Lemma ok_destroy r t log n : Live log (block t ++ r) -> ok (fun _ _ => r) (fun _ => r) (destroy_table t n) (destroy_table' c (t, log) n).
Proof.
  intros Hl. unfold destroy_table, destroy_table'. eapply ok_bind; [eapply ok_calm; [apply (fine_quiet (for_all (@arr K V) (fun g n => on_arr (destroy_element (slot_index g n))))); [|exact Hl]|]|].
  - apply keeps_for_all; intros. apply keeps_on_arr, keeps_destroy.
  - apply calm_for_all; intros. apply calm_lens, calm_destroy.
  - intros u s1 log1 n1 _ H1. apply ok_get. cbn [fst]. apply (ok_del _ _ (fun _ => r)). exact H1.
Qed.
Lemma ok_construct {St} (W : St -> list (N * N)) mk mk' (body : M (table * St) unit) body' s log n :
  ok (fun t s => block t ++ W s) W (mk s n) (mk' (s, log) n) ->
  (forall t s1 log1 n1, Live log1 (block t ++ W s1) -> ok (fun _ q => block (fst q) ++ W (snd q)) (fun q => block (fst q) ++ W (snd q)) (body (t, s1) n1) (body' ((t, s1), log1) n1)) ->
  ok (fun t s => block t ++ W s) W (construct_then mk body s n) (construct_then' c mk' body' (s, log) n).
Proof.
  intros H Hb. unfold construct_then, construct_then'.
  destruct (mk s n) as [t s1 n1|k s1 n1|], (mk' (s, log) n) as [t' [s1' l1] n1'|k' [s1' l1] n1'|]; cbn [ok fst snd] in H; try contradiction; [|exact H|exact I].
  destruct H as (-> & -> & -> & H). specialize (Hb t s1 l1 n1 H). cbn [fst snd].
  destruct (body (t, s1) n1) as [u q n2|k q n2|], (body' (t, s1, l1) n1) as [u' [q' l2] n2'|k' [q' l2] n2'|]; cbn [ok fst snd] in Hb; try contradiction; [| |exact I].
  - destruct Hb as (_ & -> & -> & Hb). cbn. auto.
  - destruct Hb as (-> & -> & -> & Hb). cbn [fst snd]. pose proof (ok_destroy (W (snd q)) (fst q) l2 n2 Hb) as Hd.
    destruct (destroy_table (fst q) n2) as [v t3 n3|k3 t3 n3|], (destroy_table' c (fst q, l2) n2) as [v' [t3' l3] n3'|k3' [t3' l3] n3'|]; cbn [ok fst snd] in *; try contradiction; auto.
    destruct Hd as (_ & _ & -> & Hd). auto.
Qed.
Lemma ok_new_table {St} h p al m (W : St -> list (N * N)) s log n : Live log (W s) ->
  ok (fun t s => block t ++ W s) W (new_table c h p al m s n) (new_table' c h p al m (s, log) n).
Proof.
  intros H. unfold new_table, new_table'. eapply ok_bind; [apply ok_new; exact H|]. intros a s1 log1 n1 _ H1. apply ok_ret. exact H1.
Qed.
Lemma ok_copy_construct {St} x al (W : St -> list (N * N)) s log n : Live log (W s) ->
  ok (fun t s => block t ++ W s) W (copy_construct c x al s n) (copy_construct' c x al (s, log) n).
Proof.
  intros H. unfold copy_construct, copy_construct'. destruct (negb (ceil_div_mlf_ok (sz x))); [exact I|].
  apply ok_construct; [apply ok_new_table; exact H|]. intros t s1 log1 n1 H1.
  apply (ok_quiet (fun q : table * St => (tshape (fst q), snd q)) (fun y => owns (fst y) ++ W (snd y))); [|exact H1].
  apply (keeps_on_fst (fun s => s)). apply keeps_copy_elements.
Qed.
Lemma ok_move_construct r x log n : Live log (block x ++ r) ->
  ok (fun t x => block t ++ block x ++ r) (fun x => block x ++ r) (move_construct c x n) (move_construct' c (x, log) n).
Proof.
  intros H. unfold move_construct, move_construct'. apply ok_get. cbn [fst]. eapply ok_bind; [apply (ok_new _ _ (fun x => block x ++ r)); exact H|].
  intros ah x1 log1 n1 E H1. pose proof (new_same _ _ _ _ _ _ _ E) as ->. cbv beta in H1.
  eapply ok_bind with (WR1 := fun _ q => block x ++ block q ++ r).
  - cbn. (repeat split). eapply live_perm; [exact H1|]. unfold block, tshape. cbn. rewrite !app_assoc. apply Permutation_app_tail, Permutation_app_comm.
  - intros u x2 log2 n2 _ H2. apply ok_ret. exact H2.
Qed.
Lemma ok_move_construct_al r al x log n : Live log (block x ++ r) ->
  ok (fun t x => block t ++ block x ++ r) (fun x => block x ++ r) (move_construct_al c al x n) (move_construct_al' c al (x, log) n).
Proof.
  intros H. unfold move_construct_al, move_construct_al'. apply ok_get. cbn [fst].
  apply (ok_construct (fun x => block x ++ r)); [apply (ok_new_table _ _ _ _ (fun x => block x ++ r)); exact H|].
  intros t x1 log1 n1 H1. apply ok_get. cbn [fst snd]. cbv zeta. destruct (al =? aid x1).
  - cbn. (repeat split). eapply live_perm; [exact H1|]. unfold block, tshape. cbn. rewrite !app_assoc. apply Permutation_app_tail, Permutation_app_comm.
  - apply (pfine_bind (on_fst (reserve c (sz x1))) (on_fst' (reserve' c (sz x1)))); [apply pfine_fst, fine_reserve| |exact H1]. intros _. apply pfine_quiet, keeps_move_elements.
Qed.

(** *** Programs *)
Definition held (w : @mworld K V) : list (N * N) := flat_map (fun o => match o with Some t => block t | None => [] end) w.
Lemma held_set w i t o : slot w i = Some t ->
  exists r, Permutation (held w) (block t ++ r) /\ Permutation (held (set w i o)) (match o with Some t' => block t' | None => [] end ++ r).
Proof.
  unfold slot. revert i. induction w as [|y w IH]; intros [|i] H; cbn [nth_error] in H; try discriminate.
  - subst y. exists (held w). split; reflexivity.
  - destruct (IH i H) as (r & P1 & P2). exists ((match y with Some t => block t | None => [] end) ++ r).
    change (set (y :: w) (S i) o) with (y :: set w i o). unfold held in *. cbn [flat_map]. rewrite P1, P2. split; rewrite !app_assoc; apply Permutation_app_tail, Permutation_app_comm.
Qed.
Lemma held_frame w i t : slot w i = Some t -> exists r, Permutation (held w) (block t ++ r) /\
  forall o, Permutation (held (set w i o)) (match o with Some t' => block t' | None => [] end ++ r).
Proof.
  intros H. destruct (held_set w i t None H) as (r & P1 & P2). exists r. split; [exact P1|]. intros o.
  destruct (held_set w i t o H) as (r' & Q1 & Q2). rewrite Q2. apply Permutation_app_head. rewrite P1 in Q1. apply Permutation_app_inv_l in Q1. now symmetry.
Qed.
Lemma held_push w t : Permutation (held (w ++ [Some t])) (block t ++ held w).
Proof. unfold held. rewrite flat_map_app. cbn. rewrite app_nil_r. apply Permutation_app_comm. Qed.
Definition wfine {A} (m : M (@mworld K V) A) (m' : M (L (@mworld K V)) A) : Prop := forall w log n, Live log (held w) ->
  ok (fun _ => held) held (m w n) (m' (w, log) n).
Lemma wfine_bind {A B} (m : M (@mworld K V) A) m' (f : A -> M (@mworld K V) B) f' : wfine m m' -> (forall a, wfine (f a) (f' a)) -> wfine (bind m f) (bind m' f').
Proof. intros H Hf t log n Hl. eapply ok_bind; [apply H; exact Hl|]. intros a s1 log1 n1 _ H1. apply Hf. exact H1. Qed.
Lemma wfine_ret {A} (a : A) : wfine (ret a) (ret a). Proof. intros t log n Hl. apply ok_ret. exact Hl. Qed.
(** [WR]: what the operation leaves beside the container *)
Lemma ok_run1 {A} (X : A -> list (N * N)) i (m : M table A) m' w log n :
  (forall r t log n, Live log (block t ++ r) -> ok (fun a t => X a ++ block t ++ r) (fun t => block t ++ r) (m t n) (m' (t, log) n)) ->
  Live log (held w) -> ok (fun a w => X a ++ held w) held (run1 i m w n) (run1' i m' (w, log) n).
Proof.
  intros H Hl. unfold run1, run1'. cbn [fst snd]. destruct (slot w i) as [t|] eqn:S; [|exact I].
  destruct (held_frame w i t S) as (r & P1 & P2). specialize (H r t log n (live_perm _ _ _ Hl P1)).
  destruct (m t n) as [a t1 n1|k t1 n1|], (m' (t, log) n) as [a' [t1' l1] n1'|k' [t1' l1] n1'|]; cbn [ok fst snd] in *; try contradiction; auto;
    destruct H as (-> & -> & -> & H); (repeat split); (eapply live_perm; [exact H|]); rewrite (P2 (Some t1)); reflexivity.
Qed.
Lemma wfine_run1 {A} i (m : M table A) m' : fine m m' -> wfine (run1 i m) (run1' i m').
Proof. intros H w log n Hl. apply (ok_run1 (fun _ => []) i m m' w log n); [|exact Hl]. intros. apply H. assumption. Qed.
Lemma slot_set_other (w : @mworld K V) i j o : i <> j -> slot (set w i o) j = slot w j \/ (length w <= i)%nat.
Proof.
  intros N. destruct (Nat.le_gt_cases (length w) i) as [L|L]; [now right|left]. unfold slot, set.
  revert i j N L. induction w as [|y w IH]; intros [|i] [|j] N L; cbn in *; try lia; try reflexivity; try congruence.
  apply (IH i j); lia.
Qed.
Lemma wfine_run2 {A} i j (m : M (table * table) A) m' : pfine m m' -> wfine (run2 i j m) (run2' i j m').
Proof.
  intros H w log n Hl. unfold run2, run2'. cbn [fst snd]. destruct (slot w i) as [t|] eqn:Si; [|exact I]. destruct (slot w j) as [x|] eqn:Sj; [|exact I].
  destruct (Nat.eqb i j) eqn:Eij; [exact I|]. apply Nat.eqb_neq in Eij.
  assert (exists r, Permutation (held w) (pw r (t, x)) /\ forall t' x', Permutation (held (set (set w i (Some t')) j (Some x'))) (pw r (t', x'))) as (r & P1 & P2).
  { destruct (held_frame w i t Si) as (r1 & A1 & A2).
    assert (forall o, slot (set w i o) j = Some x) as Sj'.
    { intros o. destruct (slot_set_other w i j o Eij) as [-> |L]; [exact Sj|]. exfalso. unfold slot in Si. rewrite (proj2 (nth_error_None w i) L) in Si. discriminate. }
    destruct (held_frame _ j x (Sj' None)) as (r2 & B1 & B2). specialize (A2 None) as A3. cbn [app] in A3. rewrite A3 in B1.
    exists r2. split; [unfold pw; cbn [fst snd]; rewrite A1, B1; reflexivity|]. intros t' x'.
    destruct (held_frame _ j x (Sj' (Some t'))) as (r3 & C1 & C2). rewrite (C2 (Some x')). rewrite (A2 (Some t')) in C1. rewrite B1 in C1.
    assert (Permutation (block t' ++ r2) r3) as D.
    { apply (Permutation_app_inv_l (block x)). rewrite <- C1, !app_assoc. apply Permutation_app_tail, Permutation_app_comm. }
    unfold pw. cbn [fst snd]. rewrite <- D, !app_assoc. apply Permutation_app_tail, Permutation_app_comm. }
  specialize (H r (t, x) log n (live_perm _ _ _ Hl P1)).
  destruct (m (t, x) n) as [a s1 n1|k s1 n1|], (m' (t, x, log) n) as [a' [s1' l1] n1'|k' [s1' l1] n1'|]; cbn [ok fst snd] in *; try contradiction; auto;
    destruct H as (-> & -> & -> & H); (repeat split); (eapply live_perm; [exact H|]); rewrite P2; destruct s1; reflexivity.
Qed.
Lemma ok_push t w log n : Live log (block t ++ held w) -> ok (fun _ => held) held ((push t ;;; ret (VUnit (K:=K) (V:=V))) w n) ((quiet (push t) ;;; ret VUnit) (w, log) n).
Proof. intros H. cbn. (repeat split). eapply live_perm; [exact H|]. symmetry. apply held_push. Qed.
Lemma wfine_exec o : wfine (exec c o) (exec' c o).
Proof.
  intros w log n Hl. destruct o as [i o|h p al m|j al|j|j al|i|i j|i j|i j|i j|i j eeq]; cbn [exec exec'].
  - apply wfine_run1; [apply fine_exec1|exact Hl].
  - eapply ok_bind; [apply (ok_new_table _ _ _ _ held); exact Hl|]. intros t w1 log1 n1 _ H1. apply ok_push. exact H1.
  - apply ok_get. cbn [fst]. destruct (slot w j) as [x|]; [|exact I]. cbn [of_option].
    apply (ok_bind (fun _ => held) _ _ (ret x) (ret x)); [apply ok_ret; exact Hl|]. intros x1 w1 log1 n1 _ H1.
    eapply ok_bind; [apply (ok_copy_construct _ _ held); exact H1|]. intros t w2 log2 n2 _ H2. apply ok_push. exact H2.
  - eapply ok_bind; [apply (ok_run1 block); [|exact Hl]|].
    + intros r t log1 n1 H1. apply ok_move_construct. exact H1.
    + intros t w2 log2 n2 _ H2. apply ok_push. exact H2.
  - eapply ok_bind; [apply (ok_run1 block); [|exact Hl]|].
    + intros r t log1 n1 H1. apply ok_move_construct_al. exact H1.
    + intros t w2 log2 n2 _ H2. apply ok_push. exact H2.
  - cbn [fst snd]. destruct (slot w i) as [t|] eqn:S; [|exact I]. destruct (held_frame w i t S) as (r & P1 & P2).
    pose proof (ok_destroy r t log n (live_perm _ _ _ Hl P1)) as H.
    destruct (destroy_table t n) as [a t1 n1|k t1 n1|], (destroy_table' c (t, log) n) as [a' [t1' l1] n1'|k' [t1' l1] n1'|]; cbn [ok fst snd] in *; try contradiction; auto;
      destruct H as (H1 & -> & -> & H); (repeat split); try assumption; (eapply live_perm; [exact H|]); now rewrite (P2 None).
  - apply ok_get. cbn [fst]. destruct (slot w j) as [x|]; [|exact I]. cbn [of_option].
    apply (wfine_bind (ret x) (ret x)); [apply wfine_ret| |exact Hl]. intros x1. apply wfine_bind; [apply wfine_run1, fine_copy_assign|intro; apply wfine_ret].
  - apply (wfine_bind (run2 i j (move_assign c)) (run2' i j (move_assign' c))); [apply wfine_run2, pfine_move_assign|intro; apply wfine_ret|exact Hl].
  - apply (wfine_bind (run2 i j (swap_tables c)) (run2' i j (quiet (swap_tables c)))); [apply wfine_run2, pfine_swap|intro; apply wfine_ret|exact Hl].
  - apply (wfine_bind (run2 i j (merge c)) (run2' i j (merge' c))); [apply wfine_run2, pfine_merge|intro; apply wfine_ret|exact Hl].
  - apply (ok_same (exec c (Equal i j eeq)) held); [|exact Hl]. cbn [exec].
    apply keeps_bind; [apply keeps_get|intro]. apply keeps_bind; [apply keeps_of_option|intro]. apply keeps_bind; [apply keeps_of_option|intro].
    apply keeps_bind; [apply keeps_equal|intro; apply keeps_ret].
Qed.

(** every run of a program has its log, and the log accounts for the blocks of the containers that are there *)
Lemma runs_log rs w : runs c rs w -> exists log, runs' c rs (w, log) /\ Live log (held w).
Proof.
  induction 1 as [|rs w o n r w' R (log & R' & H) P E]; [exists []; split; [constructor|exists []; auto]|].
  pose proof (wfine_exec o w log n H) as X.
  destruct (exec c o w n) as [v w1 n1|k w1 n1|], (exec' c o (w, log) n) as [v' [q l] n1'|k' [q l] n1'|] eqn:E'; cbn [ok returned fst snd] in *; try contradiction;
    destruct X as (-> & -> & -> & X), E as (-> & ->); exists l; (split; [|exact X]);
    (eapply runs'_snoc; [exact R'|exact P|]); rewrite E'; cbn; auto.
Qed.
Lemma log_runs rs q : runs' c rs q -> runs c rs (fst q) /\ Live (snd q) (held (fst q)).
Proof.
  induction 1 as [|rs [w log] o n r w' R (R' & H) P E]; [split; [constructor|exists []; auto]|]. cbn [fst snd] in *.
  pose proof (wfine_exec o w log n H) as X.
  destruct (exec c o w n) as [v w1 n1|k w1 n1|] eqn:E', (exec' c o (w, log) n) as [v' [q l] n1'|k' [q l] n1'|]; cbn [ok returned' fst snd] in *; try contradiction;
    destruct X as (-> & -> & -> & X), E as (-> & ->); cbn [fst snd]; (split; [|exact X]);
    (eapply runs_snoc; [exact R'|exact P|]); rewrite E'; cbn; auto.
Qed.
End Proofs.
