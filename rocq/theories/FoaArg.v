(** The functions of ArgModel.v do what those of FoaModel.v do, and when they use the arguments. *)
From Coq Require Import NArith Bool List Arith Lia Permutation.
From Verif Require Import SizeModel GroupModel GroupSpec FoaModel FoaBase FoaFind FoaArr FoaInv FoaRehash ArgModel.
Import ListNotations.
Local Open Scope nat_scope.
Local Open Scope m_scope.

(** the result without the count *)
Definition er {St A} (r' : R (St * nat) A) (r : R St A) : Prop :=
  match r' with Ret a x n' => r = Ret a (fst x) n' | Exn k x n' => r = Exn k (fst x) n' | Undef => r = Undef end.
Lemma er_bind {St A B} (m' : M (St * nat) A) m (f' : A -> M (St * nat) B) f s k n :
  er (m' (s, k) n) (m s n) -> (forall a s1 k1 n1, er (f' a (s1, k1) n1) (f a s1 n1)) -> er (bind m' f' (s, k) n) (bind m f s n).
Proof.
  intros H Hf. unfold bind. destruct (m' (s, k) n) as [a [s1 k1] n1|kd [s1 k1] n1|]; cbn [er] in H; rewrite H; [apply Hf|reflexivity|reflexivity].
Qed.
Lemma er_other {St A} (m : M St A) s k n : er (other m (s, k) n) (m s n).
Proof. unfold other, lens. cbn [fst]. destruct (m s n); reflexivity. Qed.
Lemma er_on_exn {St A} (m' : M (St * nat) A) m h s k n : er (m' (s, k) n) (m s n) -> er (on_exn m' (other h) (s, k) n) (on_exn m h s n).
Proof.
  intros H. unfold on_exn. destruct (m' (s, k) n) as [a [s1 k1] n1|kd [s1 k1] n1|]; cbn [er] in H; rewrite H; [reflexivity| |reflexivity].
  pose proof (er_other h s1 k1 n1) as X. destruct (other h (s1, k1) n1) as [a [s2 k2] n2|kd2 [s2 k2] n2|]; cbn [er fst] in *; rewrite X; reflexivity.
Qed.
(** what m throws is of a kind in P *)
Definition Th {St A} (P : kind -> Prop) (m : M St A) : Prop := forall s n, match m s n with Exn k _ _ => P k | _ => True end.
(** m does not change the state *)
Definition Qu {St A} (P : kind -> Prop) (m : M St A) : Prop := forall s n, match m s n with Ret _ s' _ => s' = s | Exn k s' _ => s' = s /\ P k | Undef => True end.
Lemma th_bind {St A B} P (m : M St A) (f : A -> M St B) : Th P m -> (forall a, Th P (f a)) -> Th P (bind m f).
Proof. intros H Hf s n. unfold bind. specialize (H s n). destruct (m s n); [apply Hf|exact H|exact I]. Qed.
Lemma qu_bind {St A B} P (m : M St A) (f : A -> M St B) : Qu P m -> (forall a, Qu P (f a)) -> Qu P (bind m f).
Proof. intros H Hf s n. unfold bind. specialize (H s n). destruct (m s n) as [a s1 n1|k s1 n1|]; [subst s1; apply Hf|exact H|exact I]. Qed.
Lemma th_qu {St A} P (m : M St A) : Qu P m -> Th P m. Proof. intros H s n. specialize (H s n). destruct (m s n); try exact I. apply H. Qed.
Lemma th_ret {St A} P (a : A) : Th (St:=St) P (ret a). Proof. intros s n. exact I. Qed.
Lemma th_get {St} P : Th (St:=St) P get. Proof. intros s n. exact I. Qed.
Lemma th_modify {St} P f : Th (St:=St) P (modify f). Proof. intros s n. exact I. Qed.
Lemma th_undef {St A} P : Th (St:=St) (A:=A) P undef. Proof. intros s n. exact I. Qed.
Lemma th_lens {St T A} P g (p : St -> T -> St) (m : M T A) : Th P m -> Th P (lens g p m).
Proof. intros H s n. unfold lens. specialize (H (g s) n). destruct (m (g s) n); auto. Qed.
Lemma th_on_exn {St A} P (m : M St A) h : Th P m -> Th P (on_exn m h).
Proof. intros H s n. unfold on_exn. specialize (H s n). destruct (m s n) as [a s1 n1|k s1 n1|]; auto. destruct (h s1 n1); auto. Qed.
Lemma th_finally {St A} P (m : M St A) h : Th P m -> Th P (finally m h).
Proof. intros H s n. unfold finally. specialize (H s n). destruct (m s n) as [a s1 n1|k s1 n1|]; auto; destruct (h s1 n1); auto. Qed.

Section Arg.
Context {K V : Type} (c : Cfg K V).
Notation arrays := (arrays K V). Notation table := (table K V). Notation RS := (@RS K V).

(** *** kinds of exceptions *)
Lemma qu_tick {St} (P : kind -> Prop) k : P k -> Qu (St:=St) P (tick c k).
Proof. intros H s n. unfold tick. destruct (throws c k n); auto. Qed.
Lemma qu_ret {St A} P (a : A) : Qu (St:=St) P (ret a). Proof. intros s n. reflexivity. Qed.
Lemma qu_undef {St A} P : Qu (St:=St) (A:=A) P undef. Proof. intros s n. exact I. Qed.
Lemma qu_hash {St} (P : kind -> Prop) h k : P KHash -> Qu (St:=St) P (hash_for c h k).
Proof. intros H. apply qu_bind; [apply qu_tick, H|intro; apply qu_ret]. Qed.
Lemma qu_read {St} P (a : arrays) i : Qu (St:=St) P (read_element a i).
Proof. unfold read_element. destruct (get_cell a i) as [[]|]; try apply qu_undef. apply qu_ret. Qed.
Lemma qu_find_in {St} (P : kind -> Prop) p (a : arrays) k g ns : P KEq -> Qu (St:=St) P (find_in_group c p a k g ns).
Proof.
  intros H. induction ns as [|m ns IH]; cbn [find_in_group]; [apply qu_ret|]. apply qu_bind; [apply qu_read|intro e]. apply qu_bind; [apply qu_tick, H|intro].
  destruct (keqf c p k (fst e)); [apply qu_ret|exact IH].
Qed.
Lemma qu_find_loop {St} (P : kind -> Prop) p (a : arrays) k h fuel : P KEq -> forall pb, Qu (St:=St) P (find_loop c fuel p a k h pb).
Proof.
  intros H. induction fuel as [|fuel IH]; intros pb; cbn [find_loop]; [apply qu_undef|]. cbv zeta. destruct (get_group a _) as [b|]; [|apply qu_undef].
  apply qu_bind; [destruct (N.eqb _ 0); [apply qu_ret|apply qu_find_in, H]|]. intros [m|]; [apply qu_ret|]. destruct (b_is_not_overflowed b h); [apply qu_ret|].
  destruct (pb_next pb (a_mask a)) as [pb' []]; [apply IH|apply qu_ret].
Qed.
Lemma qu_new {St} (P : kind -> Prop) al m : P KAlloc -> Qu (St:=St) P (new_arrays (V:=V) c al m).
Proof.
  intros H. unfold new_arrays. destruct (N.eqb m 0); [apply qu_ret|]. destruct (N.leb _ m); [apply qu_undef|]. cbv zeta. destruct (negb _); [apply qu_undef|].
  destruct (N.ltb _ _); [intros s n; auto|]. apply qu_bind; [apply qu_tick, H|intro; apply qu_ret].
Qed.
Lemma th_tick {St} (P : kind -> Prop) k : P k -> Th (St:=St) P (tick c k). Proof. intros H. apply th_qu, qu_tick, H. Qed.
Lemma th_put_cell P i x : Th P (@put_cell K V i x). Proof. intros s n. unfold put_cell. destruct (a_elems s); [destruct (nth_error l i)|]; exact I. Qed.
Lemma th_put_group P g f : Th P (@put_group K V g f).
Proof. intros s n. unfold put_group. destruct (a_elems s); auto. destruct (nth_error _ _); exact I. Qed.
Lemma th_construct (P : kind -> Prop) kd i e : P kd -> Th P (construct_element (V:=V) c kd i e).
Proof. intros H. apply th_bind; [apply th_get|intro a]. destruct (get_cell a i) as [[]|]; try apply th_undef. apply th_bind; [apply th_tick, H|intro; apply th_put_cell]. Qed.
Lemma th_loop (P : kind -> Prop) kd h e fuel : P kd -> forall pb, Th P (emplace_loop (V:=V) c fuel kd h e pb).
Proof.
  intros H. induction fuel as [|fuel IH]; intros pb; cbn [emplace_loop]; [apply th_undef|]. cbv zeta. apply th_bind; [apply th_get|intro a]. destruct (get_group a _) as [b|]; [|apply th_undef].
  destruct (negb _).
  - apply th_bind; [apply th_construct, H|intro]. apply th_bind; [apply th_put_group|intro; apply th_ret].
  - apply th_bind; [apply th_put_group|intro; apply IH].
Qed.
Lemma th_nosize (P : kind -> Prop) kd pos h e : P kd -> Th P (nosize_unchecked_emplace_at (V:=V) c kd pos h e).
Proof. intros H. apply th_bind; [apply th_get|intro]. apply th_loop, H. Qed.
Lemma th_transfer (P : kind -> Prop) g m : P KHash -> P KTransfer -> Th P (transfer_element (V:=V) c g m).
Proof.
  intros H1 H2. unfold transfer_element. apply th_bind; [apply th_get|intro s]. apply th_bind; [apply th_qu, qu_read|intro e]. apply th_bind; [apply th_qu, qu_hash, H1|intro h]. cbv zeta.
  destruct (moves c).
  - apply th_bind; [apply th_modify|intro]. apply th_finally. apply th_bind; [apply th_lens, th_nosize, H2|intro]. apply th_lens, th_lens, th_put_cell.
  - apply th_bind; [apply th_lens, th_nosize, H2|intro; apply th_ret].
Qed.
Lemma th_fa_mask {St} P (f : nat -> nat -> M St bool) g ns : (forall m, Th P (f g m)) -> Th P (fa_mask f g ns).
Proof. intros H. induction ns as [|m ns IH]; cbn [fa_mask]; [apply th_ret|]. apply th_bind; [apply H|intros []; [exact IH|apply th_ret]]. Qed.
Lemma th_fa_groups {St} P (sel : St -> arrays) (f : nat -> nat -> M St bool) last rem : (forall g m, Th P (f g m)) -> forall g, Th P (fa_groups sel f last rem g).
Proof.
  intros H. induction rem as [|rem IH]; intros g; cbn [fa_groups]; [apply th_ret|]. apply th_bind; [apply th_get|intro s]. destruct (get_group (sel s) g); [|apply th_undef].
  apply th_bind; [apply th_fa_mask, H|intros []; [apply IH|apply th_ret]].
Qed.
Lemma th_while {St} P (sel : St -> arrays) (f : nat -> nat -> M St bool) : (forall g m, Th P (f g m)) -> Th P (for_all_while sel f).
Proof. intros H. apply th_bind; [apply th_get|intro s]. destruct (a_elems (sel s)); [|apply th_ret]. cbv zeta. apply th_fa_groups, H. Qed.
Lemma th_for_all {St} P (sel : St -> arrays) (f : nat -> nat -> M St unit) : (forall g m, Th P (f g m)) -> Th P (for_all sel f).
Proof. intros H. apply th_bind; [|intro; apply th_ret]. apply th_while. intros g m. apply th_bind; [apply H|intro; apply th_ret]. Qed.
Lemma th_delete {St} P al (a : arrays) : Th (St:=St) P (delete_arrays al a).
Proof. unfold delete_arrays. destruct (a_elems a); [|apply th_ret]. destruct (_ && _); [apply th_ret|apply th_undef]. Qed.
Lemma th_destroy P i : Th P (@destroy_element K V i).
Proof. apply th_bind; [apply th_get|intro a]. destruct (get_cell a i) as [[]|]; try apply th_undef; apply th_put_cell. Qed.
Definition Moving_kind (k : kind) : Prop := k = KHash \/ k = KTransfer.
Lemma th_rehash_body : Th Moving_kind (unchecked_rehash_body (V:=V) c).
Proof.
  unfold unchecked_rehash_body. apply th_bind; [apply th_on_exn, th_for_all; intros g m; apply th_transfer; [left|right]; reflexivity|intro]. apply th_bind; [apply th_get|intro s].
  apply th_bind; [destruct (negb _); [apply th_for_all; intros g m; apply th_lens, th_lens, th_destroy|apply th_ret]|intro]. apply th_bind; [apply th_get|intro]. apply th_bind; [apply th_delete|intro; apply th_modify].
Qed.

(** *** the same effects *)
Lemma er_construct kd i e a k n : er (a_construct_element c kd i e (a, k) n) (construct_element c kd i e a n).
Proof.
  unfold a_construct_element, construct_element, bind at 1 4, get. cbn [fst]. destruct (get_cell a i) as [[]|]; try reflexivity.
  unfold bind at 1. cbn [modify fst snd]. apply er_bind; [apply er_other|intros; apply er_other].
Qed.
Lemma er_loop kd h e fuel : forall pb a k n, er (a_emplace_loop c fuel kd h e pb (a, k) n) (emplace_loop c fuel kd h e pb a n).
Proof.
  induction fuel as [|fuel IH]; intros pb a k n; cbn [a_emplace_loop emplace_loop]; [reflexivity|]. cbv zeta. rewrite !bind_get. cbn [fst].
  destruct (get_group a _) as [b|]; [|reflexivity]. destruct (negb _).
  - apply er_bind; [apply er_construct|intros _ a1 k1 n1]. apply er_bind; [apply er_other|intros]. reflexivity.
  - apply er_bind; [apply er_other|intros _ a1 k1 n1]. apply IH.
Qed.
Lemma er_nosize kd pos h e a k n : er (a_nosize_unchecked_emplace_at c kd pos h e (a, k) n) (nosize_unchecked_emplace_at c kd pos h e a n).
Proof. unfold a_nosize_unchecked_emplace_at, nosize_unchecked_emplace_at, bind, get. cbn [fst]. apply er_loop. Qed.
Lemma er_unchecked kd pos h e t k n : er (a_unchecked_emplace_at c kd pos h e (t, k) n) (unchecked_emplace_at c kd pos h e t n).
Proof.
  apply er_bind; [|intros; apply er_bind; [apply er_other|intros; reflexivity]]. unfold a_on_arr, on_arr, lens. cbn [fst snd]. pose proof (er_nosize kd pos h e (arr t) k n) as X.
  destruct (a_nosize_unchecked_emplace_at c kd pos h e (arr t, k) n) as [l [a1 k1] n1|kd1 [a1 k1] n1|]; cbn [er fst snd] in *; rewrite X; reflexivity.
Qed.
Lemma er_with_rehash kd h e t k n : er (a_unchecked_emplace_with_rehash c kd h e (t, k) n) (unchecked_emplace_with_rehash c kd h e t n).
Proof.
  unfold a_unchecked_emplace_with_rehash, unchecked_emplace_with_rehash. rewrite !bind_get. cbn [fst snd].
  apply er_bind; [apply er_other|intros na t1 k1 n1]. apply er_bind; [|intros; apply er_bind; [apply er_other|intros; reflexivity]].
  unfold a_with_new, with_new. cbn [fst snd].
  match goal with |- er (match ?m' ?s' ?n' with _ => _ end) (match ?m ?s ?n with _ => _ end) => assert (er (m' s' n') (m s n)) as X end.
  { apply er_bind; [|intros; apply er_bind; [apply er_other|intros; reflexivity]]. apply er_on_exn. unfold a_on_new, on_new, lens. cbn [fst snd rs_new rs_tab].
    pose proof (er_nosize kd (position h (a_gsi na)) h e na k1 n1) as Y.
    destruct (a_nosize_unchecked_emplace_at c kd (position h (a_gsi na)) h e (na, k1) n1) as [l [a1 k2] n2|kd1 [a1 k2] n2|]; cbn [er fst snd] in *; rewrite Y; reflexivity. }
  match goal with |- er (match ?r' with _ => _ end) (match ?r with _ => _ end) => destruct r' as [l [s2 k2] n2|kd1 [s2 k2] n2|]; cbn [er fst snd] in *; rewrite X; reflexivity end.
Qed.
Lemma er_emplace kd e t k n : er (a_emplace_impl c kd e (t, k) n) (emplace_impl c kd e t n).
Proof.
  unfold a_emplace_impl, emplace_impl. rewrite !bind_get. cbn [fst]. apply er_bind; [apply er_other|intros h t1 k1 n1]. cbv zeta. apply er_bind; [apply er_other|intros [l|] t2 k2 n2]; [reflexivity|].
  destruct (N.ltb (sz t) (ml t)); (apply er_bind; [first [apply er_unchecked|apply er_with_rehash]|intros; reflexivity]).
Qed.

(** *** when the arguments are used *)
Definition used {A St} (r : R (St * nat) A) (k : nat) (kd : kind) : Prop := match r with Ret _ x _ => snd x = S k | Exn kd' x _ => snd x = S k /\ kd' = kd | Undef => True end.
Lemma other_ret {St A} (m : M St A) s k n a x n' : other m (s, k) n = Ret a x n' -> snd x = k /\ m s n = Ret a (fst x) n'.
Proof. unfold other, lens. cbn [fst snd]. destruct (m s n); intros H; inversion H; subst; auto. Qed.
Lemma other_exn {St A} (m : M St A) s k n kd x n' : other m (s, k) n = Exn kd x n' -> snd x = k /\ m s n = Exn kd (fst x) n'.
Proof. unfold other, lens. cbn [fst snd]. destruct (m s n); intros H; inversion H; subst; auto. Qed.
Lemma used_loop kd h e fuel : forall pb a k n, used (a_emplace_loop c fuel kd h e pb (a, k) n) k kd.
Proof.
  induction fuel as [|fuel IH]; intros pb a k n; cbn [a_emplace_loop]; [exact I|]. cbv zeta. unfold bind at 1, get. cbn [fst]. destruct (get_group a _) as [b|]; [|exact I]. destruct (negb _).
  - unfold bind at 1. unfold a_construct_element, bind at 1, get. cbn [fst]. destruct (get_cell a _) as [[]|]; try exact I. unfold bind at 1. cbn [modify fst snd]. unfold bind at 1.
    unfold other at 1, lens at 1, tick. cbn [fst snd]. destruct (throws c kd n); [cbn; auto|].
    unfold other at 1, lens at 1. cbn [fst snd]. pose proof (th_put_cell (fun _ => False) (slot_index (N.to_nat (pb_pos pb)) (countr_zero (b_match_available b))) (Live e) a (S n)) as T.
    destruct (put_cell _ _ a (S n)) as [u a1 n1|? ? ?|]; [|destruct T|exact I]. unfold bind at 1, other at 1, lens at 1. cbn [fst snd].
    pose proof (th_put_group (fun _ => False) (N.to_nat (pb_pos pb)) (fun b0 => b_set b0 (countr_zero (b_match_available b)) h) a1 n1) as T2.
    destruct (put_group _ _ a1 n1) as [u2 a2 n2|? ? ?|]; [reflexivity|destruct T2|exact I].
  - unfold bind at 1, other at 1, lens at 1. cbn [fst snd]. pose proof (th_put_group (fun _ => False) (N.to_nat (pb_pos pb)) (fun b0 => b_mark_overflow b0 h) a n) as T2.
    destruct (put_group _ _ a n) as [u2 a2 n2|? ? ?|]; [apply IH|destruct T2|exact I].
Qed.
Lemma used_nosize kd pos h e a k n : used (a_nosize_unchecked_emplace_at c kd pos h e (a, k) n) k kd.
Proof. unfold a_nosize_unchecked_emplace_at, bind, get. cbn [fst]. apply used_loop. Qed.
Lemma used_unchecked kd pos h e t k n : used (a_unchecked_emplace_at c kd pos h e (t, k) n) k kd.
Proof.
  unfold a_unchecked_emplace_at, bind at 1, a_on_arr, lens. cbn [fst snd]. pose proof (used_nosize kd pos h e (arr t) k n) as X.
  destruct (a_nosize_unchecked_emplace_at c kd pos h e (arr t, k) n) as [l [a1 k1] n1|kd1 [a1 k1] n1|]; cbn [used fst snd] in *; [exact X|exact X|exact I].
Qed.
Lemma on_exn_other {St A} (m : M (St * nat) A) (h : M St unit) s n : Th (fun _ => False) h ->
  match on_exn m (other h) s n with Ret a x n1 => m s n = Ret a x n1 | Exn kd x _ => exists s1 n1, m s n = Exn kd (s1, snd x) n1 | Undef => True end.
Proof.
  intros H. unfold on_exn. destruct (m s n) as [a x n1|kd [s1 k1] n1|]; [reflexivity| |exact I]. unfold other, lens. cbn [fst snd]. specialize (H s1 n1).
  destruct (h s1 n1); [cbn [fst snd]; eauto|destruct H|exact I].
Qed.
(** the ways a growing insertion ends *)
Lemma used_with_rehash kd h e t k n :
  match a_unchecked_emplace_with_rehash c kd h e (t, k) n with
  | Ret _ x _ => snd x = S k
  | Exn kd' x _ => (x = (t, k) /\ kd' = KAlloc) \/ (snd x = S k /\ (kd' = kd \/ Moving_kind kd'))
  | Undef => True end.
Proof.
  unfold a_unchecked_emplace_with_rehash, bind at 1, get. cbn [fst]. unfold bind at 1, other at 1, lens at 1. cbn [fst snd].
  pose proof (qu_new (St:=table) (fun kd => kd = KAlloc) (aid t) (growth_request (sz t)) eq_refl t n) as Q. destruct (new_arrays c (aid t) (growth_request (sz t)) t n) as [na t1 n1|kd1 t1 n1|]; [subst t1|destruct Q as [-> ->]; auto|exact I].
  unfold bind at 1, a_with_new. cbn [fst snd]. unfold bind at 1.
  match goal with |- context [on_exn ?m (other ?h) ?s ?n] => pose proof (on_exn_other m h s n (th_bind _ _ _ (th_get _) (fun _ => th_delete _ _ _))) as X; destruct (on_exn m (other h) s n) as [l [s1 k1] n2|kd1 [s1 k1] n2|] end; [| |exact I].
  - unfold a_on_new, lens in X. cbn [fst snd] in X. pose proof (used_nosize kd (position h (a_gsi na)) h e (rs_new (t, na, O)) k n1) as Y.
    destruct (a_nosize_unchecked_emplace_at c kd (position h (a_gsi na)) h e (rs_new (t, na, O), k) n1) as [l2 [a1 k2] n3|kd1 [a1 k2] n3|]; try discriminate X. injection X as <- <- <- <-. cbn [used fst snd] in *. subst k2.
    unfold bind at 1, other at 1, lens at 1. cbn [fst snd]. pose proof (th_rehash_body (rs_tab (t, na, O), a1, O) n3) as T. destruct (unchecked_rehash_body c (rs_tab (t, na, O), a1, O) n3) as [u s3 n4|kd3 s3 n4|]; [|cbn [snd]; auto|exact I].
    cbn [ret fst snd]. unfold bind, other, lens, modify. cbn [fst snd ret]. reflexivity.
  - destruct X as (s2 & n3 & X). unfold a_on_new, lens in X. cbn [fst snd] in X. pose proof (used_nosize kd (position h (a_gsi na)) h e (rs_new (t, na, O)) k n1) as Y.
    destruct (a_nosize_unchecked_emplace_at c kd (position h (a_gsi na)) h e (rs_new (t, na, O), k) n1) as [l2 [a1 k2] n4|kd2 [a1 k2] n4|]; try discriminate X. injection X as <- _ <- _. cbn [used fst snd] in *. tauto.
Qed.
(** the ways an insertion ends *)
Lemma used_emplace kd e t k n :
  match a_emplace_impl c kd e (t, k) n with
  | Ret r x _ => snd x = (if snd r then S k else k) /\ (snd r = false -> fst x = t)
  | Exn kd' x _ => (x = (t, k) /\ (kd' = KHash \/ kd' = KEq \/ (kd' = KAlloc /\ (ml t <= sz t)%N))) \/ (snd x = S k /\ (kd' = kd \/ (Moving_kind kd' /\ (ml t <= sz t)%N)))
  | Undef => True end.
Proof.
  unfold a_emplace_impl, bind at 1, get. cbn [fst]. unfold bind at 1, other at 1, lens at 1. cbn [fst snd].
  pose proof (qu_hash (St:=table) (fun kd => kd = KHash) (hid t) (fst e) eq_refl t n) as Q. destruct (hash_for c (hid t) (fst e) t n) as [h t1 n1|kd1 t1 n1|]; [subst t1|destruct Q as [-> ->]; auto|exact I].
  cbv zeta. unfold bind at 1, other at 1, lens at 1. cbn [fst snd].
  pose proof (qu_find_loop (St:=table) (fun kd => kd = KEq) (pid t) (arr t) (fst e) h (S (length (a_groups (arr t)))) eq_refl (pb_init (position h (a_gsi (arr t)))) t n1) as Q2. fold (find_at (St:=table) c t (fst e) (position h (a_gsi (arr t))) h) in Q2.
  destruct (find_at c t (fst e) (position h (a_gsi (arr t))) h t n1) as [[l|] t1 n2|kd1 t1 n2|]; [subst t1; cbn; auto|subst t1|destruct Q2 as [-> ->]; auto|exact I].
  destruct (N.ltb (sz t) (ml t)) eqn:E; unfold bind.
  - pose proof (used_unchecked kd (position h (a_gsi (arr t))) h e t k n2) as X. destruct (a_unchecked_emplace_at c kd (position h (a_gsi (arr t))) h e (t, k) n2) as [l x n3|kd3 x n3|]; cbn [used] in X; [|right; tauto|exact I].
    cbn. split; [exact X|discriminate].
  - apply N.ltb_ge in E. pose proof (used_with_rehash kd h e t k n2) as X. destruct (a_unchecked_emplace_with_rehash c kd h e (t, k) n2) as [l x n3|kd3 x n3|]; [|tauto|exact I].
    cbn. split; [exact X|discriminate].
Qed.
End Arg.
Section Present.
Context {K V : Type} (c : Cfg K V) (HC : good_cfg c).
Lemma used_present0 kd e t k n : Inv c t -> (exists x, In x (elems (arr t)) /\ keqf c (pid t) (fst e) (fst x) = true) ->
  match a_emplace_impl c kd e (t, k) n with Ret r x _ => snd r = false /\ x = (t, k) | Exn kd' x _ => x = (t, k) /\ (kd' = KHash \/ kd' = KEq) | Undef => True end.
Proof.
  intros H P. unfold a_emplace_impl, bind at 1, get. cbn [fst]. unfold bind at 1, other at 1, lens at 1, hash_for, bind at 1, tick. cbn [fst snd].
  destruct (throws c KHash n); [split; [reflexivity|left; reflexivity]|]. cbn [ret fst snd]. cbv zeta. unfold bind at 1, other at 1, lens at 1. cbn [fst snd].
  pose proof (find_at_ok c t (fst e) t (S n) H) as F. cbv zeta in F.
  destruct (find_at c t (fst e) (position (hash_of c (hid t) (fst e)) (a_gsi (arr t))) (hash_of c (hid t) (fst e)) t (S n)) as [[l|] t1 n2|kd1 t1 n2|]; cbn [outcome] in F; [| | |destruct F].
  - destruct F as [-> _]. split; reflexivity.
  - destruct F as [_ F]. exfalso. destruct P as (x & Hx & Ex). cbn [found] in F. rewrite (F x Hx) in Ex. discriminate.
  - destruct F as (-> & -> & _). split; [reflexivity|right; reflexivity].
Qed.
Lemma used_present kd e t k n : Inv c t -> (exists x, In x (elems (arr t)) /\ keqf c (pid t) (fst e) (fst x) = true) ->
  match a_emplace_impl c kd e (t, k) n with Ret r x _ => snd r = false /\ x = (t, k) | Exn kd' x _ => x = (t, k) /\ (kd' = KHash \/ kd' = KEq) | Undef => False end.
Proof.
  intros H P. pose proof (er_emplace c kd e t k n) as Er. pose proof (emplace_impl_ok c kd t e n HC H) as Ok. pose proof (used_present0 kd e t k n H P) as X.
  destruct (a_emplace_impl c kd e (t, k) n) as [r x n'|k' x n'|]; [exact X|exact X|]. cbn [er] in Er. rewrite Er in Ok. exact Ok.
Qed.
End Present.
