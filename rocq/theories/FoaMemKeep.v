(** The functions that do not allocate leave the arrays where they are: [keeps]. *)
From Coq Require Import NArith Bool List Arith Lia.
From Verif Require Import SizeModel GroupModel FoaModel FoaIterModel FoaSpec FoaWorld MemSpec FoaMem.
Import ListNotations.
Local Open Scope m_scope.
Local Open Scope N_scope.

Definition keeps {St A X} (h : St -> X) (m : M St A) : Prop :=
  forall s n, match m s n with Ret _ s' _ => h s' = h s | Exn _ s' _ => h s' = h s | Undef => True end.

Section Gen.
Context {St X : Type} (h : St -> X).
Lemma keeps_ret {A} (a : A) : keeps h (ret a). Proof. intros s n. reflexivity. Qed.
Lemma keeps_undef {A} : keeps h (undef (A:=A)). Proof. intros s n. exact I. Qed.
Lemma keeps_get : keeps h get. Proof. intros s n. reflexivity. Qed.
Lemma keeps_bind {A B} (m : M St A) (f : A -> M St B) : keeps h m -> (forall a, keeps h (f a)) -> keeps h (bind m f).
Proof.
  intros Hm Hf s n. unfold bind. specialize (Hm s n). destruct (m s n) as [a s' n'|k s' n'|]; [|exact Hm|exact I].
  specialize (Hf a s' n'). destruct (f a s' n'); congruence.
Qed.
(** the rest after a [get] may rely on having read the current state *)
Lemma keeps_bind_get {B} (f : St -> M St B) : (forall s n, match f s s n with Ret _ s' _ => h s' = h s | Exn _ s' _ => h s' = h s | Undef => True end) -> keeps h (bind get f).
Proof. intros Hf s n. exact (Hf s n). Qed.
Lemma keeps_modify f : (forall s, h (f s) = h s) -> keeps h (modify f). Proof. intros H s n. apply H. Qed.
Lemma keeps_on_exn {A} (m : M St A) hd : keeps h m -> keeps h hd -> keeps h (on_exn m hd).
Proof.
  intros Hm Hh s n. unfold on_exn. specialize (Hm s n). destruct (m s n) as [a s' n'|k s' n'|]; [exact Hm| |exact I].
  specialize (Hh s' n'). destruct (hd s' n'); [congruence|exact I|exact I].
Qed.
Lemma keeps_finally {A} (m : M St A) hd : keeps h m -> keeps h hd -> keeps h (finally m hd).
Proof.
  intros Hm Hh s n. unfold finally. specialize (Hm s n). destruct (m s n) as [a s' n'|k s' n'|]; [| |exact I];
    specialize (Hh s' n'); destruct (hd s' n'); try exact I; congruence.
Qed.
Lemma keeps_lens {T Y A} (hT : T -> Y) (g : St -> T) p (m : M T A) :
  keeps hT m -> (forall s t, hT t = hT (g s) -> h (p s t) = h s) -> keeps h (lens g p m).
Proof. intros Hm Hp s n. unfold lens. specialize (Hm (g s) n). destruct (m (g s) n); [auto|auto|exact I]. Qed.
Lemma keeps_of_option {A} (o : option A) : keeps h (of_option o).
Proof. destruct o; [apply keeps_ret|apply keeps_undef]. Qed.
End Gen.
Lemma keeps_id {St A X} (m : M St A) (h : St -> X) : keeps (fun s => s) m -> keeps h m.
Proof. intros H s n. specialize (H s n). destruct (m s n); try exact I; congruence. Qed.

Create HintDb kp.
#[global] Hint Resolve keeps_ret keeps_undef keeps_get keeps_of_option : kp.
#[global] Hint Extern 2 (keeps _ (bind _ _)) => apply keeps_bind; [|intro] : kp.
#[global] Hint Extern 2 (keeps _ (on_exn _ _)) => apply keeps_on_exn : kp.
#[global] Hint Extern 2 (keeps _ (finally _ _)) => apply keeps_finally : kp.
#[global] Hint Extern 3 (keeps _ (match ?x with _ => _ end)) => destruct x : kp.
Ltac kp := auto 30 with kp.

Section Keep.
Context {K V : Type} (c : Cfg K V).
Notation arrays := (arrays K V).
Notation table := (table K V).

(** what of the arrays matters to the allocator *)
Definition shape (a : arrays) : bool * N * N := (match a_elems a with Some _ => true | None => false end, a_owner a, a_mask a).
Definition tshape (t : table) : bool * N * N := shape (arr t).
Definition rshape (s : @RS K V) := (tshape (rs_tab s), shape (rs_new s)).
Definition pshape (s : table * table) := (tshape (fst s), tshape (snd s)).

Lemma keeps_tick {St X} (h : St -> X) k : keeps h (tick c k).
Proof. intros s n. unfold tick. destruct (throws c k n); reflexivity. Qed.
Hint Resolve keeps_tick : kp.
Lemma keeps_hash {St X} (h : St -> X) i k : keeps h (hash_for c i k). Proof. unfold hash_for. kp. Qed.
Lemma keeps_read {St X} (h : St -> X) (a : arrays) i : keeps h (read_element a i). Proof. unfold read_element. kp. Qed.
Hint Resolve keeps_hash keeps_read : kp.
Lemma keeps_find_in {St X} (h : St -> X) p (a : arrays) k g ns : keeps h (find_in_group c p a k g ns).
Proof. induction ns as [|n r IH]; cbn [find_in_group]; kp. Qed.
Hint Resolve keeps_find_in : kp.
Lemma keeps_find_loop {St X} (h : St -> X) fuel p (a : arrays) k x pb : keeps h (find_loop c fuel p a k x pb).
Proof. revert pb. induction fuel as [|f IH]; intros pb; cbn [find_loop]; kp. Qed.
Hint Resolve keeps_find_loop : kp.
Lemma keeps_find_at {St X} (h : St -> X) (t : table) k p x : keeps h (find_at c t k p x). Proof. unfold find_at. kp. Qed.
Hint Resolve keeps_find_at : kp.
Lemma keeps_find {St X} (h : St -> X) (t : table) k : keeps h (FoaModel.find c t k). Proof. unfold FoaModel.find. kp. Qed.
Hint Resolve keeps_find : kp.
Lemma keeps_walk {St X} (h : St -> X) fuel (a : arrays) it l : keeps h (walk c fuel a it l).
Proof. revert it. induction fuel as [|f IH]; intros it; cbn [walk]; kp. unfold it_deref. kp. Qed.
Hint Resolve keeps_walk : kp.
Lemma keeps_iterate {St X} (h : St -> X) (t : table) : keeps h (m_iterate c t). Proof. unfold m_iterate. kp. Qed.
Hint Resolve keeps_iterate : kp.
Lemma keeps_fa {St X} (h : St -> X) (sel : St -> arrays) f :
  (forall g n, keeps h (f g n)) -> keeps h (for_all_while sel f).
Proof.
  intros Hf. assert (forall g ns, keeps h (fa_mask f g ns)) as H1 by (intros g ns; induction ns; cbn [fa_mask]; kp).
  assert (forall last rem g, keeps h (fa_groups sel f last rem g)) as H2.
  { intros last rem. induction rem as [|r IH]; intros g; cbn [fa_groups]; kp. }
  unfold for_all_while. kp.
Qed.
Lemma keeps_for_all {St X} (h : St -> X) (sel : St -> arrays) f : (forall g n, keeps h (f g n)) -> keeps h (for_all sel f).
Proof. intros Hf. unfold for_all. apply keeps_bind; [apply keeps_fa; intros; kp|intro; kp]. Qed.
Hint Extern 1 (keeps _ (for_all_while _ _)) => apply keeps_fa; intros : kp.
Hint Extern 1 (keeps _ (for_all _ _)) => apply keeps_for_all; intros : kp.

Lemma keeps_put_group g f : keeps shape (put_group (K:=K) (V:=V) g f).
Proof. intros a n. unfold put_group. destruct (a_elems a) eqn:E; [|exact I]. destruct (nth_error (a_groups a) g); [|exact I]. unfold shape. cbn. rewrite E. reflexivity. Qed.
Lemma keeps_put_cell i x : keeps shape (put_cell (K:=K) (V:=V) i x).
Proof. intros a n. unfold put_cell. destruct (a_elems a) eqn:E; [|exact I]. destruct (nth_error _ i); [|exact I]. unfold shape. cbn. rewrite E. reflexivity. Qed.
Hint Resolve keeps_put_group keeps_put_cell : kp.
Lemma keeps_construct kd i e : keeps shape (construct_element c kd i e). Proof. unfold construct_element. kp. Qed.
Lemma keeps_destroy i : keeps shape (destroy_element (K:=K) (V:=V) i). Proof. unfold destroy_element. kp. Qed.
Hint Resolve keeps_construct keeps_destroy : kp.
Lemma keeps_emplace_loop fuel kd x e pb : keeps shape (emplace_loop c fuel kd x e pb).
Proof. revert pb. induction fuel as [|f IH]; intros pb; cbn [emplace_loop]; kp. Qed.
Hint Resolve keeps_emplace_loop : kp.
Lemma keeps_emplace_at kd p x e : keeps shape (nosize_unchecked_emplace_at c kd p x e). Proof. unfold nosize_unchecked_emplace_at. kp. Qed.
Hint Resolve keeps_emplace_at : kp.
Lemma keeps_on_arr {A} (m : M arrays A) : keeps shape m -> keeps tshape (on_arr m).
Proof. intros H. unfold on_arr. apply keeps_lens with (hT := shape); [exact H|]. intros s t E. exact E. Qed.
Hint Resolve keeps_on_arr : kp.
Hint Extern 2 (keeps _ (modify _)) => apply keeps_modify; reflexivity : kp.
Lemma keeps_unchecked_emplace kd p x e : keeps tshape (unchecked_emplace_at c kd p x e). Proof. unfold unchecked_emplace_at. kp. Qed.
Hint Resolve keeps_unchecked_emplace : kp.
Lemma keeps_unchecked_insert kd e : keeps tshape (unchecked_insert c kd e). Proof. unfold unchecked_insert. kp. Qed.
Lemma keeps_recover g n : keeps tshape (recover_slot (K:=K) (V:=V) g n). Proof. unfold recover_slot. kp. Qed.
Hint Resolve keeps_unchecked_insert keeps_recover : kp.
Lemma keeps_erase_at g n : keeps tshape (erase_at (K:=K) (V:=V) g n). Proof. unfold erase_at. kp. Qed.
Hint Resolve keeps_erase_at : kp.
Lemma keeps_on_tab {A} (m : M table A) : keeps tshape m -> keeps rshape (on_tab m).
Proof. intros H. unfold on_tab. apply keeps_lens with (hT := tshape); [exact H|]. intros s t E. unfold rshape. cbn. unfold rs_tab in *. rewrite E. reflexivity. Qed.
Lemma keeps_on_new {A} (m : M arrays A) : keeps shape m -> keeps rshape (on_new m).
Proof. intros H. unfold on_new. apply keeps_lens with (hT := shape); [exact H|]. intros s t E. unfold rshape. cbn. unfold rs_tab, rs_new in *. rewrite E. reflexivity. Qed.
Hint Resolve keeps_on_tab keeps_on_new : kp.
Lemma keeps_transfer g n : keeps rshape (transfer_element c g n). Proof. unfold transfer_element. kp. Qed.
Hint Resolve keeps_transfer : kp.
Lemma keeps_on_fst {St X A} (hS : St -> X) (m : M table A) : keeps tshape m -> keeps (fun s => (tshape (fst s), hS (snd s))) (on_fst (St:=St) m).
Proof. intros H. unfold on_fst. apply keeps_lens with (hT := tshape); [exact H|]. intros s t E. cbn. rewrite E. reflexivity. Qed.
Lemma keeps_on_fst_p {A} (m : M table A) : keeps tshape m -> keeps pshape (on_fst m). Proof. apply (keeps_on_fst tshape). Qed.
Lemma keeps_on_fst_0 {St A} (m : M table A) : keeps tshape m -> keeps (fun s : table * St => tshape (fst s)) (on_fst m).
Proof. intros H. unfold on_fst. apply keeps_lens with (hT := tshape); [exact H|]. intros s t E. exact E. Qed.
Lemma keeps_on_snd {A} (m : M table A) : keeps tshape m -> keeps pshape (on_snd m).
Proof. intros H. unfold on_snd. apply keeps_lens with (hT := tshape); [exact H|]. intros s t E. unfold pshape. cbn. rewrite E. reflexivity. Qed.
Hint Resolve keeps_on_fst keeps_on_fst_0 keeps_on_fst_p keeps_on_snd : kp.
Lemma keeps_clear : keeps tshape (clear (K:=K) (V:=V)).
Proof.
  assert (forall g ns, keeps tshape (clear_mask (K:=K) (V:=V) g ns)) as H1 by (intros g ns; induction ns; cbn [clear_mask]; kp).
  assert (forall last rem g, keeps tshape (clear_groups (K:=K) (V:=V) last rem g)) as H2.
  { intros last rem. induction rem as [|r IH]; intros g; cbn [clear_groups]; kp. }
  unfold clear. kp.
Qed.
Hint Resolve keeps_clear : kp.
Lemma keeps_copy_array x : keeps (fun s : table * nat => tshape (fst s)) (copy_elements_array_from c x).
Proof. unfold copy_elements_array_from. kp. Qed.
Lemma keeps_fast_copy x : keeps tshape (fast_copy_elements_from c x).
Proof.
  unfold fast_copy_elements_from. apply keeps_bind_get. intros t n.
  destruct (a_elems (arr t)) as [l|] eqn:E; [|reflexivity]. destruct (a_elems (arr x)); [|reflexivity].
  unfold bind, with_counter. pose proof (keeps_copy_array x (t, O) n) as H. destruct (copy_elements_array_from c x (t, O) n) as [a s' n'|k s' n'|]; [|exact H|exact I].
  exact H.
Qed.
Hint Resolve keeps_fast_copy : kp.
Lemma keeps_copy_elements x : keeps tshape (copy_elements_from c x). Proof. unfold copy_elements_from. kp. Qed.
Hint Resolve keeps_copy_elements : kp.
Lemma keeps_move_elements : keeps pshape (move_elements c). Proof. unfold move_elements. kp. Qed.
Hint Resolve keeps_move_elements : kp.
Lemma keeps_erase_it it : keeps tshape (erase_it (K:=K) (V:=V) it). Proof. unfold erase_it. kp. Qed.
Hint Resolve keeps_erase_it : kp.
Lemma keeps_m_erase_at it : keeps tshape (m_erase_at c it). Proof. unfold m_erase_at. kp. Qed.
Hint Resolve keeps_m_erase_at : kp.
Lemma keeps_erase_range fuel i j : keeps tshape (m_erase_range c fuel i j).
Proof. revert i. induction fuel as [|f IH]; intros i; cbn [m_erase_range]; kp. Qed.
Lemma keeps_erase_loop fuel pr i : keeps tshape (erase_loop c fuel pr i).
Proof. revert i. induction fuel as [|f IH]; intros i; cbn [erase_loop]; unfold it_deref; kp. Qed.
Hint Resolve keeps_erase_range keeps_erase_loop : kp.
Lemma keeps_m_find k : keeps tshape (m_find c k). Proof. unfold m_find. kp. Qed.
Lemma keeps_m_find_it k : keeps tshape (m_find_it c k). Proof. unfold m_find_it. kp. Qed.
Hint Resolve keeps_m_find keeps_m_find_it : kp.
Lemma keeps_m_erase k : keeps tshape (m_erase c k). Proof. unfold m_erase. kp. Qed.
Hint Resolve keeps_m_erase : kp.
Lemma keeps_erase_if pr : keeps (fun s : table * list (K * V) => tshape (fst s)) (erase_if c pr).
Proof. unfold erase_if. kp. Qed.
Lemma keeps_equal {St X} (h : St -> X) eeq (x y : table) : keeps h (equal_tables c eeq x y).
Proof. unfold equal_tables. kp. Qed.
Lemma keeps_swap_hp : keeps pshape (swap_hp (K:=K) (V:=V)). Proof. unfold swap_hp. kp. Qed.

Lemma keeps_exec1 o :
  match o with Insert _ | InsertRange _ | AssignList _ | InsertOrAssign _ _ | Index _ _ | Rehash _ | Reserve _ | MergeSelf => True
  | _ => keeps tshape (exec1 c o) end.
Proof.
  destruct o; try exact I; cbn [exec1]; unfold m_at, m_count, m_contains, m_equal_range, it_deref; kp.
  intros t n. pose proof (keeps_erase_if (fun _ => pr) (t, []) n) as H. destruct (erase_if c (fun _ => pr) (t, []) n); [exact H|exact H|exact I].
Qed.
End Keep.
