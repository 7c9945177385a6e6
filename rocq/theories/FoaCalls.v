(** Calls of user-supplied functions by the open-addressing containers. *)
From Coq Require Import NArith Bool List Arith Lia ZifyBool ZifyNat ZifyN.
From Verif Require Import SizeModel SizeProofs GroupModel GroupSpec FoaModel FoaGroup FoaBase FoaFind FoaArr FoaInv FoaIterModel FoaSpec FoaWorld CallSpec.
Import ListNotations.
Local Open Scope nat_scope.

(** *** generic rules *)
Definition Nc {St A} (m : M St A) : Prop := forall s n, no_calls (m s n) n.
Definition Cb {St A} (d : nat) (m : M St A) : Prop := forall s n, calls (m s n) n d.
Lemma nc_ret {St A} (a : A) : Nc (ret (St:=St) a). Proof. intros s n. reflexivity. Qed.
Lemma nc_undef {St A} : Nc (@undef St A). Proof. intros s n. exact I. Qed.
Lemma nc_get {St} : Nc (@get St). Proof. intros s n. reflexivity. Qed.
Lemma nc_put {St} (s0 : St) : Nc (put s0). Proof. intros s n. reflexivity. Qed.
Lemma nc_modify {St} (f : St -> St) : Nc (modify f). Proof. intros s n. reflexivity. Qed.
Lemma nc_opt {St A} (o : option A) : Nc (of_option (St:=St) o). Proof. intros s n. destruct o; reflexivity || exact I. Qed.
Lemma nc_bind {St A B} (m : M St A) (f : A -> M St B) : Nc m -> (forall a, Nc (f a)) -> Nc (bind m f).
Proof. intros H Hf s n. unfold bind. specialize (H s n). destruct (m s n) as [a s' n'|k s' n'|]; cbn in *; [subst; apply Hf|contradiction|exact I]. Qed.
Lemma nc_lens {St T A} g (p : St -> T -> St) (m : M T A) : Nc m -> Nc (lens g p m).
Proof. intros H s n. unfold lens. specialize (H (g s) n). destruct (m (g s) n); cbn in *; auto. Qed.
Lemma nc_on_exn {St A} (m : M St A) h : Nc m -> Nc (on_exn m h).
Proof. intros H s n. unfold on_exn. specialize (H s n). destruct (m s n); cbn in *; auto; contradiction. Qed.
Lemma nc_finally {St A} (m : M St A) h : Nc m -> Nc h -> Nc (finally m h).
Proof. intros H H2 s n. unfold finally. specialize (H s n). destruct (m s n) as [a s' n'|k s' n'|]; cbn in *; auto; [|contradiction]. subst. specialize (H2 s' n). destruct (h s' n); cbn in *; auto. Qed.
Lemma nc_cb {St A} (m : M St A) d : Nc m -> Cb d m.
Proof. intros H s n. specialize (H s n). destruct (m s n); cbn in *; [subst; lia|contradiction|exact I]. Qed.
Lemma cb_le {St A} (m : M St A) d d' : Cb d m -> d <= d' -> Cb d' m.
Proof. intros H L s n. specialize (H s n). destruct (m s n); cbn in *; lia || exact I. Qed.
Lemma calls_le {St A} (r : R St A) n d d' : calls r n d -> d <= d' -> calls r n d'.
Proof. destruct r; cbn; intros; lia || exact I. Qed.
Lemma cb_bind {St A B} (m : M St A) (f : A -> M St B) d1 d2 : Cb d1 m -> (forall a, Cb d2 (f a)) -> Cb (d1 + d2) (bind m f).
Proof. intros H Hf s n. unfold bind. specialize (H s n). destruct (m s n) as [a s' n'|k s' n'|]; cbn in *; [specialize (Hf a s' n'); destruct (f a s' n'); cbn in *; lia || exact I|lia|exact I]. Qed.
Lemma cb_then0 {St A B} (m : M St A) (f : A -> M St B) d : Nc m -> (forall a, Cb d (f a)) -> Cb d (bind m f).
Proof. intros H Hf. apply (cb_bind m f 0 d); [apply nc_cb; exact H|exact Hf]. Qed.
Lemma cb_0then {St A B} (m : M St A) (f : A -> M St B) d : Cb d m -> (forall a, Nc (f a)) -> Cb d (bind m f).
Proof. intros H Hf. eapply cb_le; [apply (cb_bind m f d 0); [exact H|intro; apply nc_cb, Hf]|lia]. Qed.
Lemma cb_lens {St T A} g (p : St -> T -> St) (m : M T A) d : Cb d m -> Cb d (lens g p m).
Proof. intros H s n. unfold lens. specialize (H (g s) n). destruct (m (g s) n); cbn in *; auto. Qed.
Lemma cb_on_exn {St A} (m : M St A) h d : Cb d m -> Nc h -> Cb d (on_exn m h).
Proof. intros H H2 s n. unfold on_exn. specialize (H s n). destruct (m s n) as [a s' n'|k s' n'|]; cbn in *; auto. specialize (H2 s' n'). destruct (h s' n'); cbn in *; subst; auto. Qed.
Lemma cb_finally {St A} (m : M St A) h d : Cb d m -> Nc h -> Cb d (finally m h).
Proof. intros H H2 s n. unfold finally. specialize (H s n). destruct (m s n) as [a s' n'|k s' n'|]; cbn in *; auto; specialize (H2 s' n'); destruct (h s' n'); cbn in *; subst; auto. Qed.
Lemma calls_bind {St A B} (m : M St A) (f : A -> M St B) s n d1 d2 : calls (m s n) n d1 -> (forall a s' n', m s n = Ret a s' n' -> calls (f a s' n') n' d2) -> calls (bind m f s n) n (d1 + d2).
Proof. intros H Hf. unfold bind. destruct (m s n) as [a s' n'|k s' n'|]; cbn in *; [specialize (Hf a s' n' eq_refl); destruct (f a s' n'); cbn in *; lia || exact I|lia|exact I]. Qed.

Lemma calls_ret {St A} (a : A) (s : St) n d : calls (ret a s n) n d.
Proof. cbn. lia. Qed.
Lemma nodup_map_in {A B} (f : A -> B) l : (forall x y, In x l -> In y l -> f x = f y -> x = y) -> NoDup l -> NoDup (map f l).
Proof.
  induction l as [|x l IH]; intros H ND; cbn; [constructor|]. inversion ND; subst. constructor; [|apply IH; [intros; apply H; try right; assumption|assumption]].
  intros C. apply in_map_iff in C as (y & E & Hy). apply H in E; [subst; contradiction|right; exact Hy|left; reflexivity].
Qed.
Section C.
Context {K V : Type} (c : Cfg K V).
Notation arrays := (arrays K V).
Notation table := (table K V).
Lemma cb_tick {St} k : Cb (St:=St) 1 (tick c k).
Proof. intros s n. unfold tick. destruct (throws c k n); cbn; lia. Qed.
Lemma cb_hash {St} h k : Cb (St:=St) 1 (hash_for c h k).
Proof. unfold hash_for. apply cb_0then; [apply cb_tick|intro; apply nc_ret]. Qed.
Lemma nc_put_cell i x : Nc (@put_cell K V i x).
Proof. intros s n. unfold put_cell. destruct (a_elems s) as [l|]; [|exact I]. destruct (nth_error l i); reflexivity || exact I. Qed.
Lemma nc_put_group g f : Nc (@put_group K V g f).
Proof. intros s n. unfold put_group. destruct (a_elems s) as [l|]; [|exact I]. destruct (nth_error (a_groups s) g); reflexivity || exact I. Qed.
Lemma nc_destroy i : Nc (@destroy_element K V i).
Proof. unfold destroy_element. apply nc_bind; [apply nc_get|]. intros a. destruct (get_cell a i) as [[]|]; apply nc_undef || apply nc_put_cell. Qed.
Lemma nc_read {St} (a : arrays) i : Nc (St:=St) (read_element a i).
Proof. unfold read_element. destruct (get_cell a i) as [[]|]; apply nc_undef || apply nc_ret. Qed.
Lemma cb_construct kd i e : Cb 1 (construct_element (V:=V) c kd i e).
Proof. unfold construct_element. apply cb_then0; [apply nc_get|]. intros a. destruct (get_cell a i) as [[]|]; try apply nc_cb, nc_undef. apply cb_0then; [apply cb_tick|intro; apply nc_put_cell]. Qed.
Lemma nc_on_arr {A} (m : M arrays A) : Nc m -> Nc (on_arr m). Proof. apply nc_lens. Qed.
Lemma nc_on_tab {A} (m : M table A) : Nc m -> Nc (on_tab m). Proof. apply nc_lens. Qed.
Lemma nc_on_new {A} (m : M arrays A) : Nc m -> Nc (on_new m). Proof. apply nc_lens. Qed.
Lemma nc_recover g n : Nc (@recover_slot K V g n).
Proof.
  unfold recover_slot. apply nc_bind; [apply nc_get|]. intros t. destruct (get_group (arr t) g); [|apply nc_undef].
  apply nc_bind; [apply nc_modify|intro]. apply nc_bind; [apply nc_on_arr, nc_put_group|intro]. apply nc_modify.
Qed.
Lemma nc_erase_at g n : Nc (@erase_at K V g n).
Proof. unfold erase_at. apply nc_bind; [apply nc_on_arr, nc_destroy|intro; apply nc_recover]. Qed.
Lemma nc_delete {St} al a : Nc (@delete_arrays K V St al a).
Proof. unfold delete_arrays. destruct (a_elems a) as [l|]; [|apply nc_ret]. destruct (_ && _); [apply nc_ret|apply nc_undef]. Qed.
Lemma cb_new {St} al n : Cb (St:=St) 1 (new_arrays c al n).
Proof.
  unfold new_arrays. destruct (n =? 0)%N; [apply nc_cb, nc_ret|]. destruct (2 ^ 64 <=? n)%N; [apply nc_cb, nc_undef|]. destruct (negb _); [apply nc_cb, nc_undef|].
  destruct (gmax c <? _)%N; [intros s m; cbn; lia|]. apply cb_0then; [apply cb_tick|intro; apply nc_ret].
Qed.
(** traversal *)
Lemma nc_mask {St} (f : nat -> nat -> M St bool) g ns : (forall n, Nc (f g n)) -> Nc (fa_mask f g ns).
Proof. intros H. induction ns as [|n r IH]; cbn [fa_mask]; [apply nc_ret|]. apply nc_bind; [apply H|]. intros []; [exact IH|apply nc_ret]. Qed.
Lemma nc_groups {St} (sel : St -> arrays) f last rem : forall g, (forall g n, Nc (f g n)) -> Nc (fa_groups sel f last rem g).
Proof.
  induction rem as [|rem IH]; intros g H; cbn [fa_groups]; [apply nc_ret|]. apply nc_bind; [apply nc_get|]. intros s. destruct (get_group (sel s) g); [|apply nc_undef].
  apply nc_bind; [apply nc_mask, H|]. intros []; [apply IH, H|apply nc_ret].
Qed.
Lemma nc_while {St} (sel : St -> arrays) f : (forall g n, Nc (f g n)) -> Nc (for_all_while sel f).
Proof. intros H. unfold for_all_while. apply nc_bind; [apply nc_get|]. intros s. destruct (a_elems (sel s)); [apply nc_groups, H|apply nc_ret]. Qed.
Lemma nc_for_all {St} (sel : St -> arrays) f : (forall g n, Nc (f g n)) -> Nc (for_all sel f).
Proof. intros H. unfold for_all. apply nc_bind; [|intro; apply nc_ret]. apply nc_while. intros g n. apply nc_bind; [apply H|intro; apply nc_ret]. Qed.
(** clear *)
Lemma nc_clear_mask g ns : Nc (@clear_mask K V g ns).
Proof. induction ns as [|n r IH]; cbn [clear_mask]; [apply nc_ret|]. apply nc_bind; [apply nc_on_arr, nc_destroy|intro; exact IH]. Qed.
Lemma nc_clear_groups last rem : forall g, Nc (@clear_groups K V last rem g).
Proof.
  induction rem as [|rem IH]; intros g; cbn [clear_groups]; [apply nc_ret|]. apply nc_bind; [apply nc_get|]. intros t. destruct (get_group (arr t) g); [|apply nc_undef].
  apply nc_bind; [apply nc_clear_mask|intro]. apply nc_bind; [apply nc_on_arr, nc_put_group|intro; apply IH].
Qed.
Lemma nc_clear : Nc (@clear K V).
Proof.
  unfold clear. apply nc_bind; [apply nc_get|]. intros t. destruct (a_elems (arr t)); [|apply nc_ret]. apply nc_bind; [apply nc_clear_groups|intro].
  apply nc_bind; [apply nc_on_arr, nc_put_group|intro; apply nc_modify].
Qed.
Lemma nc_destroy_table : Nc (@destroy_table K V).
Proof. unfold destroy_table. apply nc_bind; [apply nc_for_all; intros; apply nc_on_arr, nc_destroy|intro]. apply nc_bind; [apply nc_get|intro; apply nc_delete]. Qed.
Lemma nc_new0 {St} al : Nc (St:=St) (new_arrays c al 0). Proof. apply nc_ret. Qed.
Lemma nc_move_construct : Nc (move_construct c).
Proof. unfold move_construct. apply nc_bind; [apply nc_get|intro]. apply nc_bind; [apply nc_new0|intro]. apply nc_bind; [apply nc_put|intro; apply nc_ret]. Qed.
Lemma nc_swap : Nc (swap_tables c).
Proof.
  unfold swap_tables. apply nc_bind; [apply nc_get|intro]. apply nc_bind; [destruct (pocs c); [apply nc_modify|destruct (_ =? _)%N; [apply nc_ret|apply nc_undef]]|intro].
  apply nc_bind; [apply nc_modify|intro]. apply nc_bind; [apply nc_modify|intro; apply nc_modify].
Qed.
(** iteration, erasure at iterators *)
Lemma nc_deref {St} (a : arrays) it : Nc (St:=St) (it_deref a it).
Proof. unfold it_deref. destruct (it_p it); [apply nc_read|apply nc_undef]. Qed.
Lemma nc_walk {St} fuel : forall (a : arrays) it last, Nc (St:=St) (walk c fuel a it last).
Proof.
  induction fuel as [|fuel IH]; intros a it last; cbn [walk]; [apply nc_undef|]. destruct (it_eqb it last); [apply nc_ret|]. apply nc_bind; [apply nc_deref|intro].
  apply nc_bind; [apply nc_opt|intro]. apply nc_bind; [apply IH|intro; apply nc_ret].
Qed.
Lemma nc_erase_it it : Nc (@erase_it K V it).
Proof. unfold erase_it. destruct (it_p it); [|apply nc_undef]. apply nc_bind; [apply nc_on_arr, nc_destroy|intro; apply nc_recover]. Qed.
Lemma nc_m_erase_at it : Nc (m_erase_at c it).
Proof. unfold m_erase_at. apply nc_bind; [apply nc_erase_it|intro]. apply nc_bind; [apply nc_get|intro; apply nc_opt]. Qed.
Lemma nc_erase_range fuel : forall first last, Nc (m_erase_range c fuel first last).
Proof.
  induction fuel as [|fuel IH]; intros a b; cbn [m_erase_range]; [apply nc_undef|]. destruct (it_eqb a b); [apply nc_ret|]. apply nc_bind; [apply nc_get|intro].
  apply nc_bind; [apply nc_opt|intro]. apply nc_bind; [apply nc_erase_it|intro; apply IH].
Qed.
Lemma nc_erase_loop pr fuel : forall it, Nc (erase_loop c fuel pr it).
Proof.
  induction fuel as [|fuel IH]; intros it; cbn [erase_loop]; [apply nc_undef|]. destruct (it_eqb it it_end); [apply nc_ret|]. apply nc_bind; [apply nc_get|intro].
  apply nc_bind; [apply nc_deref|intros e]. apply nc_bind; [destruct (pr e); [apply nc_m_erase_at|apply nc_opt]|intro]. apply nc_bind; [apply IH|intro; apply nc_ret].
Qed.
(** *** operations that call nothing *)
Definition silent1 (o : op1 K V) : bool := match o with EraseNth _ | EraseRange _ _ | EraseLoop _ | Clear | Iterate | Size => true | _ => false end.
Lemma nc_exec1 o : silent1 o = true -> Nc (exec1 c o).
Proof.
  destruct o; intros H; try discriminate; cbn [exec1].
  - apply nc_bind; [apply nc_get|intro]. apply nc_bind; [apply nc_opt|intro]. apply nc_bind; [apply nc_erase_loop|intro; apply nc_ret].
  - apply nc_bind; [apply nc_get|intro]. apply nc_bind; [apply nc_opt|intro]. apply nc_bind; [apply nc_deref|intro]. apply nc_bind; [apply nc_m_erase_at|intro; apply nc_ret].
  - apply nc_bind; [apply nc_get|intro]. apply nc_bind; [apply nc_opt|intro]. apply nc_bind; [apply nc_opt|intro]. apply nc_bind; [apply nc_erase_range|intro; apply nc_ret].
  - apply nc_bind; [apply nc_clear|intro; apply nc_ret].
  - apply nc_bind; [apply nc_get|intro]. apply nc_bind; [|intro; apply nc_ret]. unfold m_iterate. apply nc_bind; [apply nc_opt|intro; apply nc_walk].
  - apply nc_bind; [apply nc_get|intro; apply nc_ret].
Qed.
Definition silent (w : @mworld K V) (o : op K V) : Prop :=
  match o with
  | On _ o => silent1 o = true
  | MoveConstruct _ | Destroy _ | Swap _ _ => True
  | MoveAssign i j => exists t x, slot w i = Some t /\ slot w j = Some x /\ (pocma c = true \/ aid t = aid x)
  | New _ _ _ n => n = 0%N
  | _ => False
  end.
Lemma nc_run1 {A} i (m : M table A) : Nc m -> Nc (run1 i m).
Proof. intros H w n. unfold run1. destruct (slot w i) as [t|]; [|exact I]. specialize (H t n). destruct (m t n); cbn in *; auto. Qed.
Lemma nc_run2 {A} i j (m : M (table * table) A) : Nc m -> Nc (run2 i j m).
Proof. intros H w n. unfold run2. destruct (slot w i) as [t|]; [|exact I]. destruct (slot w j) as [x|]; [|exact I]. destruct (i =? j); [exact I|]. specialize (H (t, x) n). destruct (m (t, x) n); cbn in *; auto. Qed.
Lemma no_calls_bind {St A B} (m : M St A) (f : A -> M St B) s n : no_calls (m s n) n -> (forall a s' n', m s n = Ret a s' n' -> no_calls (f a s' n') n') -> no_calls (bind m f s n) n.
Proof. intros H Hf. unfold bind. destruct (m s n) as [a s' n'|k s' n'|]; cbn in *; [|contradiction|exact I]. subst. apply (Hf a s' n eq_refl). Qed.
Definition Ka {A} (m : M table A) : Prop := forall t n, match m t n with Ret _ t' _ | Exn _ t' _ => aid t' = aid t | Undef => True end.
Lemma ka_ret {A} (a : A) : Ka (ret a). Proof. intros t n. reflexivity. Qed.
Lemma ka_undef {A} : Ka (A:=A) undef. Proof. intros t n. exact I. Qed.
Lemma ka_on_arr {A} (m : M arrays A) : Ka (on_arr m).
Proof. intros t n. unfold on_arr, lens. destruct (m (arr t) n); reflexivity || exact I. Qed.
Lemma ka_bind {A B} (m : M table A) (f : A -> M table B) : Ka m -> (forall a, Ka (f a)) -> Ka (bind m f).
Proof. intros H Hf t n. unfold bind. specialize (H t n). destruct (m t n) as [a t' n'|k t' n'|]; auto. specialize (Hf a t' n'). destruct (f a t' n'); congruence || exact I. Qed.
Lemma ka_get {A} (f : table -> M table A) : (forall t, Ka (f t)) -> Ka (bind get f).
Proof. intros H t n. rewrite bind_get. apply H. Qed.
Lemma ka_clear_mask g ns : Ka (@clear_mask K V g ns).
Proof. induction ns as [|n r IH]; cbn [clear_mask]; [apply ka_ret|]. apply ka_bind; [apply ka_on_arr|intro; exact IH]. Qed.
Lemma ka_clear_groups last rem : forall g, Ka (@clear_groups K V last rem g).
Proof.
  induction rem as [|rem IH]; intros g; cbn [clear_groups]; [apply ka_ret|]. apply ka_get. intros t. destruct (get_group (arr t) g); [|apply ka_undef].
  apply ka_bind; [apply ka_clear_mask|intro]. apply ka_bind; [apply ka_on_arr|intro; apply IH].
Qed.
Lemma ka_clear : Ka (@clear K V).
Proof.
  unfold clear. apply ka_get. intros t. destruct (a_elems (arr t)); [|apply ka_ret]. apply ka_bind; [apply ka_clear_groups|intro].
  apply ka_bind; [apply ka_on_arr|intro]. intros u m. reflexivity.
Qed.
Lemma clear_aid t n t' n' u : @clear K V t n = Ret u t' n' -> aid t' = aid t.
Proof. intros E. pose proof (ka_clear t n) as H. rewrite E in H. exact H. Qed.
Lemma nc_move_assign (t x : table) n : pocma c = true \/ aid t = aid x -> no_calls (move_assign c (t, x) n) n.
Proof.
  intros H. unfold move_assign. apply no_calls_bind.
  - apply nc_lens, nc_clear.
  - intros u s' n' E. unfold on_fst, lens in E. cbn [fst snd] in E. destruct (clear t n) as [a t1 n1|k t1 n1|] eqn:Ec; try discriminate. apply clear_aid in Ec. injection E as _ <- <-.
    rewrite bind_get. cbn [fst snd]. assert (pocma c || (aid t1 =? aid x)%N = true) as ->.
    { destruct H as [->|H]; [reflexivity|]. rewrite Ec, H, N.eqb_refl. apply orb_true_r. }
    repeat (apply nc_bind; [first [apply nc_modify|apply nc_get|apply nc_new0|apply nc_delete]|intro]). apply nc_modify.
Qed.
Lemma nc_push t : Nc (@push K V t).
Proof. intros w n. reflexivity. Qed.
Lemma silent_exec w o n : silent w o -> no_calls (exec c o w n) n.
Proof.
  intros H. destruct o as [i o|h p al m|j al|j|j al|i|i j|i j|i j|i j|i j eeq]; cbn [silent exec] in *; try contradiction.
  - apply nc_run1, nc_exec1, H.
  - subst m. apply nc_bind; [unfold new_table; apply nc_bind; [apply nc_new0|intro; apply nc_ret]|intro]. apply nc_bind; [apply nc_push|intro; apply nc_ret].
  - apply nc_bind; [apply nc_run1, nc_move_construct|intro]. apply nc_bind; [apply nc_push|intro; apply nc_ret].
  - destruct (slot w i) as [t|]; [|exact I]. pose proof (nc_destroy_table t n) as X. destruct (destroy_table t n); cbn in *; auto.
  - destruct H as (t & x & Ei & Ej & H). apply no_calls_bind; [|intros; apply nc_ret]. unfold run2. rewrite Ei, Ej. destruct (i =? j); [exact I|].
    pose proof (nc_move_assign t x n H) as X. destruct (move_assign c (t, x) n); cbn in *; auto.
  - apply nc_bind; [apply nc_run2, nc_swap|intro; apply nc_ret].
Qed.

(** *** lookup: each stored element is compared at most once *)
Lemma find_in_group_calls {St} p (a : arrays) k g ns : forall (s : St) n, calls (find_in_group c p a k g ns s n) n (length ns).
Proof.
  induction ns as [|m r IH]; intros s n; cbn [find_in_group length]; [cbn; lia|].
  apply (calls_bind _ _ s n 0 (S (length r))); [apply nc_cb, nc_read|]. intros e s1 n1 _.
  apply (calls_bind _ _ s1 n1 1 (length r)); [apply cb_tick|]. intros u s2 n2 _. destruct (keqf c p k (fst e)); [cbn; lia|apply IH].
Qed.
Definition live_at (a : arrays) (i : nat) : Prop := exists e, nth_error (cells a) i = Some (Live e).
Lemma live_count (a : arrays) l : NoDup l -> (forall i, In i l -> live_at a i) -> length l <= length (elems a).
Proof.
  unfold live_at, elems. generalize (cells a) as cs. intros cs. revert l. induction cs as [|x cs IH]; intros l ND H.
  - destruct l as [|i l]; [cbn; lia|]. destruct (H i (or_introl eq_refl)) as (e & E). destruct i; discriminate.
  - assert (length (filter (fun i => negb (i =? 0)) l) <= length (flat_map (fun x0 => match x0 with Live e => [e] | _ => [] end) cs)) as L.
    { rewrite <- (map_length Nat.pred). apply IH.
      - apply nodup_map_in; [|apply NoDup_filter, ND]. intros i j Hi Hj E. apply filter_In in Hi as [_ Hi]. apply filter_In in Hj as [_ Hj]. apply negb_true_iff, Nat.eqb_neq in Hi. apply negb_true_iff, Nat.eqb_neq in Hj. lia.
      - intros i Hi. apply in_map_iff in Hi as (j & <- & Hj). apply filter_In in Hj as [Hj Nj]. apply negb_true_iff, Nat.eqb_neq in Nj. destruct (H j Hj) as (e & E). exists e. destruct j; [lia|exact E]. }
    cbn [flat_map]. rewrite app_length. change (live x) with (match x with Live e => [e] | _ => [] end). change (flat_map live cs) with (flat_map (fun x0 => match x0 with Live e => [e] | _ => [] end) cs).
    assert (length l <= length (filter (fun i => negb (i =? 0)) l) + length (filter (fun i => i =? 0) l)) as S0. { clear. induction l as [|i l IH]; cbn; [lia|]. destruct (i =? 0); cbn; lia. }
    assert (length (filter (fun i => i =? 0) l) <= length (match x with Live e => [e] | _ => [] end)) as Z.
    { destruct (in_dec Nat.eq_dec 0 l) as [I0|I0].
      - destruct (H 0 I0) as (e & E). injection E as ->. cbn [length]. assert (NoDup (filter (fun i => i =? 0) l)) as N2 by (apply NoDup_filter, ND).
        assert (incl (filter (fun i => i =? 0) l) [0]) as Inc by (intros i Hi; apply filter_In in Hi as [_ Hi]; apply Nat.eqb_eq in Hi; left; lia). apply (NoDup_incl_length N2) in Inc. exact Inc.
      - replace (filter (fun i => i =? 0) l) with (@nil nat); [cbn; lia|]. symmetry. clear - I0. induction l as [|i l IH]; [reflexivity|]. cbn. destruct (Nat.eqb_spec i 0) as [->|]; [exfalso; apply I0; left; reflexivity|]. apply IH. intros C. apply I0. right. exact C. }
    lia.
Qed.
Lemma find_loop_calls {St} h p k (a : arrays) key : GoodA c h k a ->
  let hash := hash_of c h key in let pos0 := position hash (64 - k) in
  forall fuel j seen (s : St) n, (N.of_nat j < 2 ^ k)%N -> NoDup seen ->
  (forall i, In i seen -> live_at a i /\ exists j', j' < j /\ probe_pos k pos0 j' = N.of_nat (i / 15)) ->
  calls (find_loop c fuel p a key hash (pstate k pos0 j) s n) n (length (elems a) - length seen).
Proof.
  intros [HS HG] hash pos0. pose proof (sh_k _ _ HS) as Hk.
  induction fuel as [|fuel IH]; intros j seen s n Hj ND Hseen; [exact I|].
  cbn [find_loop]. set (g := N.to_nat (pb_pos (pstate k pos0 j))).
  assert (g < N.to_nat (2 ^ k)) as Hg by apply pstate_group.
  rewrite (shape_get_group k) by assumption.
  pose proof (shape_grp_len _ _ _ HS Hg) as Lg.
  destruct (match_bits (grp a g) hash Lg) as [Mb _].
  assert (forall m, In m (tag_bits (N.eqb (low_class hash)) (grp a g)) -> m < 15 /\ live_at a (slot_index g m)) as Htag.
  { intros m Hm. unfold tag_bits in Hm. apply filter_In in Hm as [Hm1 Hm2]. apply in_seq in Hm1.
    apply N.eqb_eq in Hm2. assert (m < 15) as Hm15 by lia. split; [exact Hm15|].
    pose proof (low_class_ge2 hash) as L2.
    assert (ctrl a (slot_index g m) = low_class hash) as Ec.
    { unfold ctrl. rewrite slot_div, slot_mod by exact Hm15. congruence. }
    assert (slot_index g m < length (cells a)) as Hlt.
    { destruct (Nat.lt_ge_cases (slot_index g m) (length (cells a))) as [|Ge]; [assumption|exfalso].
      assert (slot_index g m = length (cells a)) as Es.
      { rewrite (sh_cells _ _ HS) in *. unfold slot_index in *. lia. }
      rewrite Es, (sh_sent _ _ HS) in Ec. lia. }
    destruct (nth_error (cells a) (slot_index g m)) as [x|] eqn:Ex; [|apply nth_error_None in Ex; lia].
    pose proof (HG _ _ Ex) as Sx. destruct x as [| |e]; cbn [slot_ok] in Sx; [lia|destruct Sx|]. exists e. exact Ex. }
  set (ns := tag_bits (N.eqb (low_class hash)) (grp a g)) in *.
  set (seen' := map (slot_index g) ns ++ seen).
  assert (NoDup ns) as NDn by (apply NoDup_filter, seq_NoDup).
  assert (NoDup seen') as ND'.
  { unfold seen'. assert (NoDup (map (slot_index g) ns)) as N1 by (apply FinFun.Injective_map_NoDup; [intros x y E; unfold slot_index in E; lia|exact NDn]).
    assert (forall i, In i (map (slot_index g) ns) -> ~ In i seen) as Dj.
    { intros i Hi Hs. apply in_map_iff in Hi as (m & <- & Hm). destruct (Htag m Hm) as [Hm15 _]. destruct (Hseen _ Hs) as (_ & j' & Lj & Ep). rewrite slot_div in Ep by exact Hm15.
      unfold g in Ep. cbn [pstate pb_pos] in Ep. rewrite N2Nat.id in Ep. apply probe_pos_inj in Ep; lia. }
    clear - N1 ND Dj. induction (map (slot_index g) ns) as [|i l IH]; [exact ND|]. inversion N1; subst. cbn. constructor; [|apply IH; [assumption|intros; apply Dj; right; assumption]].
    intros C. apply in_app_or in C as [C|C]; [auto|]. apply (Dj i); [left; reflexivity|exact C]. }
  assert (forall i, In i seen' -> live_at a i /\ exists j', j' < S j /\ probe_pos k pos0 j' = N.of_nat (i / 15)) as Hseen'.
  { intros i Hi. apply in_app_or in Hi as [Hi|Hi].
    - apply in_map_iff in Hi as (m & <- & Hm). destruct (Htag m Hm) as [Hm15 L]. split; [exact L|]. exists j. split; [lia|]. rewrite slot_div by exact Hm15. unfold g. cbn [pstate pb_pos]. lia.
    - destruct (Hseen i Hi) as (L & j' & Lj & Ep). split; [exact L|]. exists j'. split; [lia|exact Ep]. }
  pose proof (live_count a seen' ND' (fun i Hi => proj1 (Hseen' i Hi))) as LC.
  assert (length seen' = length ns + length seen) as Ls by (unfold seen'; rewrite app_length, map_length; reflexivity).
  replace (length (elems a) - length seen) with (length ns + (length (elems a) - length seen')) by lia.
  apply calls_bind.
  - rewrite (mask_loop_nil (b_match (grp a g) hash)), Mb. fold ns. destruct ns as [|m0 r] eqn:En; [apply calls_ret|]. apply find_in_group_calls.
  - intros r s' n' E. destruct r as [m|]; [apply calls_ret|]. destruct (b_is_not_overflowed (grp a g) hash); [apply calls_ret|].
    rewrite (sh_mask _ _ HS), pstate_next by (exact Hj || (clear - Hk; lia)). destruct (N.ltb_spec (N.of_nat (S j)) (2 ^ k)) as [Lt|Ge]; [|apply calls_ret].
    apply IH; [exact Lt|exact ND'|exact Hseen'].
Qed.
End C.
