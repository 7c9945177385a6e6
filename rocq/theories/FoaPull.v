(** pull(it) of the open-addressing containers (C68): table.hpp l.498-504 with [erase_on_exit] (l.612-622). *)
From Coq Require Import NArith ZArith Bool List Arith Lia.
From Verif Require Import SizeModel GroupModel FoaModel FoaBase FoaArr FoaInv FoaIterModel FoaIter FoaSpec FoaWorld FoaApi FoaMerge FoaRun FoaProps.
Import ListNotations.
Local Open Scope m_scope.
Section Pull.
Context {K V : Type} (c : Cfg K V) (HC : good_cfg c).
Notation table := (FoaModel.table K V).
Notation iter := FoaIterModel.iter.
(** return type_policy::move(value_from( *pos.p())): the element is moved into the object returned, which may throw (KTransfer); the destructor of [e] erases the
    element in any case. A map's key is moved too (type_policy::move casts const away), so the whole element is moved from. *)
Definition m_pull (it : iter) : M table (K * V) :=
  finally
    (t <- get ;;
     e <- it_deref (arr t) it ;;
     tick c KTransfer ;;;
     match it_p it with Some p => on_arr (put_cell p Moved) | None => undef end ;;;
     ret e)
    (erase_it it).
Lemma set_nth_twice {A} (l : list A) : forall i x y, set_nth (set_nth l i x) i y = set_nth l i y.
Proof. induction l as [|a l IH]; intros [|i] x y; cbn; [reflexivity|reflexivity|reflexivity|]. f_equal. apply IH. Qed.
Lemma destroy_moved (a : arrays K V) p e n : get_cell a p = Some (Live e) ->
  exists a1, put_cell p Moved a n = Ret tt a1 n /\ destroy_element p a1 n = destroy_element p a n.
Proof.
  unfold get_cell, put_cell, destroy_element, bind, get. destruct (a_elems a) as [cs|] eqn:Ea; [|discriminate]. intros E. rewrite E. eexists. split; [reflexivity|].
  cbn [a_elems get_cell]. unfold get_cell. cbn [a_elems]. rewrite Ea, E.
  assert (nth_error (set_nth cs p Moved) p = Some Moved) as X. { assert (p < length cs) as L by (apply nth_error_Some; congruence). clear Ea. revert p E L. induction cs as [|x cs IH]; intros [|p] E L; cbn in *; try lia; [reflexivity|]. apply IH; [exact E|lia]. }
  rewrite X. unfold put_cell. cbn [a_elems a_gsi a_mask a_groups a_owner]. rewrite X, set_nth_twice. rewrite ?Ea, ?E. reflexivity.
Qed.
Lemma reach_next (t : table) o n v t' n' : reachable c t -> pre1 c o t -> exec1 c o t n = Ret v t' n' -> reachable c t'.
Proof.
  intros (rs & w & i & R & Hs) P E. exists (rs ++ [(On i o, Done v)]), (set w i (Some t')), i. split.
  - apply (runs_snoc c rs w (On i o) n); [exact R|exists t; split; assumption|]. cbn [exec]. unfold run1. rewrite Hs, E. split; reflexivity.
  - unfold slot in *. destruct (nth_error w i) as [x|] eqn:Ew; [|discriminate]. assert (i < length w) as L by (apply nth_error_Some; congruence).
    assert (nth_error (set w i (Some t')) i = Some (Some t')) as ->; [|reflexivity]. clear - L. revert i L. induction w as [|y w IH]; intros [|i] L; cbn in *; try lia; [reflexivity|]. apply IH. lia.
Qed.
(** computations without events *)
Definition quiet {St A} (m : M St A) : Prop := forall s, (exists a s', forall n, m s n = Ret a s' n) \/ forall n, m s n = Undef.
Lemma q_bind {St A B} (m : M St A) (f : A -> M St B) : quiet m -> (forall a, quiet (f a)) -> quiet (bind m f).
Proof.
  intros Q F s. unfold bind. destruct (Q s) as [(a & s1 & E)|E]; [|right; intros n; rewrite E; reflexivity]. destruct (F a s1) as [(b & s2 & E2)|E2].
  - left. exists b, s2. intros n. rewrite E. apply E2.
  - right. intros n. rewrite E. apply E2.
Qed.
Lemma q_get {St} : quiet (@get St). Proof. intros s. left. exists s, s. reflexivity. Qed.
Lemma q_mod {St} (f : St -> St) : quiet (modify f). Proof. intros s. left. exists tt, (f s). reflexivity. Qed.
Lemma q_undef {St A} : quiet (@undef St A). Proof. intros s. right. reflexivity. Qed.
Lemma q_put i x : quiet (@put_cell K V i x).
Proof. intros a. unfold put_cell. destruct (a_elems a) as [cs|]; [|right; reflexivity]. destruct (nth_error cs i); [left; eexists _, _; reflexivity|right; reflexivity]. Qed.
Lemma q_pg g f : quiet (@put_group K V g f).
Proof. intros a. unfold put_group. destruct (nth_error (a_groups a) g), (a_elems a); first [right; reflexivity|left; eexists _, _; reflexivity]. Qed.
Lemma q_arr {A} (m : M (arrays K V) A) : quiet m -> quiet (on_arr m).
Proof. intros Q t. unfold on_arr, lens. destruct (Q (arr t)) as [(a & s & E)|E]; [left; exists a, (set_arr t s)|right]; intros n; rewrite E; reflexivity. Qed.
Lemma q_erase (it : iter) : quiet (@erase_it K V it).
Proof.
  unfold erase_it. destruct (it_p it) as [p|]; [|apply q_undef]. apply q_bind; [apply q_arr; unfold destroy_element; apply q_bind; [apply q_get|intros a; destruct (get_cell a p) as [[| |e]|]; first [apply q_undef|apply q_put]]|intros _].
  unfold recover_slot. apply q_bind; [apply q_get|intros t]. destruct (get_group (arr t) _); [|apply q_undef]. apply q_bind; [apply q_mod|intros _]. apply q_bind; [apply q_arr, q_pg|intros _]. apply q_mod.
Qed.
Lemma erase_no_event (it : iter) (t : table) n m : match erase_it it t n with Ret _ t' n' => erase_it it t m = Ret tt t' m /\ n' = n | Exn _ _ _ => True | Undef => True end.
Proof. destruct (q_erase it t) as [(a & s & E)|E]; rewrite E; [|exact I]. destruct a. rewrite E. auto. Qed.
Lemma pull_ok (t : table) m n : reachable c t -> m < length (contents c t) ->
  exists it x t', nth_it c t m = Some it /\ nth_error (contents c t) m = Some x /\
    exec1 c (EraseNth m) t n = Ret (VFound (Some x)) t' n /\ reachable c t' /\ (exists it', forall n0, m_erase_at c it t n0 = Ret it' t' n0) /\
    m_pull it t n = (if throws c KTransfer n then Exn KTransfer t' (S n) else Ret x t' (S n)).
Proof.
  intros R L. pose proof (reachable_inv c HC t R) as H. pose proof L as L0. rewrite (contents_eq c t H) in L. destruct (nth_it_ok c t m H ltac:(lia)) as (it & Eit & A).
  destruct (nth_error (elems (arr t)) m) as [x|] eqn:Ex; [|apply nth_error_None in Ex; lia].
  destruct (erase_iter c HC t m n R L0) as (it2 & E2 & X). assert (it2 = it) as -> by congruence.
  destruct (m_erase_at c it t n) as [it' t' n'|k t' n'|] eqn:Em; try contradiction. clear X.
  assert (forall n0, m_erase_at c it t n0 = Ret it' t' n0 /\ erase_it it t n0 = Ret tt t' n0 /\ n' = n) as Er.
  { intros n0. unfold m_erase_at, bind in Em |- *. pose proof (erase_no_event it t n n0) as Q. destruct (erase_it it t n) as [[] t1 n1| |] eqn:E1; try discriminate. destruct Q as [Q ->]. rewrite Q.
    unfold get in *. destruct (it_next c (arr t1) it); unfold of_option, ret, undef in *; [|discriminate]. injection Em as -> -> ->. auto. }
  exists it, x, t'. split; [exact Eit|]. split; [rewrite (contents_eq c t H); exact Ex|].
  assert (exec1 c (EraseNth m) t n = Ret (VFound (Some x)) t' n) as EE.
  { cbn [exec1]. unfold bind at 1. unfold get. rewrite Eit. cbn [of_option]. rewrite bind_ret. unfold bind. rewrite (iter_deref c t m it x t n H A Ex). destruct (Er n) as (-> & _). reflexivity. }
  split; [exact EE|]. split; [apply (reach_next t (EraseNth m) n (VFound (Some x)) t' n R); [|exact EE]; pose proof (i_sz _ _ H); cbn [pre1]; lia|].
  split; [exists it'; intros n0; apply (Er n0)|].
  unfold m_pull, finally. unfold bind at 1, get. unfold bind at 1. rewrite (iter_deref c t m it x t n H A Ex). unfold bind at 1. unfold tick. destruct (throws c KTransfer n).
  - destruct (Er (S n)) as (_ & -> & _). reflexivity.
  - pose proof (iter_deref c t m it x t n H A Ex) as D. unfold it_deref in D. destruct (it_p it) as [p|] eqn:Ep; [|discriminate]. unfold read_element in D.
    destruct (get_cell (arr t) p) as [[| |e]|] eqn:Eg; try discriminate. destruct (destroy_moved (arr t) p e (S n) Eg) as (a1 & P1 & P2). unfold bind, on_arr at 1, lens at 1. rewrite P1. cbn.
    destruct (Er (S n)) as (_ & Q & _). unfold erase_it in *. rewrite Ep in *. unfold bind, on_arr, lens in Q |- *. cbn [arr set_arr]. rewrite P2.
    destruct (destroy_element p (arr t) (S n)) as [[] a2 n2| |]; try discriminate. replace (set_arr (set_arr t a1) a2) with (set_arr t a2) by reflexivity. rewrite Q. reflexivity.
Qed.
End Pull.
