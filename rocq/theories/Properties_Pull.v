(** C68: pull(it) of the open-addressing containers (reading guide: Properties_Foa.v). [m_pull c it]: table.hpp l.498-504. *)
From Coq Require Import NArith ZArith Bool List Arith Lia.
From Verif Require Import SizeModel GroupModel FoaModel FoaBase FoaArr FoaIterModel FoaSpec FoaWorld FoaRun FoaMerge FoaProps FoaPull FoaExamples.
Import ListNotations.
Local Open Scope N_scope.

(** what pull(it) leaves behind, whether it returns or throws: the element is gone, everything else is where it was *)
Definition erased_only {K V} (c : Cfg K V) (t : table K V) (m : nat) (t' : table K V) : Prop :=
  reachable c t' /\ contents c t' = firstn m (contents c t) ++ skipn (S m) (contents c t) /\ sz t' = sz t - 1 /\ capacity (arr t') = capacity (arr t) /\
  (forall j x, (j < length (contents c t))%nat -> j <> m -> nth_it c t j = Some x -> nth_it c t' (if (j <? m)%nat then j else (j - 1)%nat) = Some x) /\
  (exists i x, nth_error (contents c t) m = Some x /\ stored t i x /\ forall j y, stored t' j y <-> (stored t j y /\ j <> i)).
Theorem C68_pull_returns_the_element_and_erases_it :
  forall (K V : Type) (c : Cfg K V), good_cfg c -> forall t m n, reachable c t -> (m < length (contents c t))%nat ->
  exists it x, nth_it c t m = Some it /\ nth_error (contents c t) m = Some x /\
  match m_pull c it t n with
  | Ret y t' n' => y = x /\ n' = S n /\ erased_only c t m t'
  | Exn k t' n' => k = KTransfer /\ throws c KTransfer n = true /\ erased_only c t m t'
  | Undef => False
  end.
Proof.
  intros K V c HC t m n R L. destruct (pull_ok c HC t m n R L) as (it & x & t' & Ei & Ex & _ & R' & (it' & Em) & E). exists it, x. split; [exact Ei|]. split; [exact Ex|].
  assert (erased_only c t m t') as X.
  { destruct (erase_iter c HC t m n R L) as (it2 & E2 & X). assert (it2 = it) as -> by congruence. rewrite Em in X. destruct X as (X1 & X2 & _ & X3 & X4). split; [exact R'|]. split; [exact X1|]. split; [|split; [exact X2|split; [exact X3|exact X4]]].
    pose proof (size_exact c HC t R) as [S1 _]. pose proof (size_exact c HC t' R') as [S2 _]. rewrite S1, S2, X1, app_length, firstn_length, skipn_length. clear - L. lia. }
  rewrite E. destruct (throws c KTransfer n) eqn:Et; auto.
Qed.
Print Assumptions C68_pull_returns_the_element_and_erases_it.
(** pull(it) and erase(it) leave the same container *)
Theorem C68_pull_erases_as_erase_does :
  forall (K V : Type) (c : Cfg K V), good_cfg c -> forall t m n it, reachable c t -> (m < length (contents c t))%nat -> nth_it c t m = Some it ->
  exists it' t', m_erase_at c it t n = Ret it' t' n /\ match m_pull c it t n with Ret _ t'' _ | Exn _ t'' _ => t'' = t' | Undef => False end.
Proof.
  intros K V c HC t m n it R L Ei. destruct (pull_ok c HC t m n R L) as (it2 & x & t' & E2 & _ & _ & _ & (it' & Em) & E). assert (it2 = it) as -> by congruence. exists it', t'. split; [apply Em|].
  rewrite E. destruct (throws c KTransfer n); reflexivity.
Qed.
Print Assumptions C68_pull_erases_as_erase_does.
(** while(!x.empty())out.push_back(x.pull(x.begin())): every element once, in iteration order *)
Fixpoint drain {K V} (c : Cfg K V) (fuel : nat) : M (table K V) (list (K * V)) := fun t n =>
  match fuel with
  | O => Undef
  | S fuel => if sz t =? 0 then Ret [] t n else
      match nth_it c t 0 with None => Undef | Some it =>
        match m_pull c it t n with
        | Ret e t' n' => match drain c fuel t' n' with Ret l t2 n2 => Ret (e :: l) t2 n2 | r => r end
        | Exn k t' n' => Exn k t' n' | Undef => Undef end end
  end.
Theorem C68_pulling_all_elements :
  forall (K V : Type) (c : Cfg K V), good_cfg c -> forall t n fuel, reachable c t -> (length (contents c t) < fuel)%nat ->
  match drain c fuel t n with
  | Ret l t' n' => l = contents c t /\ n' = (n + length l)%nat /\ contents c t' = [] /\ capacity (arr t') = capacity (arr t)
  | Exn k t' n' => k = KTransfer /\ exists l1 e l2, contents c t = l1 ++ e :: l2 /\ throws c KTransfer (n + length l1) = true /\ contents c t' = l2
  | Undef => False
  end.
Proof.
  intros K V c HC t n fuel. revert t n. induction fuel as [|fuel IH]; intros t n R L; [lia|]. cbn [drain]. pose proof (size_exact c HC t R) as [Sz _].
  destruct (N.eqb_spec (sz t) 0) as [Z|Z].
  - assert (contents c t = []) as E by (destruct (contents c t); [reflexivity|cbn in Sz; lia]). rewrite E. cbn. auto with arith.
  - assert (0 < length (contents c t))%nat as L0 by lia. destruct (pull_ok c HC t 0 n R L0) as (it & x & t' & Ei & Ex & _ & R' & (it' & Em) & E).
    destruct (erase_iter c HC t 0 n R L0) as (it2 & E2 & X). assert (it2 = it) as -> by congruence. rewrite Em in X. destruct X as (X1 & X2 & _). rewrite Ei, E.
    destruct (contents c t) as [|y l] eqn:Ec; [cbn in L0; lia|]. cbn in Ex. injection Ex as ->. cbn [firstn skipn app] in X1.
    destruct (throws c KTransfer n) eqn:Et.
    + split; [reflexivity|]. exists [], x, l. split; [reflexivity|]. split; [rewrite Nat.add_0_r; exact Et|exact X1].
    + specialize (IH t' (S n) R'). rewrite X1 in IH. specialize (IH ltac:(cbn in L; lia)). destruct (drain c fuel t' (S n)) as [l' t2 n2|k t2 n2|]; [| |exact IH].
      * destruct IH as (-> & -> & A & B). split; [reflexivity|]. split; [cbn; lia|]. split; [exact A|congruence].
      * destruct IH as (-> & l1 & e & l2 & -> & Tk & B). split; [reflexivity|]. exists (x :: l1), e, l2. split; [reflexivity|]. split; [cbn [length]; rewrite <- Tk; f_equal; lia|exact B].
Qed.
Print Assumptions C68_pulling_all_elements.
Example C68_case : reachable (ecfg nothrow true) t_big /\ (5 < length (contents (ecfg nothrow true) t_big))%nat /\
  match drain (ecfg nothrow true) 200 t_big 0%nat with Ret l t' _ => (length l =? length (contents (ecfg nothrow true) t_big))%nat && (sz t' =? 0) | _ => false end = true.
Proof. split; [apply t_big_reachable|]. split; vm_compute; [lia|reflexivity]. Qed.
