(** Facts about the specification NodeSpec: no operation duplicates a node. *)
From Coq Require Import NArith Bool List Arith Lia Permutation.
From Verif Require Import FoaModel FoaSpec FoaRun NodeSpec.
Import ListNotations.
Local Open Scope N_scope.

(** permutations of concatenations *)
Lemma app_swap {A} (x y z : list A) : Permutation (x ++ y ++ z) (y ++ x ++ z).
Proof. rewrite !app_assoc. apply Permutation_app_tail, Permutation_app_comm. Qed.
Lemma add_nil {A} (x y : list A) : Permutation (x ++ []) (y ++ []) -> Permutation x y.
Proof. rewrite !app_nil_r. auto. Qed.
Ltac bring a R :=
  match R with
  | a ++ ?r => constr:(Permutation_refl R)
  | ?b ++ ?r => let p := bring a r in constr:(perm_trans (Permutation_app_head b p) (app_swap b a _))
  end.
Ltac cons_to_app := repeat match goal with |- context[?a :: ?l] => lazymatch l with [] => fail | _ => change (a :: l) with ([a] ++ l) end end.
Ltac psolve :=
  cons_to_app; apply add_nil; rewrite <- ?app_assoc;
  repeat match goal with
  | |- Permutation [] [] => apply Permutation_refl
  | |- Permutation (?a ++ ?l) ?R =>
      let p := bring a R in eapply perm_trans; [|apply Permutation_sym; exact p]; apply Permutation_app_head
  end; try apply Permutation_refl.

Section Facts.
Context {K V : Type}.
Notation elem := (K * node V)%type.
Notation view := (view K (node V)).
Variable eq : N -> K -> K -> bool.
Variable moving : bool.
Notation add_all := (add_all (V:=node V) eq).

(** replacing an entry of a list *)
Lemma flat_set {A B} (f : A -> list B) (l : list A) i x y : nth_error l i = Some x ->
  Permutation (flat_map f (set l i y) ++ f x) (flat_map f l ++ f y).
Proof.
  revert i. induction l as [|a l IH]; intros [|i] H; cbn in H; try discriminate.
  - injection H as ->. cbn. psolve.
  - unfold set in *. cbn [firstn skipn flat_map app]. rewrite <- !app_assoc. rewrite (IH i H). reflexivity.
Qed.
Lemma set_nth_other {A} (l : list A) i j x : (i < length l)%nat -> i <> j -> nth_error (set l i x) j = nth_error l j.
Proof. intros L N. rewrite set_err by exact L. destruct (Nat.eqb_spec j i); [congruence|reflexivity]. Qed.
Lemma flat_set2 {A B} (f : A -> list B) (l : list A) i j x z y y2 : i <> j -> nth_error l i = Some x -> nth_error l j = Some z ->
  Permutation (flat_map f (set (set l i y) j y2) ++ f x ++ f z) (flat_map f l ++ f y ++ f y2).
Proof.
  intros N Hi Hj. assert (i < length l)%nat as Li by (apply nth_error_Some; congruence).
  transitivity ((flat_map f (set (set l i y) j y2) ++ f z) ++ f x); [psolve|].
  rewrite (flat_set f (set l i y) j z y2) by (rewrite set_nth_other; assumption).
  transitivity ((flat_map f (set l i y) ++ f x) ++ f y2); [psolve|].
  rewrite (flat_set f l i x y Hi). psolve.
Qed.

(** operations on one container *)
Lemma add_all_part p (es : list elem) : forall l, exists fr, Permutation (l ++ es) (add_all p l es ++ fr).
Proof.
  induction es as [|e es IH]; intros l; cbn [FoaSpec.add_all fold_left]; [exists []; psolve|].
  unfold add at 2. destruct (lookup eq p (fst e) l).
  - destruct (IH l) as [fr P]. exists (e :: fr). transitivity ((l ++ es) ++ [e]); [psolve|]. rewrite P. unfold FoaSpec.add_all. psolve.
  - destruct (IH (e :: l)) as [fr P]. exists fr. rewrite <- P. psolve.
Qed.
Definition copying1 (o : op1 K (node V)) : Prop := match o with InsertOrAssign _ _ => True | _ => False end.
Lemma filter_parts {A} (f : A -> bool) (l : list A) : Permutation l (filter (fun x => negb (f x)) l ++ filter f l).
Proof.
  induction l as [|x l IH]; [constructor|]. cbn. destruct (f x); cbn.
  - rewrite IH at 1. psolve.
  - rewrite IH at 1. psolve.
Qed.
Lemma spec1_conserve p o l r l' : spec1 eq moving p o l r l' -> ~ copying1 o -> exists freed, Permutation (l ++ news1 o) (l' ++ freed).
Proof.
  intros S NC. destruct o as [e|es|es|k v|dv k|k|k|k|k|k|k|pr|pr|m|m m2| |n'|n'| | |]; cbn [news1]; rewrite ?app_nil_r;
    destruct r as [v0|kd]; cbn [spec1] in S; try (exfalso; apply NC; exact Logic.I); try (destruct v0; try contradiction); try contradiction.
  - destruct (lookup eq p (fst e) l).
    + destruct S as (_ & _ & P). exists [e]. rewrite P. reflexivity.
    + destruct S as (_ & _ & P). exists []. rewrite P. psolve.
  - destruct S as (lost & P & _). exists (lost ++ [e]). rewrite P. psolve.
  - destruct (add_all_part p es l) as [fr P]. exists fr. rewrite S. exact P.
  - destruct S as (es1 & e & es2 & lost & -> & P & _). destruct (add_all_part p es1 l) as [fr P2]. exists (lost ++ fr ++ e :: es2).
    transitivity ((l ++ es1) ++ e :: es2); [psolve|]. etransitivity; [apply Permutation_app_tail; exact P2|]. rewrite P. psolve.
  - destruct (add_all_part p es []) as [fr P]. exists (l ++ fr). cbn [app] in P. rewrite S. etransitivity; [apply Permutation_app_head; exact P|]. psolve.
  - destruct S as (es1 & e & es2 & lost & -> & P & _). destruct (add_all_part p es1 []) as [fr P2]. cbn [app] in P2. exists (l ++ lost ++ fr ++ e :: es2).
    transitivity (l ++ es1 ++ e :: es2); [psolve|]. etransitivity; [apply Permutation_app_head, Permutation_app_tail; exact P2|]. rewrite P. psolve.
  - destruct (lookup eq p k l) as [y|].
    + destruct S as (_ & P). exists [(k, dv)]. rewrite P. psolve.
    + destruct S as (_ & P). exists []. rewrite P. psolve.
  - destruct S as (lost & P & _). exists (lost ++ [(k, dv)]). rewrite P. psolve.
  - destruct S as [_ ->]. exists []. psolve.
  - destruct S as [_ ->]. exists []. psolve.
  - destruct S as [_ ->]. exists []. psolve.
  - destruct S as [_ ->]. exists []. psolve.
  - destruct S as [_ ->]. exists []. psolve.
  - destruct S as [_ ->]. exists []. psolve.
  - destruct S as [_ ->]. exists []. psolve.
  - destruct S as [_ ->]. exists []. psolve.
  - destruct S as [_ ->]. exists []. psolve.
  - destruct S as [_ ->]. exists []. psolve.
  - destruct S as (_ & P). eexists. rewrite P. apply filter_parts.
  - destruct S as [_ ->]. exists []. psolve.
  - destruct S as (_ & P). eexists. rewrite P. apply filter_parts.
  - destruct S as (_ & gone & P & _). exists gone. rewrite P. psolve.
  - destruct S as (_ & P). eexists. rewrite P. apply filter_parts.
  - cbv iota beta in S. match type of S with match ?x with _ => _ end => destruct x as [e|] end; [|contradiction]. destruct S as (l1 & l2 & _ & -> & ->). exists [e]. psolve.
  - destruct S as [L ->]. exists (firstn (m2 - m) (skipn m l)). transitivity (firstn m l ++ firstn (m2 - m) (skipn m l) ++ skipn (m2 - m) (skipn m l)); [rewrite firstn_skipn, firstn_skipn; reflexivity|].
    assert (forall a b (q : list (K * node V)), skipn a (skipn b q) = skipn (b + a) q) as SS by (clear; intros a b; induction b as [|b IH]; intros q; [reflexivity|destruct q; [destruct a; reflexivity|cbn; apply IH]]).
    rewrite SS. replace (m + (m2 - m))%nat with m2 by lia. rewrite <- app_assoc. apply Permutation_app_head, Permutation_app_comm.
  - exists l. rewrite S. reflexivity.
  - exists []. rewrite S. psolve.
  - destruct S as (lost & P & _). exists lost. rewrite P. psolve.
  - exists []. rewrite S. psolve.
  - destruct S as (lost & P & _). exists lost. rewrite P. psolve.
  - destruct S as [_ ->]. exists []. psolve.
  - destruct S as [_ ->]. exists []. psolve.
  - rewrite S. exists []. psolve.
  - destruct S as [_ ->]. exists []. psolve.
Qed.

(** all operations *)
Definition copying (o : nop K V) : Prop :=
  match o with Box (On _ o) => copying1 o | Box (CopyConstruct _ _) | Box (CopyAssign _ _) => True | _ => False end.
Definition box_elems (w : world K (node V)) : list elem := flat_map (fun o => match o with Some v => v_elems v | None => [] end) w.
Definition hand_elems (hs : list (option (option elem))) : list elem := flat_map (fun o => match o with Some (Some e) => [e] | _ => [] end) hs.
Lemma box_set w i v x : nth_error w i = Some (Some v) ->
  Permutation (box_elems (set w i x) ++ v_elems v) (box_elems w ++ match x with Some y => v_elems y | None => [] end).
Proof. intros H. exact (flat_set (fun o : option view => match o with Some v => v_elems v | None => [] end) w i (Some v) x H). Qed.
Lemma box_set2 w i j v v2 x x2 : i <> j -> nth_error w i = Some (Some v) -> nth_error w j = Some (Some v2) ->
  Permutation (box_elems (set (set w i (Some x)) j (Some x2)) ++ v_elems v ++ v_elems v2) (box_elems w ++ v_elems x ++ v_elems x2).
Proof. intros N H H2. exact (flat_set2 (fun o : option view => match o with Some v => v_elems v | None => [] end) w i j (Some v) (Some v2) (Some x) (Some x2) N H H2). Qed.
Lemma box_push w v : box_elems (w ++ [Some v]) = box_elems w ++ v_elems v.
Proof. unfold box_elems. rewrite flat_map_app. cbn. rewrite app_nil_r. reflexivity. Qed.
Definition of_hand (h : option (option elem)) : list elem := match h with Some (Some e) => [e] | _ => [] end.
Lemma hand_set hs j h x : nth_error hs j = Some h -> Permutation (hand_elems (set hs j x) ++ of_hand h) (hand_elems hs ++ of_hand x).
Proof. intros H. exact (flat_set of_hand hs j h x H). Qed.
Lemma hand_set2 hs i j h h2 x x2 : i <> j -> nth_error hs i = Some h -> nth_error hs j = Some h2 ->
  Permutation (hand_elems (set (set hs i x) j x2) ++ of_hand h ++ of_hand h2) (hand_elems hs ++ of_hand x ++ of_hand x2).
Proof. intros N H H2. exact (flat_set2 of_hand hs i j h h2 x x2 N H H2). Qed.
Lemma hand_push hs x : hand_elems (hs ++ [x]) = hand_elems hs ++ of_hand x.
Proof. unfold hand_elems. rewrite flat_map_app. cbn. rewrite app_nil_r. reflexivity. Qed.
(** cancelling on the right *)
Lemma cancel {A} (x y a b u v : list A) : Permutation (y ++ a) (x ++ b) -> Permutation (a ++ u) (b ++ v) -> Permutation (x ++ u) (y ++ v).
Proof.
  intros P Q. apply (Permutation_app_inv_r b). transitivity ((x ++ b) ++ u); [psolve|]. rewrite <- P.
  transitivity (y ++ a ++ u); [psolve|]. rewrite Q. psolve.
Qed.

Lemma cancel_l {A} (x y a b v : list A) : Permutation (y ++ a) (x ++ b) -> Permutation a (b ++ v) -> Permutation x (y ++ v).
Proof. intros P Q. pose proof (cancel x y a b [] v P) as C. rewrite !app_nil_r in C. exact (C Q). Qed.
Lemma cancel_r {A} (x y a b u : list A) : Permutation (y ++ a) (x ++ b) -> Permutation (a ++ u) b -> Permutation (x ++ u) y.
Proof. intros P Q. pose proof (cancel x y a b u [] P) as C. rewrite !app_nil_r in C. exact (C Q). Qed.
Lemma spec_conserve w o r w' : spec eq moving w o r w' -> ~ copying (Box o) ->
  (forall i j, (o = MoveAssign i j \/ o = Swap i j \/ o = Merge i j) -> i <> j) ->
  exists freed, Permutation (box_elems w ++ news (Box o)) (box_elems w' ++ freed).
Proof.
  intros S NC D. destruct o as [i o|h p al m|j al|j|j al|i|i j|i j|i j|i j|i j eeq]; cbn [spec news copying] in *; try (exfalso; apply NC; exact Logic.I).
  - destruct S as (v & l' & Hv & S & ->). destruct (spec1_conserve _ _ _ _ _ S NC) as [fr P]. exists fr.
    exact (cancel _ _ _ _ _ _ (box_set w i v (Some (View (v_hash v) (v_pred v) (v_alloc v) l')) Hv) P).
  - exists []. destruct r as [v0|kd]; [destruct v0; try contradiction; subst w'|destruct S as [_ ->]]; rewrite ?box_push; cbn; psolve.
  - destruct S as (x & Hx & _ & ->). exists []. rewrite box_push. pose proof (box_set w j x (Some (View (v_hash x) (v_pred x) (v_alloc x) [])) Hx) as P. cbn in P.
    rewrite app_nil_r in P. rewrite P. psolve.
  - destruct S as (x & Hx & S). pose proof (box_set w j x (Some (View (v_hash x) (v_pred x) (v_alloc x) [])) Hx) as P. cbn in P. rewrite app_nil_r in P.
    destruct r as [v0|kd]; [destruct v0; try contradiction; destruct S as (l & Pl & ->)|destruct S as [->| ->]].
    + exists []. rewrite box_push. cbn [v_elems]. rewrite Pl, P. psolve.
    + exists []. psolve.
    + exists (v_elems x). rewrite P. psolve.
  - destruct S as (v & Hv & _ & ->). exists (v_elems v). pose proof (box_set w i v None Hv) as P. cbn in P. rewrite P. psolve.
  - destruct S as (t & x & al & l & lx & Ht & Hx & -> & _ & S). assert (i <> j) as Nij by (apply (D i j); auto).
    pose proof (box_set2 w i j t x (View (v_hash x) (v_pred x) al l) (View (v_hash t) (v_pred t) (v_alloc x) lx) Nij Ht Hx) as P.
    cbn [v_elems] in P. destruct r as [v0|kd]; [destruct v0; try contradiction; destruct S as (Pl & ->)|destruct S as (rest & Pr)].
    + exists (v_elems t). apply (cancel _ _ _ _ _ _ P). rewrite Pl. psolve.
    + exists (v_elems t ++ rest). apply (cancel _ _ _ _ _ _ P). rewrite Pr. psolve.
  - destruct S as (t & x & Ht & Hx & _ & ->). assert (i <> j) as Nij by (apply (D i j); auto). exists [].
    apply (cancel _ _ _ _ _ _ (box_set2 w i j t x x t Nij Ht Hx)). psolve.
  - destruct S as (t & x & l & lx & Ht & Hx & -> & S). assert (i <> j) as Nij by (apply (D i j); auto).
    pose proof (box_set2 w i j t x (View (v_hash t) (v_pred t) (v_alloc t) l) (View (v_hash x) (v_pred x) (v_alloc x) lx) Nij Ht Hx) as P. cbn [v_elems] in P.
    destruct r as [v0|kd]; [destruct v0; try contradiction; destruct S as (moved & P1 & P2 & _)|destruct S as (lost & Pr & _)].
    + exists []. apply (cancel _ _ _ _ _ _ P). rewrite P1, P2. psolve.
    + exists lost. apply (cancel _ _ _ _ _ _ P). rewrite Pr. psolve.
  - destruct S as (x & y & _ & _ & -> & _). exists []. psolve.
Qed.
Notation addr := (map (fun e : elem => n_addr (snd e))).
Lemma owned_eq (s : nstate K V) : owned s = box_elems (fst s) ++ hand_elems (snd s). Proof. reflexivity. Qed.
Lemma set_same {A} (w : list A) i x : nth_error w i = Some x -> set w i x = w.
Proof.
  intros H. unfold set. revert i H. induction w as [|y w IH]; intros [|i] H; cbn in *; try discriminate; [congruence|].
  f_equal. apply IH. exact H.
Qed.
Lemma set_set {A} (w : list A) i x y : (i < length w)%nat -> set (set w i x) i y = set w i y.
Proof.
  intros L. unfold set. f_equal; [rewrite firstn_app, firstn_firstn, firstn_length; replace (Nat.min i i) with i by lia; replace (i - Nat.min i (length w))%nat with 0%nat by lia; cbn; apply app_nil_r|].
  f_equal. rewrite skipn_app, firstn_length, skipn_all2 by (rewrite firstn_length; lia). replace (S i - Nat.min i (length w))%nat with 1%nat by lia. reflexivity.
Qed.
(** every operation leaves each node with at most one owner: the nodes of containers and handles before, and those allocated, are those after
    and the ones that were deallocated *)
Lemma nspec_conserve s o r s' : nspec eq moving s o r s' -> ~ copying o ->
  (forall i j, (o = Box (MoveAssign i j) \/ o = Box (Swap i j) \/ o = Box (Merge i j)) -> i <> j) ->
  exists freed, Permutation (addresses s ++ addr (news o)) (addresses s' ++ addr freed) /\
    (match o, r with (Extract _ _ | ExtractNth _ _ | InsertNode _ _ | InsertNodeHint _ _), NDone _ => True | (HNew | HMove _ | HSwap _ _ | HSet _ _ _), _ => True | _, _ => False end -> freed = []).
Proof.
  intros S NC D. unfold addresses. rewrite !owned_eq. destruct s as [w hs], s' as [w' hs']. cbn [fst snd].
  assert (forall freed, Permutation ((box_elems w ++ hand_elems hs) ++ news o) ((box_elems w' ++ hand_elems hs') ++ freed) ->
    Permutation (addr (box_elems w ++ hand_elems hs) ++ addr (news o)) (addr (box_elems w' ++ hand_elems hs') ++ addr freed)) as Z.
  { intros freed P. rewrite <- !map_app. apply Permutation_map. exact P. }
  assert (forall hs', (exists fr, Permutation (hand_elems hs) (hand_elems hs' ++ fr)) -> w' = w -> news o = [] -> 
     exists fr, Permutation (hand_elems hs) (hand_elems hs' ++ fr) /\ Permutation ((box_elems w ++ hand_elems hs) ++ news o) ((box_elems w' ++ hand_elems hs') ++ fr)) as Z2.
  { intros h2 [fr P] -> ->. exists fr. split; [exact P|]. rewrite P. psolve. }
  destruct o as [o|i k|i m|i j|i j| |j|i j|i j|j k v|j]; cbn [nspec] in S.
  - destruct S as (-> & r' & S & _). cbn [fst snd] in *. destruct (spec_conserve w o r' w' S NC) as [fr P].
    { intros i j E. apply (D i j). destruct E as [->|[->| ->]]; auto. }
    exists fr. split; [|destruct r; intros []]. apply Z. transitivity ((box_elems w ++ news (Box o)) ++ hand_elems hs'); [psolve|]. rewrite P. psolve.
  - destruct S as (v & Hv & S). cbn [news]. destruct r as [v0|kd]; [destruct v0; try contradiction; destruct (FoaSpec.lookup eq (v_pred v) k (v_elems v)) as [e|]|].
    + destruct S as (l' & P & [= -> ->]). exists []. split; [|auto]. apply Z. rewrite hand_push. cbn [news of_hand].
      pose proof (box_set w i v (Some (refill v l')) Hv) as Q. cbn [refill v_elems] in Q.
      assert (Permutation (box_elems w) (box_elems (set w i (Some (refill v l'))) ++ [e])) as E.
      { apply (cancel_l _ _ _ _ _ Q). rewrite P. psolve. }
      rewrite E. psolve.
    + injection S as -> ->. exists []. split; [|auto]. apply Z. rewrite hand_push. cbn. psolve.
    + destruct S as [_ [= -> ->]]. exists []. split; [|intros []]. apply Z. psolve.
  - destruct S as (v & Hv & -> & l1 & e & l2 & El & _ & [= -> ->]). exists []. split; [|auto]. apply Z. rewrite hand_push. cbn [news of_hand].
    pose proof (box_set w i v (Some (refill v (l1 ++ l2))) Hv) as Q. cbn [refill v_elems] in Q.
    assert (Permutation (box_elems w) (box_elems (set w i (Some (refill v (l1 ++ l2)))) ++ [e])) as E.
    { apply (cancel_l _ _ _ _ _ Q). rewrite El. psolve. }
    rewrite E. psolve.
  - destruct S as (v & h & Hv & Hh & S). cbn [news]. destruct h as [e|].
    + pose proof (hand_set hs j (Some (Some e)) (Some None) Hh) as QH. cbn [of_hand] in QH. rewrite app_nil_r in QH.
      destruct r as [v0|kd]; [destruct v0 as [|x b|]; try contradiction; destruct (FoaSpec.lookup eq (v_pred v) (fst e) (v_elems v))|].
      * destruct S as (_ & _ & [= -> ->]). exists []. split; [|auto]. apply Z. rewrite hand_push. cbn [news of_hand]. rewrite <- QH. psolve.
      * destruct S as (_ & _ & l' & P & [= -> ->]). exists []. split; [|auto]. apply Z. rewrite hand_push. cbn [news of_hand].
        pose proof (box_set w i v (Some (refill v l')) Hv) as Q. cbn [refill v_elems] in Q.
        assert (Permutation (box_elems w ++ [e]) (box_elems (set w i (Some (refill v l'))))) as E.
        { apply (cancel_r _ _ _ _ _ Q). rewrite P. psolve. }
        rewrite <- QH. rewrite <- E. psolve.
      * destruct S as [[= -> ->]|(_ & l' & lost & P & [= -> ->])]; [exists []; split; [apply Z; psolve|intros []]|].
        exists (lost ++ [e]). split; [|intros []]. apply Z. cbn [news].
        pose proof (box_set w i v (Some (refill v l')) Hv) as Q. cbn [refill v_elems] in Q.
        assert (Permutation (box_elems w) (box_elems (set w i (Some (refill v l'))) ++ lost)) as E.
        { apply (cancel_l _ _ _ _ _ Q). rewrite P. psolve. }
        rewrite <- QH, E. psolve.
    + destruct S as (-> & [= -> ->]). exists []. split; [|auto]. apply Z. rewrite hand_push. cbn. psolve.
  - destruct S as (v & h & Hv & Hh & S). cbn [news]. destruct h as [e|].
    + pose proof (hand_set hs j (Some (Some e)) (Some None) Hh) as QH. cbn [of_hand] in QH. rewrite app_nil_r in QH.
      destruct r as [v0|kd]; [destruct v0 as [|x b|]; try contradiction; destruct (FoaSpec.lookup eq (v_pred v) (fst e) (v_elems v))|].
      * destruct S as (_ & _ & [= -> ->]). exists []. split; [|auto]. apply Z. cbn. psolve.
      * destruct S as (_ & _ & l' & P & [= -> ->]). exists []. split; [|auto]. apply Z. cbn [news].
        pose proof (box_set w i v (Some (refill v l')) Hv) as Q. cbn [refill v_elems] in Q.
        assert (Permutation (box_elems w ++ [e]) (box_elems (set w i (Some (refill v l'))))) as E.
        { apply (cancel_r _ _ _ _ _ Q). rewrite P. psolve. }
        rewrite <- QH, <- E. psolve.
      * destruct S as [[= -> ->]|(_ & l' & lost & P & [= -> ->])]; [exists []; split; [apply Z; psolve|intros []]|].
        exists (lost ++ [e]). split; [|intros []]. apply Z. cbn [news].
        pose proof (box_set w i v (Some (refill v l')) Hv) as Q. cbn [refill v_elems] in Q.
        assert (Permutation (box_elems w) (box_elems (set w i (Some (refill v l'))) ++ lost)) as E.
        { apply (cancel_l _ _ _ _ _ Q). rewrite P. psolve. }
        rewrite <- QH, E. psolve.
    + destruct S as (-> & [= -> ->]). exists []. split; [|auto]. apply Z. cbn. psolve.
  - destruct S as (-> & [= -> ->]). exists []. split; [|auto]. apply Z. rewrite hand_push. cbn. psolve.
  - destruct S as (h & Hh & -> & [= -> ->]). exists []. split; [|auto]. apply Z. rewrite hand_push. cbn [news].
    pose proof (hand_set hs j (Some h) (Some None) Hh) as QH. cbn [of_hand] in QH. rewrite app_nil_r in QH. rewrite <- QH. cbn [of_hand]. psolve.
  - destruct S as (hi & h & Hi & Hh & -> & [= -> ->]). cbn [news]. assert (i < length hs)%nat as Li by (apply nth_error_Some; congruence).
    destruct (Nat.eqb_spec i j) as [->|Nij].
    + pose proof (hand_set hs j (Some hi) (Some None) Hi) as QH. cbn [of_hand] in QH. rewrite app_nil_r in QH.
      exists (of_hand (Some hi)). split; [|intros []]. apply Z. cbn [news]. rewrite <- QH. cbn [of_hand]. psolve.
    + pose proof (hand_set2 hs i j (Some hi) (Some h) (Some h) (Some None) Nij Hi Hh) as QH. cbn [of_hand] in QH. rewrite app_nil_r in QH.
      exists (of_hand (Some hi)). split; [|intros []]. apply Z. cbn [news].
      assert (Permutation (hand_elems hs) (hand_elems (set (set hs i (Some h)) j (Some None)) ++ of_hand (Some hi))) as E.
      { apply (cancel_l _ _ _ _ _ QH). cbn [of_hand]. psolve. }
      rewrite E. psolve.
  - destruct S as (hi & h & Hi & Hh & -> & [= -> ->]). exists []. split; [|auto]. apply Z. cbn [news].
    destruct (Nat.eqb_spec i j) as [->|Nij].
    + assert (h = hi) as -> by congruence. assert (j < length hs)%nat as Lj by (apply nth_error_Some; congruence).
      rewrite (set_set hs j), (set_same hs j (Some hi) Hi) by exact Lj. psolve.
    + pose proof (hand_set2 hs i j (Some hi) (Some h) (Some h) (Some hi) Nij Hi Hh) as QH. cbn [of_hand] in QH.
      assert (Permutation (hand_elems hs) (hand_elems (set (set hs i (Some h)) j (Some hi)))) as E.
      { pose proof (cancel (hand_elems hs) _ _ _ [] [] QH) as C. rewrite !app_nil_r in C. apply C. psolve. }
      rewrite E. psolve.
  - destruct S as (e & Hj & -> & [= -> ->]). exists []. split; [|auto]. cbn [news]. rewrite !map_app. cbn [map]. rewrite !app_nil_r.
    apply Permutation_app_head.
    pose proof (hand_set hs j _ (Some (Some (k, Node (n_addr (snd e)) (n_owner (snd e)) v))) Hj) as Q. cbn [of_hand] in Q.
    apply (Permutation_map (fun e : elem => n_addr (snd e))) in Q. rewrite !map_app in Q. cbn [map snd n_addr] in Q. apply Permutation_app_inv_r in Q. symmetry. exact Q.
  - destruct S as (h & Hh & -> & [= -> ->]). cbn [news]. exists (of_hand (Some h)). split; [|intros []]. apply Z. cbn [news].
    pose proof (hand_set hs j (Some h) None Hh) as QH. cbn [of_hand] in QH. rewrite app_nil_r in QH. rewrite <- QH. cbn [of_hand]. psolve.
Qed.

(** nodes stay with the allocator they came from *)
Definition VOwn (w : world K (node V)) : Prop := forall i v, nth_error w i = Some (Some v) -> Forall (fun e => n_owner (snd e) = v_alloc v) (v_elems v).
Lemma vown_set w i v v' : VOwn w -> nth_error w i = Some (Some v) -> Forall (fun e => n_owner (snd e) = v_alloc v') (v_elems v') -> VOwn (set w i (Some v')).
Proof.
  intros W Hv F j x Hj. rewrite set_err in Hj by (apply nth_error_Some; congruence).
  destruct (Nat.eqb j i); [injection Hj as <-; exact F|apply (W j x Hj)].
Qed.
Lemma vown_kill w i v : VOwn w -> nth_error w i = Some (Some v) -> VOwn (set w i None).
Proof.
  intros W Hv j x Hj. rewrite set_err in Hj by (apply nth_error_Some; congruence).
  destruct (Nat.eqb j i); [discriminate|apply (W j x Hj)].
Qed.
Lemma vown_push w v : VOwn w -> Forall (fun e => n_owner (snd e) = v_alloc v) (v_elems v) -> VOwn (w ++ [Some v]).
Proof.
  intros W F j x Hj. destruct (Nat.lt_ge_cases j (length w)) as [L|L].
  - rewrite nth_error_app1 in Hj by exact L. exact (W j x Hj).
  - rewrite nth_error_app2 in Hj by exact L. destruct (j - length w)%nat as [|d]; cbn in Hj; [|destruct d; discriminate]. injection Hj as <-. exact F.
Qed.
Lemma forall_perm {A} (P : A -> Prop) l l' : Permutation l l' -> Forall P l -> Forall P l'.
Proof. intros Q F. rewrite Forall_forall in *. intros x Hx. apply F. eapply Permutation_in; [symmetry; exact Q|exact Hx]. Qed.
Lemma spec_owners w o r w' : spec eq moving w o r w' -> ~ copying (Box o) -> VOwn w ->
  (forall i o1 v e, o = On i o1 -> nth_error w i = Some (Some v) -> In e (news1 o1) -> n_owner (snd e) = v_alloc v) ->
  (forall i j, o = MoveAssign i j \/ o = Swap i j \/ o = Merge i j -> i <> j) ->
  (forall j al x, o = MoveConstructAl j al -> nth_error w j = Some (Some x) -> v_alloc x = al) ->
  (forall i j x v, o = MoveAssign i j -> nth_error w j = Some (Some x) -> nth_error w' i = Some (Some v) -> v_alloc v = v_alloc x) ->
  (forall i j t x, o = Merge i j -> nth_error w i = Some (Some t) -> nth_error w j = Some (Some x) -> v_alloc t = v_alloc x) ->
  VOwn w'.
Proof.
  intros S NC W Fr D CA MA MG. destruct o as [i o|h p al m|j al|j|j al|i|i j|i j|i j|i j|i j eeq]; cbn [spec copying] in *; try (exfalso; apply NC; exact Logic.I).
  - destruct S as (v & l' & Hv & S & ->). destruct (spec1_conserve _ _ _ _ _ S NC) as [fr P]. apply (vown_set w i v _ W Hv). cbn.
    assert (Forall (fun e => n_owner (snd e) = v_alloc v) (v_elems v ++ news1 o)) as F.
    { apply Forall_app. split; [apply (W i v Hv)|]. apply Forall_forall. intros e He. exact (Fr i o v e eq_refl Hv He). }
    apply (forall_perm _ _ _ P) in F. apply Forall_app in F. apply F.
  - destruct r as [v0|kd]; [destruct v0; try contradiction; subst w'|destruct S as [_ ->]; exact W]. apply vown_push; [exact W|constructor].
  - destruct S as (x & Hx & _ & ->). apply vown_push; [apply (vown_set w j x); [exact W|exact Hx|constructor]|apply (W j x Hx)].
  - destruct S as (x & Hx & S). pose proof (CA j al x eq_refl Hx) as Ea. destruct r as [v0|kd]; [destruct v0; try contradiction; destruct S as (l & Pl & ->)|destruct S as [->| ->]].
    + apply vown_push; [apply (vown_set w j x); [exact W|exact Hx|constructor]|]. cbn. rewrite <- Ea. apply (forall_perm _ _ _ (Permutation_sym Pl)). apply (W j x Hx).
    + exact W.
    + apply (vown_set w j x); [exact W|exact Hx|constructor].
  - destruct S as (v & Hv & _ & ->). apply (vown_kill w i v W Hv).
  - destruct S as (t & x & al & l & lx & Ht & Hx & -> & _ & S). assert (i <> j) as Nij by (apply (D i j); auto).
    assert (i < length w)%nat as Li by (apply nth_error_Some; congruence).
    assert (j < length w)%nat as Lj by (apply nth_error_Some; congruence).
    assert (al = v_alloc x) as ->.
    { apply (MA i j x (View (v_hash x) (v_pred x) al l) eq_refl Hx). rewrite set_nth_other by (auto; rewrite set_len by exact Li; exact Lj).
      rewrite set_err, Nat.eqb_refl by exact Li. reflexivity. }
    pose proof (W j x Hx) as Fx.
    assert (Forall (fun e => n_owner (snd e) = v_alloc x) l /\ Forall (fun e => n_owner (snd e) = v_alloc x) lx) as [F1 F2].
    { destruct r as [v0|kd]; [destruct v0; try contradiction; destruct S as (Pl & ->)|destruct S as (rest & Pr)].
      - split; [apply (forall_perm _ _ _ (Permutation_sym Pl)); exact Fx|constructor].
      - apply (forall_perm _ _ _ Pr) in Fx. apply Forall_app in Fx as [Fa Fb]. apply Forall_app in Fb as [Fb _]. auto. }
    apply (vown_set _ j x); [apply (vown_set w i t); [exact W|exact Ht|exact F1]|rewrite set_nth_other; assumption|exact F2].
  - destruct S as (t & x & Ht & Hx & _ & ->). assert (i <> j) as Nij by (apply (D i j); auto).
    assert (i < length w)%nat as Li by (apply nth_error_Some; congruence).
    apply (vown_set _ j x); [apply (vown_set w i t); [exact W|exact Ht|apply (W j x Hx)]|rewrite set_nth_other; assumption|apply (W i t Ht)].
  - destruct S as (t & x & l & lx & Ht & Hx & -> & S). assert (i <> j) as Nij by (apply (D i j); auto).
    assert (i < length w)%nat as Li by (apply nth_error_Some; congruence).
    pose proof (MG i j t x eq_refl Ht Hx) as Ea. pose proof (W i t Ht) as Ft. pose proof (W j x Hx) as Fx. rewrite <- Ea in Fx.
    assert (Forall (fun e => n_owner (snd e) = v_alloc t) l /\ Forall (fun e => n_owner (snd e) = v_alloc t) lx) as [F1 F2].
    { destruct r as [v0|kd]; [destruct v0; try contradiction; destruct S as (moved & P1 & P2 & _)|destruct S as (lost & Pr & _)].
      - apply (forall_perm _ _ _ P1) in Fx. apply Forall_app in Fx as [Fm Fl]. split; [|exact Fl]. apply (forall_perm _ _ _ (Permutation_sym P2)). apply Forall_app. auto.
      - assert (Forall (fun e => n_owner (snd e) = v_alloc t) (v_elems t ++ v_elems x)) as F by (apply Forall_app; auto).
        apply (forall_perm _ _ _ Pr) in F. apply Forall_app in F as [Fa Fb]. apply Forall_app in Fb as [Fb _]. auto. }
    apply (vown_set _ j x); [apply (vown_set w i t); [exact W|exact Ht|exact F1]|rewrite set_nth_other; assumption|]. cbn. rewrite <- Ea. exact F2.
  - destruct S as (x & y & _ & _ & -> & _). exact W.
Qed.
End Facts.
