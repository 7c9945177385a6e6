(** When the operations on concurrent containers take effect. *)
From Coq Require Import NArith Bool List Arith Lia ZifyBool ZifyNat ZifyN Permutation.
From Verif Require Import FloatModel SizeModel SizeProofs GroupModel GroupSpec FoaModel FoaGroup FoaBase FoaFind FoaArr FoaInv FoaRehash FoaSpec
  ConcSpec ConcModel ConcInv ConcStep ConcStep2 ConcStep3.
Import ListNotations.
Local Open Scope N_scope.
Notation set_nth := FoaModel.set_nth.

Section Lin.
Context {K V : Type} (c : Cfg K V).
Notation arrays := (arrays K V).
Notation table := (table K V).
Notation Sh := (@Sh K V).
Notation pop := (pop K V). Notation cop := (cop K V). Notation loc := (@loc K V). Notation cres := (cres K V). Notation act := (act K V).
Notation ent := (option (cop * loc)).
Notation CInv := (CInv c).

(** the instants of an operation that are past, at each position *)
Definition bacts (acc : list ((K * V) * bool)) : list act := map (fun eb => AElem (fst eb) (snd eb)) acc.
Definition lins (o : cop) (l : loc) : list act :=
  match o with
  | Point _ => match l with
     | LUnl _ _ r | LDone r | LRet r => match r with RNone => [] | _ => [APoint r] end
     | LMl _ _ (KP e) | LReset _ _ (KP e) | LDec _ (KP e) => [APoint (RErased e)]
     | LUndo _ _ QThrow | LUndoUnl _ QThrow | LFail QThrow => [APoint RThrew]
     | _ => [] end
  | Bulk _ _ _ => match l with
     | BGrp _ acc | BMask _ acc | BElem _ _ acc | LMl _ _ (KB _ acc) | LReset _ _ (KB _ acc) | LDec _ (KB _ acc)
     | LUnl _ _ (RBulk acc _) | LDone (RBulk acc _) | LRet (RBulk acc _) => bacts acc
     | _ => [] end
  | SizeOf => match l with LDone (RSize n) | LRet (RSize n) => [ASize n] | _ => [] end
  end.
Definition opt {X} (a : option X) : list X := match a with Some x => [x] | None => [] end.

Lemma ap_ids e (s s' : Sh) : apply e s = Some s' -> hid (tb s') = hid (tb s) /\ pid (tb s') = pid (tb s) /\ aid (tb s') = aid (tb s).
Proof.
  destruct e; cbn [apply]; unfold on_groups; intros H;
  repeat match type of H with match ?x with _ => _ end = _ => destruct x; try discriminate | (if ?x then _ else _) = _ => destruct x; try discriminate end;
  injection H as <-; repeat split; reflexivity.
Qed.
Lemma put_group_cells g f (a : arrays) n u a' n' : put_group g f a n = Ret u a' n' -> cells a' = cells a.
Proof.
  unfold put_group. unfold cells. destruct (a_elems a) eqn:E; [|discriminate]. destruct (nth_error _ _); [|discriminate].
  intros H. injection H as _ <- _. cbn. reflexivity.
Qed.
Lemma ap_cells e (s s' : Sh) : apply e s = Some s' -> (forall i x, e <> ECell i x) -> cells (A s') = cells (A s).
Proof.
  destruct e; cbn [apply]; unfold on_groups; intros H N;
  repeat match type of H with (if ?x then _ else _) = _ => destruct x; try discriminate end; try (injection H as <-; reflexivity).
  1-3: destruct (put_group _ _ _ _) eqn:E; try discriminate; injection H as <-; exact (put_group_cells _ _ _ _ _ _ _ E).
  - destruct (nth_error _ _); [|discriminate]. injection H as <-. reflexivity.
  - destruct (N i x eq_refl).
Qed.
Lemma cells_elems (s s' : Sh) : cells (A s') = cells (A s) -> elems (A s') = elems (A s).
Proof. intros H. unfold elems. rewrite H. reflexivity. Qed.

(** one step *)
(** [W]: what the operations in progress add to the size *)
Definition effect (W : N) (o : cop) (n : nat) (p : N) (x : act) (l l' : list (K * V)) : Prop :=
  match o, x with
  | Point q, APoint r => n = 0%nat /\ pspec (keqf c) (moves c) p q l r l'
  | Bulk x md f, AElem e b => espec x md f n e b l l'
  | SizeOf, ASize r => n = 0%nat /\ l' = l /\ N.of_nat (length l) <= r <= N.of_nat (length l) + W
  | _, _ => False end.
Definition lin_good (W : N) (s : Sh) (o : cop) (l : loc) (r : outcome) : Prop :=
  match r with
  | Step e l' a =>
      lins o l' = lins o l ++ opt a /\
      (forall s', apply e s = Some s' -> match a with
        | None => cells (A s') = cells (A s)
        | Some x => effect W o (length (lins o l)) (pid (tb s)) x (elems (A s)) (elems (A s')) end) /\
      (forall s', apply e s = Some s' -> forall i e', nth_error (cells (A s')) i = Some (Live e') ->
         (exists e, nth_error (cells (A s)) i = Some (Live e) /\ fst e' = fst e) \/
         (exists p x n, o = Point p /\ l = LCons x n /\ slot_index (x_g x) n = i /\ fst e' = pkey p))
  | _ => True end.

Lemma lg_quiet W s o l e l' : (forall i x, e <> ECell i x) -> lins o l' = lins o l -> lin_good W s o l (Step e l' None).
Proof.
  intros He Hl. cbn [lin_good opt]. rewrite app_nil_r. split; [exact Hl|]. split; intros s' H.
  - eapply ap_cells; eassumption.
  - intros i e' Hi. left. exists e'. rewrite <- (ap_cells _ _ _ H He). auto.
Qed.
Lemma lg_act W s o l e l' x : (forall i x, e <> ECell i x) -> lins o l' = lins o l ++ [x] ->
  effect W o (length (lins o l)) (pid (tb s)) x (elems (A s)) (elems (A s)) -> lin_good W s o l (Step e l' (Some x)).
Proof.
  intros He Hl Hx. cbn [lin_good opt]. split; [exact Hl|]. split; intros s' H.
  - rewrite (cells_elems s s'); [exact Hx|]. eapply ap_cells; eassumption.
  - intros i e' Hi. left. exists e'. rewrite <- (ap_cells _ _ _ H He). auto.
Qed.
Lemma lg_write W k s o l i e1 v l' x : Shape k (A s) -> nth_error (cells (A s)) i = Some (Live e1) -> lins o l' = lins o l ++ [x] ->
  (forall rest l2, Permutation (elems (A s)) (e1 :: rest) -> Permutation l2 ((fst e1, v) :: rest) -> effect W o (length (lins o l)) (pid (tb s)) x (elems (A s)) l2) ->
  lin_good W s o l (Step (ECell i (Live (fst e1, v))) l' (Some x)).
Proof.
  intros HS Hi Hl He. pose proof (nth_error_Some_lt _ _ _ Hi) as Li. cbn [lin_good opt]. split; [exact Hl|].
  split; intros s' H; rewrite (ap_cell k) in H by assumption; injection H as <-.
  - destruct (elems_swap (A s) i e1 (fst e1, v) Hi) as (rest & P1 & P2). apply (He rest); [exact P1|exact P2].
  - intros j e' Hj. left. cbn [A with_arr tb set_arr arr] in Hj. rewrite cells_upd_cell, set_nth_err in Hj by exact Li. destruct (Nat.eqb_spec j i) as [->|N].
    + injection Hj as <-. exists e1. auto.
    + exists e'. auto.
Qed.
Lemma lg_kill W k s o l i e1 l' x : Shape k (A s) -> nth_error (cells (A s)) i = Some (Live e1) -> lins o l' = lins o l ++ [x] ->
  (forall l2, Permutation (elems (A s)) (e1 :: l2) -> effect W o (length (lins o l)) (pid (tb s)) x (elems (A s)) l2) ->
  lin_good W s o l (Step (ECell i Raw) l' (Some x)).
Proof.
  intros HS Hi Hl He. pose proof (nth_error_Some_lt _ _ _ Hi) as Li. cbn [lin_good opt]. split; [exact Hl|].
  split; intros s' H; rewrite (ap_cell k) in H by assumption; injection H as <-.
  - apply He. exact (elems_set_dead (A s) i e1 Raw Hi eq_refl).
  - intros j e' Hj. left. cbn [A with_arr tb set_arr arr] in Hj. rewrite cells_upd_cell, set_nth_err in Hj by exact Li. destruct (Nat.eqb_spec j i) as [->|N]; [discriminate|].
    exists e'. auto.
Qed.

Lemma in_elems (a : arrays) e : In e (elems a) -> exists i, nth_error (cells a) i = Some (Live e).
Proof.
  unfold elems. intros H. apply in_flat_map in H as (x & Hx & He). apply In_nth_error in Hx as [i Hi]. exists i.
  destruct x; cbn in He; try contradiction. destruct He as [->|[]]. exact Hi.
Qed.
Lemma elems_in (a : arrays) i e : nth_error (cells a) i = Some (Live e) -> In e (elems a).
Proof. intros H. unfold elems. apply in_flat_map. exists (Live e). split; [eapply nth_error_In; exact H|now left]. Qed.

(** a key about to be constructed is in no other slot *)
Lemma claim_absent k s vs t p x n : CInv k s vs -> nth_error vs t = Some (Some (Point p, LCons x n)) -> absent (keqf c) (pid (tb s)) (pkey p) (elems (A s)).
Proof.
  intros [B U] Ht e He. destruct (keqf c (pid (tb s)) (pkey p) (fst e)) eqn:E; [exfalso|reflexivity].
  apply in_elems in He as [i Hi]. destruct (cb_ti _ _ _ _ B _ _ _ Ht) as [_ T]. cbn [ConcInv.TI] in T. destruct T as [_ [_ Hr] _ _].
  assert (slot_index (x_g x) n = i) as E2; [|congruence].
  apply (cu_uniq _ _ _ _ U (slot_index (x_g x) n) i (pkey p) (fst e)); [right; exists t, p, x, n; auto|left; exists e; auto|exact E].
Qed.

Lemma plin_ok k s vs t p l free i thr : CInv k s vs -> nth_error vs t = Some (Some (Point p, l)) -> lin_good (wsum wt vs) s (Point p) l (pstep c free s p l i thr).
Proof.
  intros CI Ht. set (Wt := wsum wt vs). pose proof CI as [B U]. destruct (cb_ti _ _ _ _ B _ _ _ Ht) as [W T]. pose proof (cb_fr _ _ _ _ B) as Fk. pose proof (fr_geo _ _ _ Fk) as G.
  assert (forall e l', (forall i x, e <> ECell i x) -> lins (Point p) l' = lins (Point p) l -> lin_good Wt s (Point p) l (Step e l' None)) as Q by (intros; apply lg_quiet; assumption).
  assert (forall l', lins (Point p) l' = lins (Point p) l -> lin_good Wt s (Point p) l (go l')) as Qg by (intros; apply Q; [discriminate|assumption]).
  assert (forall l1 : list (K * V), pspec (keqf c) (moves c) (pid (tb s)) p l1 RThrew l1) as Thr by (intros l1; destruct p; left; reflexivity).
  destruct l; cbn [ConcInv.TI wf] in W, T; try contradiction; cbn [pstep]; change (arr (tb s)) with (A s).
  - apply Qg. reflexivity.
  - destruct thr; [apply lg_act; [discriminate|reflexivity|split; [reflexivity|apply Thr]]|]. destruct p; apply Qg; reflexivity.
  - destruct (nth_error (cnt s) _); [apply Qg; reflexivity|exact I].
  - destruct (thr && gives_up p); [apply lg_act; [discriminate|reflexivity|split; [reflexivity|apply Thr]]|]. destruct u; [destruct m; apply Qg; reflexivity|]. destruct (memb _ _); [|exact I]. destruct (get_group _ _); [apply Qg; reflexivity|exact I].
  - destruct (free _ _); [apply Qg; reflexivity|exact I].
  - destruct m; [apply Qg; reflexivity|]. destruct (get_group _ _); [|exact I]. destruct (b_is_occupied _ _); apply Qg; reflexivity.
  - destruct (get_cell _ _) as [[| |e]|]; try exact I. destruct thr; [apply lg_act; [discriminate|reflexivity|split; [reflexivity|apply Thr]]|].
    destruct (keqf _ _ _ _); apply Qg; reflexivity.
  - (* LCall *) destruct T as [T (e1 & E1 & Ek)]. assert (Shape k (A s)) as HS by (apply (fr_shape c); [exact Fk|apply nth_error_Some_lt in E1; lia]).
    rewrite (get_cell_eq k) by exact HS. rewrite E1. set (i0 := slot_index (x_g x) n) in *. pose proof (elems_in _ _ _ E1) as Hin.
    assert (forall rest, Permutation (elems (A s)) (e1 :: rest) -> Permutation (elems (A s)) ((fst e1, snd e1) :: rest)) as Pe by (intros; destruct e1; exact H).
    assert (exists rest, Permutation (elems (A s)) (e1 :: rest)) as [rest0 P0] by (apply in_split in Hin as (l1 & l2 & ->); exists (l1 ++ l2); symmetry; apply Permutation_middle).
    unfold visit_slot. fold i0. destruct p as [b1 k1 f1|k1 f1|b1 k1 v1 f1 f2]; cbn [pkey exclusive] in *.
    + destruct (f1 e1) as [v b] eqn:Ef. destruct b1.
      * eapply lg_write; [exact HS|exact E1|destruct b; reflexivity|]. intros rest l2 P1 P2. destruct b as [b|]; (split; [reflexivity|]); [exists b|right; exists e1]; exists v, rest; auto.
      * apply lg_act; [discriminate|destruct b; reflexivity|]. destruct b as [b|]; (split; [reflexivity|]); [exists b|right; exists e1]; exists v, rest0; auto.
    + destruct (f1 e1) as [v [[|]|]] eqn:Ef.
      * eapply lg_kill; [exact HS|exact E1|reflexivity|]. intros l2 P1. split; [reflexivity|]. exists v. auto.
      * eapply lg_write; [exact HS|exact E1|reflexivity|]. intros rest l2 P1 P2. split; [reflexivity|]. exists v, rest. auto.
      * eapply lg_write; [exact HS|exact E1|reflexivity|]. intros rest l2 P1 P2. split; [reflexivity|]. right. exists e1, v, rest. auto.
    + destruct (f2 e1) as [v b] eqn:Ef. destruct b1.
      * eapply lg_write; [exact HS|exact E1|destruct b; reflexivity|]. intros rest l2 P1 P2. destruct b as [b|]; (split; [reflexivity|]); [exists b|right; left; exists e1]; exists v, rest; auto.
      * apply lg_act; [discriminate|destruct b; reflexivity|]. destruct b as [b|]; (split; [reflexivity|]); [exists b|right; left; exists e1]; exists v, rest0; auto.
  - destruct (get_group _ _); [|exact I]. apply Q; [discriminate|reflexivity].
  - apply Q; [discriminate|reflexivity].
  - destruct kt; [|exact I]. apply Q; [discriminate|reflexivity].
  - destruct (get_group _ _); [|exact I]. unfold not_found. destruct (b_is_not_overflowed _ _); [destruct p; apply Qg; reflexivity|].
    destruct (pb_next _ _) as [pb []]; [apply Qg; reflexivity|destruct p; apply Qg; reflexivity].
  - apply Q; [discriminate|reflexivity].
  - destruct (_ <=? _); apply Qg; reflexivity.
  - destruct (free _ _); [apply Qg; reflexivity|exact I].
  - destruct (get_group _ _); [|exact I]. destruct (negb _); apply Q; try discriminate; reflexivity.
  - apply Qg. reflexivity.
  - destruct (nth_error (cnt s) _); [|exact I]. apply Q; [discriminate|]. destruct (negb _); reflexivity.
  - (* LCons *) destruct p as [| |b1 k1 v1 f1 f2]; try exact I. pose proof T as [T1 [Ln Hr] T3 T4]. pose proof (nth_error_Some_lt _ _ _ Hr) as Li.
    assert (Shape k (A s)) as HS by (apply (fr_shape c); [exact Fk|lia]). rewrite (get_cell_eq k) by exact HS. rewrite Hr.
    destruct thr; [apply lg_act; [discriminate|reflexivity|split; [reflexivity|apply Thr]]|].
    destruct (f1 (k1, v1)) as [v' b] eqn:Ef. pose proof (claim_absent k s vs t _ x n CI Ht) as Ha. cbn [pkey] in Ha.
    cbn [lin_good opt]. split; [destruct b; reflexivity|].
    split; intros s' H; rewrite (ap_cell k) in H by assumption; injection H as <-.
    + pose proof (elems_set_live (A s) (slot_index (x_g x) n) (k1, v') Hr) as P1. destruct b as [b|]; (split; [reflexivity|]).
      * exists v', b. auto.
      * right. right. left. exists v'. auto.
    + intros j e'. cbn [A with_arr tb set_arr arr]. rewrite cells_upd_cell, set_nth_err by exact Li. destruct (Nat.eqb_spec j (slot_index (x_g x) n)) as [->|N].
      * intros [= <-]. right. exists (PEmplace b1 k1 v1 f1 f2), x, n. auto.
      * intros Hj. left. exists e'. auto.
  - apply Q; [discriminate|reflexivity].
  - apply Qg. reflexivity.
  - apply Q; [discriminate|]. destruct q; reflexivity.
  - apply Qg. reflexivity.
  - exact I.
  - apply Qg. reflexivity.
  - apply Qg. reflexivity.
  - exact I.
Qed.

Lemma bacts_snoc acc e b : bacts (acc ++ [(e, b)]) = bacts acc ++ [AElem e b].
Proof. unfold bacts. rewrite map_app. reflexivity. Qed.
Lemma blin_ok k s vs t x0 md f l free : CInv k s vs -> nth_error vs t = Some (Some (Bulk x0 md f, l)) -> lin_good (wsum wt vs) s (Bulk x0 md f) l (bstep free s (writes x0 md) md f l).
Proof.
  intros CI Ht. set (Wt := wsum wt vs). pose proof CI as [B U]. destruct (cb_ti _ _ _ _ B _ _ _ Ht) as [W T]. pose proof (cb_fr _ _ _ _ B) as Fk. pose proof (fr_geo _ _ _ Fk) as G.
  assert (forall e l', (forall i x, e <> ECell i x) -> lins (Bulk x0 md f) l' = lins (Bulk x0 md f) l -> lin_good Wt s (Bulk x0 md f) l (Step e l' None)) as Q by (intros; apply lg_quiet; assumption).
  assert (forall l', lins (Bulk x0 md f) l' = lins (Bulk x0 md f) l -> lin_good Wt s (Bulk x0 md f) l (go l')) as Qg by (intros; apply Q; [discriminate|assumption]).
  destruct l; cbn [ConcInv.TI wf] in W, T; try contradiction; cbn [bstep]; change (arr (tb s)) with (A s).
  - apply Qg. reflexivity.
  - destruct (get_group _ _); [|exact I]. apply Q; [discriminate|reflexivity].
  - apply Q; [discriminate|reflexivity].
  - destruct kt; [exact I|]. apply Q; [discriminate|reflexivity].
  - destruct (a_elems _); [|apply Qg; reflexivity]. destruct (Nat.eqb _ _); [apply Qg; reflexivity|]. destruct (free _ _); [apply Qg; reflexivity|exact I].
  - destruct (get_group _ _); [|exact I]. apply Qg; reflexivity.
  - destruct T as (T1 & T2 & T3 & T4). destruct ms as [|n ms]; [apply Qg; reflexivity|].
    destruct (T4 n ltac:(now left)) as [Ln (e1 & E1)]. pose proof (fr_shape _ _ _ Fk T2) as HS. rewrite (get_cell_eq k) by exact HS. rewrite E1.
    destruct (f (length acc) e1) as [v ob] eqn:Ef. set (l' := if erases md ob then LMl _ _ _ else _).
    pose proof (elems_in _ _ _ E1) as Hin.
    assert (exists rest, Permutation (elems (A s)) (e1 :: rest)) as [rest0 P0] by (apply in_split in Hin as (l1 & l2 & ->); exists (l1 ++ l2); symmetry; apply Permutation_middle).
    assert (lins (Bulk x0 md f) l' = lins (Bulk x0 md f) (BElem g (n :: ms) acc) ++ [AElem e1 (erases md ob)]) as El.
    { unfold l'. cbn [lins]. rewrite <- bacts_snoc. destruct (erases md ob); [reflexivity|]. destruct ob; [destruct (goes_on md (Some b))|]; reflexivity. }
    assert (length (lins (Bulk x0 md f) (BElem g (n :: ms) acc)) = length acc) as Ln' by (cbn [lins]; unfold bacts; apply map_length).
    destruct (erases md ob) eqn:Ee.
    + eapply lg_kill; [exact HS|exact E1|exact El|]. intros l2 P1. cbn [effect]. rewrite Ln'. exists v, ob, l2. rewrite Ee. auto.
    + destruct (writes x0 md) eqn:Ew.
      * eapply lg_write; [exact HS|exact E1|exact El|]. intros rest l2 P1 P2. cbn [effect]. rewrite Ln'. exists v, ob, rest. rewrite Ew, Ee. auto.
      * apply lg_act; [discriminate|exact El|]. cbn [effect]. rewrite Ln'. exists v, ob, rest0. rewrite Ew, Ee. destruct e1; auto.
  - destruct r; try contradiction. apply Qg. reflexivity.
  - destruct r; try contradiction. apply Qg. reflexivity.
  - exact I.
Qed.
Lemma lin_ok k s vs t o l free i thr : CInv k s vs -> nth_error vs t = Some (Some (o, l)) -> lin_good (wsum wt vs) s o l (lstep c free s o l i thr).
Proof.
  intros CI Ht. destruct o as [p|x md f|]; cbn [lstep].
  - eapply plin_ok; eassumption.
  - eapply blin_ok; eassumption.
  - pose proof CI as [B U]. destruct (cb_ti _ _ _ _ B _ _ _ Ht) as [W T].
    destruct l; cbn [wf] in W; try contradiction; cbn [sstep]; try (apply lg_quiet; [discriminate|reflexivity]); try exact I.
    apply lg_act; [discriminate|reflexivity|]. cbn [effect lins length ConcInv.TI] in *. split; [reflexivity|]. split; [reflexivity|].
      pose proof (cb_sz _ _ _ _ B). pose proof (cb_adm _ _ _ _ B). destruct (N.leb_spec (sz (tb s)) m); lia.
Qed.
End Lin.
