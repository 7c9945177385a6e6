(** Executing schedules of WeakModel.v, to exhibit concrete executions. *)
From Coq Require Import NArith Bool List Arith Lia.
From Verif Require Import SizeModel GroupModel FoaModel FoaArr FoaSpec FoaWorld FoaExamples ConcSpec ConcModel ConcExec WeakModel WeakHb WeakSee.
Import ListNotations.
Local Open Scope N_scope.

Section Dec.
Context {K V : Type} (st : bool).
Notation wact := (@wact K V). Notation wev := (@wev K V). Notation W := (@W K V).
Notation hb := (@hb K V st). Notation sync := (@sync K V st). Notation knows := (@knows K V st).
Implicit Type log : list wev.

(** *** synchronizes-with, decided *)
Definition memn (i : nat) (l : list nat) : bool := existsb (Nat.eqb i) l.
Lemma memn_in i l : memn i l = true <-> In i l.
Proof.
  unfold memn. rewrite existsb_exists. split; [intros (x & H & E); apply Nat.eqb_eq in E; subst; exact H|intros H; exists i; split; [exact H|apply Nat.eqb_refl]].
Qed.
Definition acq_of (a : wact) : option (nat * nat * bool) :=
  match a with WLocal d o l _ l' _ => match lock_of o l, lock_of o l' with None, Some (g, x) => Some (d, g, x) | _, _ => None end | _ => None end.
Definition rel_of (a : wact) : option (nat * nat * bool) :=
  match a with WLocal d o l _ l' _ => match lock_of o l, lock_of o l' with Some (g, x), None => Some (d, g, x) | _, _ => None end | _ => None end.
Definition ent_of (a : wact) : option nat := match a with WLocal d _ l _ l' _ => if outside l && negb (outside l') then Some d else None | _ => None end.
Definition lea_of (a : wact) : option nat := match a with WLocal d _ l _ l' _ => if negb (outside l) && outside l' then Some d else None | _ => None end.
Definition exs_of (a : wact) : list nat := match a with WExcl ds _ => ds | _ => [] end.
Definition reps_of (a : wact) : list nat := match a with WExcl ds made => ds ++ made | _ => [] end.
Definition inc_of (a : wact) : option (nat * nat) := match a with WLocal d _ _ (ECnt g) _ _ => Some (d, g) | _ => None end.
Definition lod_of (a : wact) : option (nat * nat * nat) := match a with WLocal d _ (LCount _) _ (LScan x _ _) rd => Some (d, x_g x, rd) | _ => None end.
Definition rsz_of (a : wact) : option nat := match a with WLocal d _ _ (ESzInc | ESzDec) _ _ => Some d | _ => None end.
Definition rds_of (a : wact) : option nat := match rsz_of a with Some d => Some d | None => match a with WLocal d _ (SSz _) _ _ _ => Some d | _ => None end end.
Definition low_of (a : wact) : option nat := match a with WLocal d _ _ (EMlDec _) _ _ => Some d | _ => None end.
Definition rdm_of (a : wact) : option nat := match low_of a with Some d => Some d | None => match a with WLocal d _ (LChk _ _ | SMl) _ _ _ => Some d | _ => None end end.
Lemma acq_ok a d g x : acquires a d g x -> acq_of a = Some (d, g, x).
Proof. destruct a; cbn; try contradiction. intros (-> & -> & ->). reflexivity. Qed.
Lemma rel_ok a d g x : releases a d g x -> rel_of a = Some (d, g, x).
Proof. destruct a; cbn; try contradiction. intros (-> & -> & ->). reflexivity. Qed.
Lemma ent_ok a d : enters a d -> ent_of a = Some d.
Proof. destruct a; cbn; try contradiction. intros (-> & -> & ->). reflexivity. Qed.
Lemma lea_ok a d : leaves a d -> lea_of a = Some d.
Proof. destruct a; cbn; try contradiction. intros (-> & -> & ->). reflexivity. Qed.
Lemma exs_ok a d : excl a d -> In d (exs_of a).
Proof. destruct a; cbn; try contradiction. auto. Qed.
Lemma reps_ok a d : replaces a d <-> In d (reps_of a).
Proof. unfold replaces. destruct a; cbn; try tauto. rewrite in_app_iff. tauto. Qed.
Lemma inc_ok a d g : increments a d g -> inc_of a = Some (d, g).
Proof. destruct a as [| |? ? ? e| | | | |]; cbn; try contradiction. destruct e; try contradiction. intros (-> & ->). reflexivity. Qed.
Lemma lod_ok a d g rd : loads a d g rd -> lod_of a = Some (d, g, rd).
Proof. destruct a as [| |? ? l e l'| | | | |]; cbn; try contradiction. destruct l; try contradiction. destruct l'; try contradiction. intros (-> & -> & ->). reflexivity. Qed.
Lemma rsz_ok a d : resizes a d -> rsz_of a = Some d.
Proof. destruct a as [| |? ? l e l'| | | | |]; cbn; try contradiction. destruct e; try contradiction; intros ->; reflexivity. Qed.
Lemma rds_ok a d : reads_size a d -> rds_of a = Some d.
Proof.
  unfold rds_of. intros [H|H]; [rewrite (rsz_ok _ _ H); reflexivity|]. destruct a as [| |? ? l e l'| | | | |]; try contradiction. destruct l; try contradiction. subst.
  destruct e; reflexivity.
Qed.
Lemma low_ok a d : lowers a d -> low_of a = Some d.
Proof. destruct a as [| |? ? l e l'| | | | |]; cbn; try contradiction. destruct e; try contradiction; intros ->; reflexivity. Qed.
Lemma rdm_ok a d : reads_ml a d -> rdm_of a = Some d.
Proof.
  unfold rdm_of. intros [H|H]; [rewrite (low_ok _ _ H); reflexivity|]. destruct a as [| |? ? l e l'| | | | |]; try contradiction. destruct l; try contradiction; subst; destruct e; reflexivity.
Qed.

Definition same_arraysb log (d i j : nat) : bool :=
  forallb (fun k => match nth_error log k with Some (_, a) => negb (memn d (reps_of a)) | None => true end) (seq (S i) (j - S i)).
Lemma same_arrays_ok log d i j : same_arrays log d i j -> same_arraysb log d i j = true.
Proof.
  intros H. apply forallb_forall. intros k Hk. apply in_seq in Hk. destruct (nth_error log k) as [[t a]|] eqn:E; [|reflexivity].
  assert (i < k < j)%nat as B by lia. specialize (H k t a B E). apply negb_true_iff. apply not_true_is_false. intros M. apply H, reps_ok, memn_in, M.
Qed.
Definition eqo (x y : option nat) : bool := match x, y with Some a, Some b => Nat.eqb a b | _, _ => false end.
Lemma eqo_some x y d : x = Some d -> y = Some d -> eqo x y = true. Proof. intros -> ->. apply Nat.eqb_refl. Qed.
Definition syncb log (i j ti tj : nat) (a b : wact) : bool :=
  match rel_of a, acq_of b with Some (d, g, x), Some (d', g', y) => Nat.eqb d d' && Nat.eqb g g' && (x || y || st) && same_arraysb log d i j | _, _ => false end
  || match lea_of a with Some d => memn d (exs_of b) | None => false end
  || match ent_of b with Some d => memn d (exs_of a) | None => false end
  || existsb (fun d => memn d (exs_of b)) (exs_of a)
  || match inc_of a, inc_of b with Some (d, g), Some (d', g') => Nat.eqb d d' && Nat.eqb g g' && same_arraysb log d i j | _, _ => false end
  || match inc_of a, lod_of b with Some (d, g), Some (d', g', rd) => Nat.eqb d d' && Nat.eqb g g' && Nat.ltb i rd && same_arraysb log d i j | _, _ => false end
  || match a, b with WSend m, WRecv m' => Nat.eqb m m' | _, _ => false end
  || (st && (eqo (lea_of a) (ent_of b) && Nat.eqb (Nat.modulo ti 128) (Nat.modulo tj 128) || eqo (rsz_of a) (rds_of b) || eqo (low_of a) (rdm_of b))).
Lemma sync_b log i j ti tj a b : sync log i j ti tj a b -> syncb log i j ti tj a b = true.
Proof.
  unfold syncb. rewrite !orb_true_iff.
  intros [d g x y R Aq S Ar|d L X|d X E|d X Y|d g Ia Ib Ar|d g rd Ia Lb Lt Ar|m -> ->|d Hst L E M|d Hst R S|d Hst R S].
  - rewrite (rel_ok _ _ _ _ R), (acq_ok _ _ _ _ Aq), !Nat.eqb_refl, S, (same_arrays_ok _ _ _ _ Ar). tauto.
  - rewrite (lea_ok _ _ L). pose proof (proj2 (memn_in _ _) (exs_ok _ _ X)) as ->. tauto.
  - rewrite (ent_ok _ _ E). pose proof (proj2 (memn_in _ _) (exs_ok _ _ X)) as ->. tauto.
  - do 4 left. right. apply existsb_exists. exists d. split; [apply exs_ok, X|apply memn_in, exs_ok, Y].
  - rewrite (inc_ok _ _ _ Ia), (inc_ok _ _ _ Ib), !Nat.eqb_refl, (same_arrays_ok _ _ _ _ Ar). tauto.
  - rewrite (inc_ok _ _ _ Ia), (lod_ok _ _ _ _ Lb), !Nat.eqb_refl, (proj2 (Nat.ltb_lt _ _) Lt), (same_arrays_ok _ _ _ _ Ar). tauto.
  - rewrite Nat.eqb_refl. tauto.
  - right. rewrite Hst, (eqo_some _ _ d (lea_ok _ _ L) (ent_ok _ _ E)), M, Nat.eqb_refl. reflexivity.
  - right. rewrite Hst, (eqo_some _ _ d (rsz_ok _ _ R) (rds_ok _ _ S)). rewrite orb_true_r. reflexivity.
  - right. rewrite Hst, (eqo_some _ _ d (low_ok _ _ R) (rdm_ok _ _ S)). rewrite !orb_true_r. reflexivity.
Qed.

(** *** the events a thread knows: at most those of [kset] *)
Definition edgeb log (i j : nat) : bool :=
  match nth_error log i, nth_error log j with Some (ti, a), Some (tj, b) => Nat.eqb ti tj || syncb log i j ti tj a b | _, _ => false end.
Lemma hb_first log i j : hb log i j -> exists k, (i < k <= j)%nat /\ edgeb log i k = true /\ (k = j \/ hb log k j).
Proof.
  intros H. induction H as [i j (t & a & b & Ha & Hb & L)|i j (ti & a & tj & b & Ha & Hb & L & S)|i j k H1 IH1 H2 IH2].
  - exists j. split; [lia|]. split; [|now left]. unfold edgeb. rewrite Ha, Hb, Nat.eqb_refl. reflexivity.
  - exists j. split; [lia|]. split; [|now left]. unfold edgeb. rewrite Ha, Hb, (sync_b _ _ _ _ _ _ _ S). apply orb_true_r.
  - destruct IH1 as (k' & B & E & C). exists k'. pose proof (hb_bounds _ _ _ _ H2). split; [lia|]. split; [exact E|]. right. destruct C as [->|C]; [exact H2|]. eapply hb_trans; eassumption.
Qed.
Definition by_t log (t i : nat) : bool := match nth_error log i with Some (u, _) => Nat.eqb u t | None => false end.
Fixpoint kset log (t m : nat) : list nat :=
  match m with
  | O => []
  | S m' => let L := kset log t m' in let i := (length log - S m')%nat in if by_t log t i || existsb (edgeb log i) L then i :: L else L
  end.
Lemma kset_known log t : forall m i, (m <= length log)%nat -> (length log - m <= i)%nat -> knows log t i -> In i (kset log t m).
Proof.
  induction m as [|m IH]; intros i Lm Li Kn.
  - pose proof (knows_lt _ _ _ _ Kn). lia.
  - cbn [kset]. destruct (Nat.eq_dec i (length log - S m)) as [->|Ne].
    + destruct (_ || _) eqn:E; [now left|]. exfalso. apply orb_false_iff in E as [E1 E2]. destruct Kn as (j & a & Hj & [<-|Hb]).
      * unfold by_t in E1. rewrite Hj, Nat.eqb_refl in E1. discriminate.
      * destruct (hb_first _ _ _ Hb) as (k & B & Ek & C). assert (In k (kset log t m)) as Ik.
        { apply IH; [lia|lia|]. exists j, a. split; [exact Hj|]. destruct C as [->|C]; auto. }
        apply (not_true_iff_false _) in E2. apply E2. apply existsb_exists. exists k. auto.
    + assert (In i (kset log t m)) by (apply IH; [lia|lia|exact Kn]). destruct (_ || _); [right|]; assumption.
Qed.
Definition known log (t : nat) : list nat := kset log t (length log).
Lemma not_known log t i : memn i (known log t) = false -> ~ knows log t i.
Proof. intros H Kn. apply (not_true_iff_false _) in H. apply H, memn_in, kset_known; [lia|lia|exact Kn]. Qed.
End Dec.

Section WExec.
Context (st : bool) (thr : kind -> nat -> bool) (mv : bool).
Notation c := (ecfg thr mv).
Notation wact := (@wact N N). Notation wev := (@wev N N). Notation W := (@W N N). Notation conf := (@conf N N). Notation Sh := (@Sh N N).
Notation knows := (@knows N N st). Notation sees := (@sees N N st). Notation readable := (@readable N N st). Notation made_known := (@made_known N N st).
Notation wstep := (@wstep N N c st). Notation wruns := (@wruns N N c st).
Implicit Type w : W.

Lemma at_end w : length (w_past w) = length (w_log w) -> at_time w (length (w_log w)) = Some (w_now w).
Proof. intros L. unfold at_time. rewrite <- L. apply nth_end. Qed.
Lemma readable_now w t d v s : length (w_past w) = length (w_log w) -> box (w_now w) d = Some s -> readable w t d v (length (w_log w)) s.
Proof.
  intros L B. split; [exists (w_now w); split; [apply at_end, L|exact B]|]. intros i u a Li Hi _. apply nth_lt in Hi. lia.
Qed.
(** group g as it was after m0 events *)
Definition with_group (s sm : Sh) (g : nat) : Sh :=
  let a := arr (tb s) in
  MkSh (set_arr (tb s) (Arr (a_gsi a) (a_mask a) (FoaModel.set_nth (a_groups a) g (nth g (a_groups (arr (tb sm))) [])) (a_elems a) (a_owner a))) (cnt s).
Definition touches (a : wact) (d g : nat) : bool :=
  match a with
  | WLocal d' _ _ (ESet g' _ _ | EReset g' _ | EMark g' _) _ _ => Nat.eqb d' d && Nat.eqb g' g
  | WExcl _ _ => memn d (reps_of a)
  | _ => false end.
Lemma touches_ok a d g n : hits a d (VByte g n) -> touches a d g = true.
Proof.
  destruct a as [| |d' o l e l' rd|ds made| | | |]; cbn [hits touches]; try (intros [[]|[]]; fail); try (intros [H|H]; cbn in H; contradiction).
  - intros (-> & H). destruct e; try contradiction; destruct H as [-> _]; rewrite !Nat.eqb_refl; reflexivity.
  - intros H. apply memn_in. apply (proj1 (reps_ok _ _)) in H. exact H.
Qed.
Definition staleb w (t d m0 g : nat) : bool :=
  let kn := known st (w_log w) t in
  forallb (fun i => match nth_error (w_log w) i with Some (_, a) => negb (touches a d g && memn i kn) | None => true end) (seq m0 (length (w_log w) - m0)).
Definition view_of w (t d : nat) (so : option (nat * nat)) : option Sh :=
  match box (w_now w) d with
  | Some s => match so with
      | None => Some s
      | Some (m0, g) => match at_time w m0 with
          | Some C0 => match box C0 d with
              | Some sm => if staleb w t d m0 g && Nat.eqb (length (nth g (a_groups (arr (tb sm))) [])) (length (nth g (a_groups (arr (tb s))) [])) && Nat.ltb g (length (a_groups (arr (tb s)))) then Some (with_group s sm g) else None
              | None => None end
          | None => None end
      end
  | None => None end.
Lemma set_cons {X} (y : X) l g x : FoaModel.set_nth (y :: l) (S g) x = y :: FoaModel.set_nth l g x. Proof. reflexivity. Qed.
Lemma set_nth_lens {X} : forall (l : list (list X)) g x, length x = length (nth g l []) -> map (@length X) (FoaModel.set_nth l g x) = map (@length X) l.
Proof.
  induction l as [|y l IH]; intros g x H; [destruct g; reflexivity|]. destruct g as [|g].
  - change (length x :: map (@length X) l = length y :: map (@length X) l). rewrite H. reflexivity.
  - rewrite set_cons. cbn [map nth] in *. rewrite (IH g x H). reflexivity.
Qed.
Lemma nth_set_nth {X} (dx : X) : forall (l : list X) g x g', (g < length l)%nat -> nth g' (FoaModel.set_nth l g x) dx = if Nat.eqb g' g then x else nth g' l dx.
Proof.
  induction l as [|y l IH]; intros g x g' H; [cbn in H; lia|]. destruct g as [|g].
  - destruct g'; reflexivity.
  - rewrite set_cons. destruct g' as [|g']; [reflexivity|]. cbn [nth Nat.eqb]. apply IH. cbn in H. lia.
Qed.
Lemma view_sees w t d so s : length (w_past w) = length (w_log w) -> view_of w t d so = Some s ->
  sees w t d s /\ exists s0, box (w_now w) d = Some s0 /\ sz (tb s) = sz (tb s0) /\ ml (tb s) = ml (tb s0) /\ cnt s = cnt s0.
Proof.
  intros L H. unfold view_of in H. destruct (box (w_now w) d) as [s0|] eqn:B; [|discriminate].
  pose proof (fun v => readable_now w t d v s0 L B) as R. destruct so as [[m0 g]|].
  - destruct (at_time w m0) as [C0|] eqn:A0; [|discriminate]. destruct (box C0 d) as [sm|] eqn:B0; [|discriminate].
    destruct (staleb w t d m0 g) eqn:Sb; cbn [andb] in H; [|discriminate]. destruct (Nat.eqb _ _) eqn:El; cbn [andb] in H; [|discriminate].
    destruct (Nat.ltb _ _) eqn:Eg; [|discriminate]. injection H as <-. apply Nat.eqb_eq in El. apply Nat.ltb_lt in Eg. split; [|exists s0; auto].
    split.
    + intros g1 n. cbn [with_group tb arr set_arr a_groups]. rewrite nth_set_nth by exact Eg. destruct (Nat.eqb_spec g1 g) as [->|Ne].
      * exists m0, sm. split; [|reflexivity]. split; [eauto|]. intros i u a Li Hi Hh. apply not_known. unfold staleb in Sb. rewrite forallb_forall in Sb.
        specialize (Sb i). rewrite Hi, (touches_ok _ _ _ _ Hh) in Sb. cbn [andb] in Sb. apply negb_true_iff, Sb. apply in_seq. pose proof (nth_lt _ _ _ Hi). lia.
      * eexists; eexists. split; [apply R|reflexivity].
    + intros g1. eexists; eexists. split; [apply R|reflexivity].
    + intros i. eexists; eexists. split; [apply R|reflexivity].
    + eexists; eexists. split; [apply R|]. unfold same_box. cbn [with_group tb arr set_arr hid pid aid a_owner a_gsi a_mask a_groups a_elems cnt].
      repeat split. apply set_nth_lens. exact El.
  - injection H as <-. split; [|exists s0; auto]. split; intros; eexists; eexists; (split; [apply R|]); try reflexivity. unfold same_box. repeat split.
Qed.

(** one scheduling decision; WMLocal: the state read may have the group g of an earlier time *)
Inductive wmove :=
| WMCall (t d : nat) (o : cop N N) | WMLocal (t i : nat) (x : bool) (so : option (nat * nat)) | WMFull (t n : nat) | WMRet (t : nat)
| WMBegin (t : nat) (o : op N N) | WMNew (t n : nat) | WMSend (t m : nat) | WMRecv (t m : nat).
(** the creation of container d is an own event, or received by a message its creator has sent *)
Definition made_knownb w (t d : nat) : bool :=
  forallb (fun i => match nth_error (w_log w) i with
    | Some (u, WExcl _ made) => negb (memn d made) || Nat.eqb u t ||
        existsb (fun j => match nth_error (w_log w) j with
          | Some (u', WSend m) => Nat.eqb u' u && Nat.ltb i j && existsb (fun k => match nth_error (w_log w) k with Some (t', WRecv m') => Nat.eqb t' t && Nat.eqb m' m && Nat.ltb j k | _ => false end) (seq 0 (length (w_log w)))
          | _ => false end) (seq 0 (length (w_log w)))
    | _ => true end) (seq 0 (length (w_log w))).
Lemma made_known_ok w t d : made_knownb w t d = true -> made_known w t d.
Proof.
  intros H i u a Hi Hc. unfold made_knownb in H. rewrite forallb_forall in H. specialize (H i). rewrite Hi in H. destruct a as [| | |ds made| | | |]; cbn [creates] in Hc; try contradiction.
  rewrite (proj2 (memn_in _ _) Hc) in H. cbn [negb orb] in H. assert (In i (seq 0 (length (w_log w)))) as Li by (apply in_seq; apply nth_lt in Hi; lia).
  specialize (H Li). destruct (Nat.eqb_spec u t) as [->|Ne]; [exact (knows_own st _ _ _ _ Hi)|]. cbn [orb] in H. apply existsb_exists in H as (j & _ & H).
  destruct (nth_error (w_log w) j) as [[u' [| | | | | |m|]]|] eqn:Ej; try discriminate. apply andb_true_iff in H as [H Hk]. apply andb_true_iff in H as [Hu Hij].
  apply Nat.eqb_eq in Hu. apply Nat.ltb_lt in Hij. subst u'. apply existsb_exists in Hk as (k & _ & Hk).
  destruct (nth_error (w_log w) k) as [[t' [| | | | | | |m']]|] eqn:Ek; try discriminate. apply andb_true_iff in Hk as [Hk Hjk]. apply andb_true_iff in Hk as [Ht Hm].
  apply Nat.eqb_eq in Ht, Hm. apply Nat.ltb_lt in Hjk. subst t' m'. exists k, (WRecv m). split; [exact Ek|]. right. apply hb_trans with j.
  - apply hb_sb. exists u, (WExcl ds made), (WSend m). auto.
  - apply hb_sw. exists u, (WSend m), t, (WRecv m). split; [exact Ej|]. split; [exact Ek|]. split; [exact Hjk|]. eapply s_msg; reflexivity.
Qed.
Definition do_wmove (mo : wmove) w : option W :=
  let C := w_now w in
  match mo with
  | WMCall t d o =>
      match nth_error (th C) t, box C d with
      | Some Idle, Some _ => if made_knownb w t d then Some (ext w (set_th C t (At d o LEnter)) t (WCall d o)) else None
      | _, _ => None end
  | WMLocal t i x so =>
      match nth_error (th C) t with
      | Some (At d o l) =>
          match box C d, view_of w t d so with
          | Some s, Some sv => match lstep c (free_for C t d) sv o l i x with
              | Step e l' a => match apply e s with
                  | Some s' => Some (ext w (set_box (set_th C t (At d o l')) d s') t (WLocal d o l e l' (length (w_log w))))
                  | None => None end
              | _ => None end
          | _, _ => None end
      | _ => None end
  | WMFull t n =>
      match nth_error (th C) t with
      | Some (At d o LFull) =>
          match box C d with
          | Some s => if alone C t d then
              match rehash_if_full c (tb s) n with
              | Ret tt t' _ => Some (ext w (set_box (set_th C t (At d o LEnter)) d (MkSh t' (fresh t'))) t (WExcl [d] []))
              | _ => None end
              else None
          | None => None end
      | _ => None end
  | WMRet t =>
      match nth_error (th C) t with
      | Some (At d o (LRet r)) => Some (ext w (set_th C t Idle) t (WRet d r))
      | Some (RetW r) => Some (ext w (set_th C t Idle) t (WEnd r))
      | _ => None end
  | WMBegin t o =>
      match nth_error (th C) t with
      | Some Idle => Some (ext w (set_th C t (AtW o)) t (WBegin o))
      | _ => None end
  | WMNew t n =>
      match nth_error (th C) t, boxes C with
      | Some (AtW (New h p al m as o)), [] => let w0 := idle_world C o in
          if wpreb o w0 then
            match wexec c o w0 n with
            | Ret v w1 _ => let bs := back C w0 w1 in
                Some (ext w (Conf bs (FoaModel.set_nth (th C) t (RetW (Done v)))) t (WExcl [] (seq 0 (length bs))))
            | _ => None end
          else None
      | _, _ => None end
  | WMSend t m =>
      match nth_error (th C) t with
      | Some Idle => if existsb (fun ev => match snd ev with WSend m' => Nat.eqb m' m | _ => false end) (w_log w) then None else Some (ext w C t (WSend m))
      | _ => None end
  | WMRecv t m => match nth_error (th C) t with Some Idle => Some (ext w C t (WRecv m)) | _ => None end
  end.
Lemma do_wmove_ok m w w' : length (w_past w) = length (w_log w) -> do_wmove m w = Some w' -> wstep w w'.
Proof.
  intros L. destruct m as [t d o|t i x so|t n|t|t o|t n|t m|t m]; cbn [do_wmove].
  - destruct (nth_error (th (w_now w)) t) as [[| | |]|] eqn:E; try discriminate. destruct (box (w_now w) d) eqn:B; [|discriminate].
    destruct (made_knownb w t d) eqn:M; [|discriminate]. intros [= <-]. eapply w_call; [exact E|exact B|apply made_known_ok, M].
  - destruct (nth_error (th (w_now w)) t) as [[|d o l| |]|] eqn:E; try discriminate. destruct (box (w_now w) d) as [s|] eqn:B; [|discriminate].
    destruct (view_of w t d so) as [sv|] eqn:Vw; [|discriminate]. destruct (lstep c (free_for (w_now w) t d) sv o l i x) as [| |ef l' a] eqn:Ls; try discriminate.
    destruct (apply ef s) as [s'|] eqn:A; [|discriminate]. intros [= <-]. destruct (view_sees _ _ _ _ _ L Vw) as (Se & s0 & B0 & Z1 & Z2 & Z3). rewrite B in B0. injection B0 as <-.
    eapply w_local; try eassumption; [intros; exact Z3|]. intros h xx u m0 -> ->. exists s. split; [apply readable_now; assumption|]. rewrite Z3. reflexivity.
  - destruct (nth_error (th (w_now w)) t) as [[|d o l| |]|] eqn:E; try discriminate. destruct l; try discriminate. destruct (box (w_now w) d) as [s|] eqn:B; [|discriminate].
    destruct (alone (w_now w) t d) eqn:A; [|discriminate]. destruct (rehash_if_full c (tb s) n) as [[] t' n'|k t' n'|] eqn:R; try discriminate. intros [= <-].
    eapply w_full; try eassumption. apply fresh_len.
  - destruct (nth_error (th (w_now w)) t) as [[|d o l| |r]|] eqn:E; try discriminate.
    + destruct l; try discriminate. intros [= <-]. eapply w_ret; eassumption.
    + intros [= <-]. eapply w_end; eassumption.
  - destruct (nth_error (th (w_now w)) t) as [[| | |]|] eqn:E; try discriminate. intros [= <-]. eapply w_begin; eassumption.
  - destruct (nth_error (th (w_now w)) t) as [[| |o|]|] eqn:E; try discriminate. destruct o; try discriminate. destruct (boxes (w_now w)) eqn:Bx; [|discriminate].
    set (o := New h p al n0) in *. destruct (wpreb o (idle_world (w_now w) o)) eqn:P; [|discriminate].
    destruct (wexec c o (idle_world (w_now w) o) n) as [v w1 n'|k w1 n'|] eqn:X; try discriminate. intros [= <-].
    pose proof (w_whole c st w t o n (Done v) w1 (back (w_now w) (idle_world (w_now w) o) w1)) as H. rewrite Bx in H. cbn [length] in H. rewrite Nat.sub_0_r in H. apply H; clear H.
    + exact E.
    + apply wpreb_ok, P.
    + rewrite X. split; reflexivity.
    + apply back_ok.
    + intros d Hd. lia.
    + intros d [].
    + discriminate.
  - destruct (nth_error (th (w_now w)) t) as [[| | |]|] eqn:E; try discriminate. destruct (existsb _ _) eqn:X; [discriminate|]. intros [= <-]. apply w_send; [exact E|].
    intros i u Hi. apply (not_true_iff_false _) in X. apply X. apply existsb_exists. exists (u, WSend m). split; [eapply nth_error_In; exact Hi|apply Nat.eqb_refl].
  - destruct (nth_error (th (w_now w)) t) as [[| | |]|] eqn:E; try discriminate. intros [= <-]. apply w_recv; exact E.
Qed.
Fixpoint wplay (ms : list wmove) w : option W :=
  match ms with
  | [] => Some w
  | m :: r => match do_wmove m w with Some w1 => if fitb (w_now w1) then wplay r w1 else None | None => None end
  end.
Lemma run_lens (P : conf -> Prop) n w : wruns P n w -> length (w_past w) = length (w_log w).
Proof. intros R. induction R as [|w w' R IH S _]; [reflexivity|]. destruct S; cbn [ext w_past w_log]; rewrite !app_length, IH; reflexivity. Qed.
Lemma wplayed n : forall ms w w', wruns counters_fit n w -> wplay ms w = Some w' -> wruns counters_fit n w'.
Proof.
  induction ms as [|m ms IH]; intros w w' R H; cbn [wplay] in H; [injection H as <-; exact R|].
  destruct (do_wmove m w) as [w1|] eqn:E; [|discriminate]. destruct (fitb (w_now w1)) eqn:F; [|discriminate]. apply (IH w1); [|exact H].
  eapply wr_snoc; [exact R|apply (do_wmove_ok m); [apply (run_lens _ _ _ R)|exact E]|apply fitb_ok, F].
Qed.
Definition wstart (n : nat) : W := MkW (start n) [] [].

(** thread t runs until [stop] holds or it has no local step left; slots are read in increasing order; so: the reads of the group follow it *)
Definition next_wmove (t : nat) (so : option (nat * nat)) (C : conf) : option wmove :=
  match nth_error (th C) t with
  | Some (At d o l) =>
      match l with
      | LScan _ (i :: _) _ => Some (WMLocal t i false so)
      | LOvf _ => Some (WMLocal t 0 false so)
      | LFull => Some (WMFull t 0)
      | LRet _ => None
      | _ => Some (WMLocal t 0 false None)
      end
  | _ => None
  end.
Fixpoint alone_wmoves (fuel : nat) (stop : @loc N N -> bool) (t : nat) (so : option (nat * nat)) w : list wmove * W :=
  match fuel with
  | O => ([], w)
  | S f =>
      match nth_error (th (w_now w)) t with
      | Some (At _ _ l) => if stop l then ([], w) else
          match next_wmove t so (w_now w) with
          | Some m => match do_wmove m w with Some w1 => let '(ms, w2) := alone_wmoves f stop t so w1 in (m :: ms, w2) | None => ([], w) end
          | None => ([], w)
          end
      | _ => ([], w)
      end
  end.
(** a schedule in progress: the moves made so far (last first) and the state *)
Definition wthen (m : wmove) (x : list wmove * W) : list wmove * W := match do_wmove m (snd x) with Some w1 => (m :: fst x, w1) | None => x end.
Definition wuntil (t : nat) (so : option (nat * nat)) (stop : @loc N N -> bool) (x : list wmove * W) : list wmove * W :=
  let '(ms, w1) := alone_wmoves 200 stop t so (snd x) in (rev ms ++ fst x, w1).
End WExec.
