(** Every operation of the closed-addressing containers meets its specification in every well-formed state. *)
From Coq Require Import NArith ZArith Bool List Arith Lia Permutation.
From Verif Require Import FloatModel HashArithModel HashArithProofs FoaModel FoaGroup FoaBase FcaLinks FcaLinksProofs FcaModel FcaInv FcaIter FcaTab FcaRehash FcaOps FcaIns FcaIns2 FcaHandle FcaErase FcaErase2 FcaCopy FcaMove FcaMerge FcaQuery FcaEq FcaSpec FcaWorld FcaApi FcaRun.
Import ListNotations.
Local Open Scope m_scope.
Local Open Scope nat_scope.

Section Run2.
Context {K V : Type} (c : FCfg K V).
Notation node := (node K V).
Notation table := (FcaModel.table K V).
Notation cb := (base c).
Notation St := (table * heap)%type.
Notation St2 := ((table * table) * heap)%type.
Notation TInv := (TInv c). Notation raised := (raised c).
Notation SI := (SI c). Notation WI := (WI c). Notation Good := (Good c). Notation slot_ok := (slot_ok c).
Notation mworld := (@mworld K V).
Notation el := (@el K V).
Notation spec := (FcaSpec.spec (V:=V) (keqf cb) (multi c) (leftover c) (pocca cb) (pocma cb)).
Implicit Types (t x : table) (y z : node) (w : mworld).

Definition OK w o (r : R mworld (value K V)) : Prop := outcome r (fun v w' => Good w o (Done v) w') (fun kd w' => raised kd /\ Good w o (Threw kd) w').

Lemma set_hand_eq {A} k o (f : unit -> M mworld A) w n : bind (set_hand k o) f w n = f tt (MW (tabs w) (FcaSpec.set (hands w) k o) (hp w)) n. Proof. reflexivity. Qed.
Lemma push_eq {A} t (f : unit -> M mworld A) w n : bind (push t) f w n = f tt (MW (tabs w ++ [Some t]) (hands w) (hp w)) n. Proof. reflexivity. Qed.
Lemma push_hand_eq {A} o (f : unit -> M mworld A) w n : bind (push_hand o) f w n = f tt (MW (tabs w) (hands w ++ [o]) (hp w)) n. Proof. reflexivity. Qed.
Lemma get_eq {A} (f : mworld -> M mworld A) w n : bind get f w n = f w w n. Proof. reflexivity. Qed.

Lemma hand_parts w k o : nth_error (hands w) k = Some o -> exists h1 h2 rest, hands w = h1 ++ o :: h2 /\ (forall o', FcaSpec.set (hands w) k o' = h1 ++ o' :: h2) /\ Permutation (all w) (hnd o ++ rest) /\
  (forall (T : list (option table)) o' h, flat_map cont T = flat_map cont (tabs w) -> Permutation (all (MW T (FcaSpec.set (hands w) k o') h)) (hnd o' ++ rest)) /\
  rest = flat_map cont (tabs w) ++ flat_map hnd h1 ++ flat_map hnd h2.
Proof.
  intros H. destruct (set_split _ _ _ H) as (h1 & h2 & E & _ & Se). exists h1, h2, (flat_map cont (tabs w) ++ flat_map hnd h1 ++ flat_map hnd h2). split; [exact E|]. split; [exact Se|].
  assert (forall o' : option node, Permutation (flat_map cont (tabs w) ++ flat_map hnd (h1 ++ o' :: h2)) (hnd o' ++ flat_map cont (tabs w) ++ flat_map hnd h1 ++ flat_map hnd h2)) as P.
  { intros o'. rewrite flat_map_app. cbn [flat_map]. rewrite !app_assoc. apply Permutation_app_tail. rewrite <- (app_assoc (hnd o')). apply Permutation_app_comm. }
  split; [unfold all; rewrite E; apply P|]. split; [|reflexivity]. intros T o' h ET. unfold all. cbn [tabs hands]. rewrite ET, Se. apply P.
Qed.

Lemma on_ok w i o n : WI w -> pre c (On i o) w -> OK w (On i o) (exec c (On i o) w n).
Proof.
  intros H (t & Hs & P1). cbn [exec]. rewrite run1_eq. destruct (parts1 c w i t H Hs) as (rest & w1 & w2 & E & L & P & S & Q & _).
  eapply run1_ok; [exact Hs|apply (exec1_ok c (length rest) (t, hp w) (contents t) o n S P1)| |].
  - cbv beta. intros kd s' [R X]. split; [exact R|]. eapply p1_good; eassumption.
  - cbv beta. intros v s' n' X. cbn [ret outcome]. eapply p1_good; eassumption.
Qed.
Lemma new_ok w h p al m n : WI w -> pre c (New h p al m) w -> OK w (New h p al m) (exec c (New h p al m) w n).
Proof.
  intros H A. cbn [exec pre] in *. eapply run0_ok; [apply (new_table_ok c (hp w) h p al m n A)| |].
  - cbv beta. intros kd h' (-> & R & L & N). split; [exact R|]. split; [apply WI_heap; assumption|]. split; [|auto]. cbn [FcaSpec.spec]. split; reflexivity.
  - cbv beta. intros t h' n' [X _]. rewrite push_eq. cbn [ret outcome tabs hands hp]. destruct (new_good c w t h' _ _ _ _ _ H X) as (W & M & l & Pl & El). split; [exact W|]. split; [|auto].
    cbn [FcaSpec.spec]. rewrite look_push, El. apply Permutation_sym, Permutation_nil in Pl. destruct l; [reflexivity|discriminate].
Qed.
Lemma copyc_ok w j al n : WI w -> pre c (CopyConstruct j al) w -> OK w (CopyConstruct j al) (exec c (CopyConstruct j al) w n).
Proof.
  intros H (x & Hs). cbn [exec]. rewrite get_eq, Hs. cbn [of_option]. rewrite bind_ret. pose proof (inv_in c w j x H Hs) as T.
  eapply run0_ok; [apply (copy_construct_ok c (hp w) x (contents x) al n T)| |].
  - cbv beta. intros kd h' (R & L & N). split; [exact R|]. split; [apply WI_heap; assumption|]. split; [|auto]. cbn [FcaSpec.spec]. exists (look x). split; [apply look_at; exact Hs|reflexivity].
  - cbv beta. intros t h' n' X. rewrite push_eq. cbn [ret outcome tabs hands hp]. destruct (new_good c w t h' _ _ _ _ _ H X) as (W & M & l & Pl & El). split; [exact W|]. split; [|auto].
    cbn [FcaSpec.spec]. exists (look x). split; [apply look_at; exact Hs|]. exists l. split; [|rewrite look_push, El; reflexivity]. unfold same_values, look. cbn [v_elems]. rewrite kv_el. exact Pl.
Qed.

(** one container changes, another one is added *)
Lemma WI_put_push w i x (rest : list node) h' x' t' l' l (w1 w2 : list (option table)) : WI w -> slot w i = Some x -> tabs w = w1 ++ Some x :: w2 -> Permutation (all w) (contents x ++ rest) ->
  (forall o h, tabs (put_tab w i o h) = w1 ++ o :: w2 /\ Permutation (all (put_tab w i o h)) (cont o ++ rest)) ->
  TInv x' l' -> TInv t' l -> live h' = length l' + length l + length rest -> NoDup (map nd_id (l' ++ l)) -> Forall (fun y => nd_id y < next h') (l' ++ l) ->
  Forall (fun y => In (nd_id y) (map nd_id (contents x)) \/ next (hp w) <= nd_id y) (l' ++ l) -> next (hp w) <= next h' ->
  WI (MW (FcaSpec.set (tabs w) i (Some x') ++ [Some t']) (hands w) h').
Proof.
  intros H Hs E P Q T' T Lv N F I L. apply (WI_step c w _ (contents x) (l' ++ l) rest); auto.
  - destruct (Q (Some x') h') as [Et Pa]. cbn [put_tab tabs] in Et. unfold all in *. cbn [put_tab tabs hands cont] in *. rewrite flat_map_app. cbn [flat_map cont]. rewrite app_nil_r, (contents_eq c t' l T).
    rewrite (contents_eq c x' l' T') in Pa. rewrite <- app_assoc. rewrite (Permutation_app_comm l), app_assoc, Pa. rewrite <- !app_assoc. apply Permutation_app_head. apply Permutation_app_comm.
  - cbn [hp]. rewrite app_length. lia.
  - cbn [tabs]. apply Forall_app. split; [|constructor; [eapply slot_ok_inv; exact T|constructor]]. destruct (Q (Some x') h') as [Et _]. cbn [put_tab tabs] in Et. rewrite Et.
    apply (slot_mid c w1 (Some x)); [rewrite <- E; apply (wi_t _ _ H)|eapply slot_ok_inv; exact T'].
Qed.
Lemma ml_put_push w i x x' t' h' (w1 w2 : list (option table)) : MLW w -> tabs w = w1 ++ Some x :: w2 -> FcaSpec.set (tabs w) i (Some x') = w1 ++ Some x' :: w2 -> MLok x' -> MLok t' -> MLW (MW (FcaSpec.set (tabs w) i (Some x') ++ [Some t']) (hands w) h').
Proof.
  intros M E E' M1 M2. unfold MLW. cbn [tabs]. apply Forall_app. split; [|repeat constructor; exact M2]. rewrite E'. apply (ml_mid w1 (Some x)); [rewrite <- E; exact M|exact M1].
Qed.
Lemma look_put_push w i x' t' h h' : look_all (MW (FcaSpec.set (tabs w) i (Some x') ++ [Some t']) (hands w) h) = new (look_all (put_tab w i (Some x') h')) (look t').
Proof. unfold look_all, new, put_tab. cbn [tabs hands containers handles]. rewrite map_app. reflexivity. Qed.

Lemma emptied_look x lx : TInv x lx -> look (emptied x) = with_elems (look x) [].
Proof. intros T. rewrite (look_inv c _ _ (emptied_ok c x lx T)). reflexivity. Qed.
Lemma movec_ok w j n : WI w -> pre c (MoveConstruct j) w -> OK w (MoveConstruct j) (exec c (MoveConstruct j) w n).
Proof.
  intros H (x & Hs). cbn [exec]. destruct (parts1 c w j x H Hs) as (rest & w1 & w2 & E & L & P & S & Q & _). pose proof (inv_in c w j x H Hs) as T.
  eapply (run1_ok j _ _ w x n (fun t s' => t = x /\ s' = (emptied x, hp w)) (fun _ _ => False)); [exact Hs|cbn; auto|intros kd s' []|].
  intros t s' n' [-> ->]. rewrite push_eq. cbn [ret outcome tabs hands hp put_tab fst snd]. split; [|split].
  - eapply WI_put_push; try eassumption; try (apply (emptied_ok c x _ T)); cbn [app length]; auto.
    + apply (si_live _ _ _ _ S).
    + apply (ci_ids _ _ _ (ti_c _ _ _ T)).
    + apply (si_next _ _ _ _ S).
    + apply ids_old. apply incl_refl.
  - cbn [FcaSpec.spec]. exists (look x). split; [apply look_at; exact Hs|]. split; [reflexivity|]. rewrite (look_put_push _ _ _ _ _ (hp w)), look_put, (emptied_look x _ T). reflexivity.
  - intros _ M. eapply ml_put_push; [exact M|exact E|apply (Q _ (hp w))|apply emptied_ml|eapply ml_in; eassumption].
Qed.
Lemma moveca_ok w j al n : WI w -> pre c (MoveConstructAl j al) w -> OK w (MoveConstructAl j al) (exec c (MoveConstructAl j al) w n).
Proof.
  intros H (x & Hs & Hk). cbn [exec]. destruct (parts1 c w j x H Hs) as (rest & w1 & w2 & E & L & P & S & Q & _). pose proof (inv_in c w j x H Hs) as T.
  eapply run1_ok; [exact Hs|apply (move_construct_al_ok c (length rest) x (hp w) (contents x) al n S Hk)| |].
  - cbv beta. intros kd [x' h'] (R & A & B & El & S' & SX & Nx). cbn [fst snd] in *. split; [exact R|]. split; [|split].
    + eapply WI_put1; try eassumption. apply Forall_forall. intros y Hy. left. rewrite El. apply in_app_or in Hy as [Hy|Hy]; rewrite map_app; apply in_or_app; [left|right; apply in_map; exact Hy].
      rewrite <- (map_left c). apply in_map. exact Hy.
    + cbn [FcaSpec.spec]. exists (look x). split; [apply look_at; exact Hs|]. exists (map el A), (map el B). split; [unfold look; cbn [v_elems]; rewrite El, map_app; reflexivity|].
      rewrite look_put. f_equal. pose proof (si_t _ _ _ _ S') as T'. cbn [fst] in T'. rewrite (look_inv c x' _ T'), map_app, el_left. destruct SX as ((A1 & A2 & A3 & _) & _). unfold with_elems, look. cbn [v_hash v_pred v_alloc]. congruence.
    + intros _ M. unfold MLW. rewrite (proj1 (Q _ _)). apply (ml_mid w1 (Some x)); [rewrite <- E; exact M|]. apply (SameX_ml _ _ SX). eapply ml_in; eassumption.
  - cbv beta. intros t [x' h'] n' (l & lx' & S1 & S2 & Pk & A1 & A2 & A3 & A4 & A5 & (B1 & B2 & B3 & B4) & A6 & A7 & A8 & A9). rewrite push_eq. cbn [ret outcome tabs hands hp put_tab fst snd] in *.
    pose proof (si_t _ _ _ _ S1) as T1. pose proof (si_t _ _ _ _ S2) as T2. pose proof (si_live _ _ _ _ S1) as Lv. cbn [fst snd] in *.
    assert (NoDup (map nd_id (lx' ++ l)) /\ Forall (fun y => In (nd_id y) (map nd_id (contents x)) \/ next (hp w) <= nd_id y) (lx' ++ l)) as [ND FI].
    { destruct (N.eq_dec al (f_al x)) as [Ea|Ea].
      - destruct (A8 Ea) as (-> & -> & _). cbn [app]. split; [apply (ci_ids _ _ _ (ti_c _ _ _ T))|apply ids_old, incl_refl].
      - destruct (A9 Ea) as (-> & Fl). split.
        + rewrite (Permutation_map nd_id (Permutation_app_comm _ _)). apply (nodup_old_new (next (hp w))); [apply (ci_ids _ _ _ (ti_c _ _ _ T2))|apply (ci_ids _ _ _ (ti_c _ _ _ T1))|exact Fl|].
          apply Forall_forall. intros y Hy. apply in_map_iff in Hy as (z & <- & Hz). cbn [left_of nd_id]. pose proof (si_next _ _ _ _ S) as F. cbn [snd] in F. rewrite Forall_forall in F. apply F. exact Hz.
        + apply Forall_app. split; [|eapply Forall_impl; [|exact Fl]; cbv beta; auto]. apply Forall_forall. intros y Hy. left. rewrite <- (map_left c). apply in_map. exact Hy. }
    split; [|split].
    + eapply WI_put_push; try eassumption; [lia|]. apply Forall_app. split; [apply (si_next _ _ _ _ S1)|apply (si_next _ _ _ _ S2)].
    + cbn [FcaSpec.spec]. exists (look x). split; [apply look_at; exact Hs|]. rewrite (look_put_push _ _ _ _ _ h'), look_put. destruct (N.eq_dec al (f_al x)) as [Ea|Ea]; [left|right]; (split; [exact Ea|]).
      * destruct (A8 Ea) as (-> & -> & ->). rewrite (look_inv c x' _ T1). unfold with_elems, look. cbn [v_hash v_pred v_alloc map]. congruence.
      * destruct (A9 Ea) as (-> & _). exists (map el l). unfold same_values. unfold look at 1. cbn [v_elems]. rewrite !kv_el. split; [exact Pk|].
        rewrite (look_inv c x' _ T1), (look_inv c t _ T2), el_left. unfold with_elems, look. cbn [v_hash v_pred v_alloc v_elems]. congruence.
    + intros _ M. eapply ml_put_push; [exact M|exact E|apply (Q _ (hp w))|apply A6; eapply ml_in; eassumption|apply A5; eapply ml_in; eassumption].
Qed.
Lemma destroy_good w i n : WI w -> pre c (Destroy i) w -> OK w (Destroy i) (exec c (Destroy i) w n).
Proof.
  intros H (x & Hs). cbn [exec]. destruct (parts1 c w i x H Hs) as (rest & w1 & w2 & E & L & P & S & Q & _). pose proof (inv_in c w i x H Hs) as T.
  eapply (run1_ok i _ _ w x n _ (fun _ _ => False)); [exact Hs|apply (destroy_ok c (length rest) _ _ n _ S)|intros kd s' []|].
  cbv beta. intros u s' n' ->. unfold bind at 1. unfold modify. cbn [ret outcome]. cbn [put_tab tabs hands hp fst snd no_buckets].
  assert (put_tab (put_tab w i (Some (fst (no_buckets (x, hp w) (contents x)))) (snd (no_buckets (x, hp w) (contents x)))) i None (snd (no_buckets (x, hp w) (contents x))) = put_tab w i None (snd (no_buckets (x, hp w) (contents x)))) as EP.
  { unfold put_tab. cbn [tabs hands]. f_equal. destruct (set_split _ _ _ (slot_err w i x Hs)) as (v1 & v2 & Ev & Lv & Sv). rewrite !Sv. unfold FcaSpec.set. rewrite <- Lv, firstn_app, firstn_all, Nat.sub_diag. cbn [firstn]. rewrite app_nil_r. f_equal. f_equal.
    replace (v1 ++ Some (fst (no_buckets (x, hp w) (contents x))) :: v2) with ((v1 ++ [Some (fst (no_buckets (x, hp w) (contents x)))]) ++ v2) by (rewrite <- app_assoc; reflexivity).
    replace (Datatypes.S (length v1)) with (length (v1 ++ [Some (fst (no_buckets (x, hp w) (contents x)))])) by (rewrite app_length; cbn; lia). apply skipn_app_len. }
  match goal with |- Good _ _ _ ?q => assert (q = put_tab w i None (snd (no_buckets (x, hp w) (contents x)))) as -> by (rewrite <- EP; reflexivity) end.
  destruct (Q None (snd (no_buckets (x, hp w) (contents x)))) as [Et Pa]. pose proof (si_live _ _ _ _ S) as Lv. cbn [snd] in Lv. split; [|split].
  - apply (WI_step c w _ (contents x) [] rest); auto; try constructor.
    + cbn [put_tab hp no_buckets snd live length]. lia.
    + rewrite Et. apply (slot_mid c w1 (Some x)); [rewrite <- E; apply (wi_t _ _ H)|exact I].
  - cbn [FcaSpec.spec]. exists (look x). split; [apply look_at; exact Hs|]. split; [reflexivity|]. unfold look_all, put_tab. cbn [tabs hands containers handles]. rewrite set_map. reflexivity.
  - intros _ M. unfold MLW in *. rewrite Et. rewrite E in M. apply Forall_app in M as [Ma Mb]. inversion Mb; subst. apply Forall_app. split; [exact Ma|constructor; [exact I|assumption]].
Qed.
End Run2.
