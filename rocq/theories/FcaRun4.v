(** Node handles of the closed-addressing containers, and the history theorem: every program whose operations meet their preconditions behaves as specified. *)
From Coq Require Import NArith ZArith Bool List Arith Lia Permutation.
From Verif Require Import FloatModel HashArithModel HashArithProofs FoaModel FoaGroup FoaBase FcaLinks FcaLinksProofs FcaModel FcaInv FcaIter FcaTab FcaRehash FcaOps FcaIns FcaIns2 FcaHandle FcaErase FcaErase2 FcaCopy FcaMove FcaMerge FcaQuery FcaEq FcaSpec FcaWorld FcaApi FcaRun FcaRun2 FcaRun3.
Import ListNotations.
Local Open Scope m_scope.
Local Open Scope nat_scope.

Section Run4.
Context {K V : Type} (c : FCfg K V).
Notation node := (node K V).
Notation table := (FcaModel.table K V).
Notation cb := (base c).
Notation St := (table * heap)%type.
Notation St2 := ((table * table) * heap)%type.
Notation TInv := (TInv c). Notation raised := (raised c).
Notation SI := (SI c). Notation WI := (WI c). Notation Good := (Good c). Notation slot_ok := (slot_ok c). Notation OK := (OK c).
Notation mworld := (@mworld K V).
Notation el := (@el K V).
Notation spec := (FcaSpec.spec (V:=V) (keqf cb) (multi c) (leftover c) (pocca cb) (pocma cb)).
Implicit Types (t x : table) (y z : node) (w : mworld).

Lemma WI_same w w' : WI w -> Permutation (all w) (all w') -> hp w' = hp w -> Forall slot_ok (tabs w') -> WI w'.
Proof.
  intros H P E F. constructor; [exact F| | |].
  - rewrite <- (Permutation_map nd_id P). apply (wi_ids _ _ H).
  - rewrite E, <- P. apply (wi_next _ _ H).
  - rewrite E, <- (Permutation_length P). apply (wi_live _ _ H).
Qed.
(** a node leaves container i for a new handle *)
Lemma extract_good w i t x' l1 y l2 (w1 w2 : list (option table)) rest : WI w -> slot w i = Some t -> contents t = l1 ++ y :: l2 -> tabs w = w1 ++ Some t :: w2 -> Permutation (all w) (contents t ++ rest) ->
  (forall o h, tabs (put_tab w i o h) = w1 ++ o :: w2 /\ Permutation (all (put_tab w i o h)) (cont o ++ rest)) -> TInv x' (l1 ++ l2) -> SameT t x' -> (MLok t -> MLok x') ->
  WI (MW (FcaSpec.set (tabs w) i (Some x')) (hands w ++ [Some y]) (hp w)) /\ (MLW w -> MLW (MW (FcaSpec.set (tabs w) i (Some x')) (hands w ++ [Some y]) (hp w))) /\
  look_all (MW (FcaSpec.set (tabs w) i (Some x')) (hands w ++ [Some y]) (hp w)) = World (FcaSpec.set (containers (look_all w)) i (Some (with_elems (look t) (map el l1 ++ map el l2)))) (handles (look_all w) ++ [Some (f_al t, el y)]).
Proof.
  intros H Hs El E P Q T' (S1 & S2 & S3 & S4) Ml. destruct (Q (Some x') (hp w)) as [Et Pa]. cbn [put_tab tabs] in Et.
  pose proof (inv_in c w i t H Hs) as T. split; [|split].
  - apply (WI_same w); [exact H| |reflexivity|].
    + unfold all in *. cbn [put_tab tabs hands] in *. rewrite flat_map_app. cbn [flat_map hnd]. rewrite app_nil_r, app_assoc. rewrite Pa, P, El. cbn [cont]. rewrite (contents_eq c x' _ T'). rewrite <- (app_assoc l1). cbn [app]. etransitivity; [symmetry; apply Permutation_middle|]. rewrite (app_assoc l1 l2 rest). apply Permutation_cons_append.
    + cbn [tabs]. rewrite Et. apply (slot_mid c w1 (Some t)); [rewrite <- E; apply (wi_t _ _ H)|eapply slot_ok_inv; exact T'].
  - intros M. unfold MLW. cbn [tabs]. rewrite Et. apply (ml_mid w1 (Some t)); [rewrite <- E; exact M|]. apply Ml. eapply ml_in; eassumption.
  - unfold look_all. cbn [tabs hands containers handles]. rewrite set_map, map_app. cbn [option_map map]. rewrite (same_view c t x' _ T') by assumption. rewrite map_app.
    pose proof (ci_al _ _ _ (ti_c _ _ _ T)) as Al. rewrite Forall_forall in Al. rewrite (Al y) by (rewrite El; apply in_elt). reflexivity.
Qed.
Lemma extractk_ok w i k n : WI w -> pre c (ExtractKey i k) w -> OK w (ExtractKey i k) (exec c (ExtractKey i k) w n).
Proof.
  intros H (t & Hs). cbn [exec]. destruct (parts1 c w i t H Hs) as (rest & w1 & w2 & E & L & P & S & Q & _). pose proof (inv_in c w i t H Hs) as T.
  eapply run1_ok; [exact Hs|apply (extract_key_ok c (length rest) (t, hp w) (contents t) k n S)| |].
  - cbv beta. intros kd s' (-> & Hk & R). cbn [fst snd]. rewrite (put_tab_slot w i t (hp w) Hs eq_refl). split; [exact R|]. split; [exact H|]. split; [|auto]. cbn [FcaSpec.spec]. exists (look t). split; [apply look_at; exact Hs|]. auto.
  - cbv beta. intros o [x' h'] n' X. cbn [fst] in X. rewrite push_hand_eq. cbn [ret outcome tabs hands hp put_tab fst snd].
    destruct (FcaTab.lookup c (f_pid t) k (contents t)) as [y|] eqn:Lk.
    + destruct X as (-> & l1 & l2 & El & S' & (B1 & B2 & B3 & B4) & Eh & _). cbn [fst snd] in *. subst h'.
      pose proof (si_t _ _ _ _ S') as T'. cbn [fst] in T'.
      destruct (extract_good w i t x' l1 y l2 w1 w2 rest H Hs El E P Q T' B4) as (W & M & Lo).
      { intros Mt. unfold MLok in *. destruct B4 as (_ & _ & _ & B4). rewrite B2, B4, B1. exact Mt. }
      split; [exact W|]. split; [|auto]. cbn [FcaSpec.spec]. exists (look t). split; [apply look_at; exact Hs|]. unfold look at 1. cbn [v_pred v_elems]. unfold look at 1. cbn [v_elems]. rewrite lookup_el, Lk. cbn [option_map]. split; [reflexivity|].
      exists (map el l1), (map el l2). split; [unfold look; cbn [v_elems]; rewrite El, map_app; reflexivity|exact Lo].
    + destruct X as (-> & X). assert (x' = t /\ h' = hp w) as [-> ->] by (split; congruence). rewrite set_same by (apply slot_err; exact Hs). split; [|split].
      * apply (WI_same w); [exact H| |reflexivity|apply (wi_t _ _ H)]. unfold all. cbn [tabs hands]. rewrite flat_map_app. cbn [flat_map hnd]. rewrite !app_nil_r. reflexivity.
      * cbn [FcaSpec.spec]. exists (look t). split; [apply look_at; exact Hs|]. unfold look at 1. cbn [v_pred v_elems]. unfold look at 1. cbn [v_elems]. rewrite lookup_el, Lk. cbn [option_map]. split; [reflexivity|].
        unfold look_all. cbn [tabs hands containers handles]. rewrite map_app. reflexivity.
      * auto.
Qed.
Lemma extractn_ok w i m n : WI w -> pre c (ExtractNth i m) w -> OK w (ExtractNth i m) (exec c (ExtractNth i m) w n).
Proof.
  intros H (t & Hs & Lm). cbn [exec]. destruct (parts1 c w i t H Hs) as (rest & w1 & w2 & E & L & P & S & Q & _). pose proof (inv_in c w i t H Hs) as T.
  rewrite (ti_size _ _ _ T) in Lm. assert (m < length (contents t)) as Lm' by lia. destruct (nth_error (contents t) m) as [y|] eqn:Ey; [|apply nth_error_None in Ey; lia].
  destruct (nth_error_split _ _ Ey) as (l1 & l2 & El & Ll).
  eapply (run1_ok i _ _ w t n (fun y' s' => y' = y /\ SI (Datatypes.S (length rest)) s' (l1 ++ l2) /\ SameB (t, hp w) s' /\ snd s' = hp w) (fun _ _ => False)); [exact Hs| |intros kd s' []|].
  - match goal with |- outcome (bind _ ?f _ n) _ _ => destruct (it_at_ok c (length rest) (t, hp w) (contents t) m f n S ltac:(lia)) as (it & Ph & ->) end.
    rewrite El in S. eapply outcome_weaken; [apply (extract_at_ok c (length rest) (t, hp w) l1 y l2 it n (fun _ _ => False) S)| |auto].
    + apply (pos_node _ _ _ _ _ Ph Ey).
    + cbv beta. intros y' s' (-> & A & B & C & _). auto.
  - intros y' [x' h'] n' (-> & S' & (B1 & B2 & B3 & B4) & Eh). cbn [fst snd] in *. subst h'. rewrite push_hand_eq. cbn [ret outcome tabs hands hp put_tab fst snd].
    pose proof (si_t _ _ _ _ S') as T'. cbn [fst] in T'.
    destruct (extract_good w i t x' l1 y l2 w1 w2 rest H Hs El E P Q T' B4) as (W & M & Lo).
    { intros Mt. unfold MLok in *. destruct B4 as (_ & _ & _ & B4). rewrite B2, B4, B1. exact Mt. }
    split; [exact W|]. split; [|auto]. cbn [FcaSpec.spec]. exists (look t), (el y), (map el l1), (map el l2). split; [apply look_at; exact Hs|]. split; [reflexivity|]. rewrite map_length. split; [exact Ll|].
    split; [unfold look; cbn [v_elems]; rewrite El, map_app; reflexivity|exact Lo].
Qed.
Lemma look_hand w k o : nth_error (hands w) k = Some o -> nth_error (handles (look_all w)) k = Some (option_map (fun y => (nd_al y, el y)) o).
Proof. intros H. unfold look_all. cbn [handles]. rewrite nth_error_map, H. reflexivity. Qed.
Lemma sethand_ok w k e n : WI w -> pre c (SetHandle k e) w -> OK w (SetHandle k e) (exec c (SetHandle k e) w n).
Proof.
  intros H (y & Hk). cbn [exec]. rewrite get_eq, Hk, set_hand_eq. cbn [ret outcome]. destruct (hand_parts w k _ Hk) as (h1 & h2 & rest & E & Se & P & Pa & _). split; [|split].
  - apply (WI_step c w _ [y] [Nd (nd_id y) (nd_al y) e] rest); auto.
    + apply (Pa (tabs w) (Some (Nd (nd_id y) (nd_al y) e)) (hp w) eq_refl).
    + repeat constructor. intros [].
    + constructor; [left; now left|constructor].
    + constructor; [|constructor]. cbn [nd_id hp]. pose proof (wi_next _ _ H) as F. rewrite P in F. cbn [hnd app] in F. inversion F. assumption.
    + cbn [hp]. rewrite (wi_live _ _ H), (Permutation_length P), app_length. reflexivity.
    + apply (wi_t _ _ H).
  - cbn [FcaSpec.spec]. exists (nd_al y), (el y). split; [apply look_hand with (o := Some y); exact Hk|]. split; [reflexivity|]. unfold look_all. cbn [tabs hands containers handles]. rewrite set_map. reflexivity.
  - auto.
Qed.
Lemma drop_ok w k n : WI w -> pre c (DropHandle k) w -> OK w (DropHandle k) (exec c (DropHandle k) w n).
Proof.
  intros H (o & Hk). cbn [exec]. rewrite get_eq, Hk. pose proof (look_hand w k _ Hk) as Lh. destruct o as [y|].
  - destruct (hand_parts w k _ Hk) as (h1 & h2 & rest & E & Se & P & Pa & _). pose proof (wi_live _ _ H) as Lv. rewrite (Permutation_length P) in Lv. cbn [hnd app length] in Lv.
    destruct (Nat.ltb_spec 0 (live (hp w))) as [L|L]; [|lia]. unfold modify, bind. cbn [ret outcome]. split; [|split].
    + apply (WI_step c w _ [y] [] rest); auto; try constructor.
      * apply (Pa (tabs w) None _ eq_refl).
      * cbn [hp live]. cbn [length]. lia.
      * apply (wi_t _ _ H).
    + cbn [FcaSpec.spec]. exists (Some (nd_al y, el y)). split; [exact Lh|]. split; [reflexivity|]. unfold look_all. cbn [tabs hands containers handles]. rewrite set_map. reflexivity.
    + auto.
  - cbn [ret outcome]. split; [exact H|]. split; [|auto]. cbn [FcaSpec.spec]. exists None. split; [exact Lh|]. split; [reflexivity|]. rewrite set_same by exact Lh. reflexivity.
Qed.

(** insertion of a handle *)
Lemma in_hand w i t k y : WI w -> slot w i = Some t -> nth_error (hands w) k = Some (Some y) -> nd_al y = f_al t -> exists rest (w1 w2 : list (option table)), tabs w = w1 ++ Some t :: w2 /\ FcaSpec.set (tabs w) i (Some t) = tabs w /\
  Permutation (all w) (contents t ++ y :: rest) /\ SI (S (length rest)) (t, hp w) (contents t) /\ InHand (t, hp w) (contents t) y /\
  (forall o h, tabs (put_tab w i o h) = w1 ++ o :: w2 /\ Permutation (all (put_tab w i o h)) (cont o ++ y :: rest)) /\
  (forall o h, Permutation (all (MW (FcaSpec.set (tabs w) i o) (FcaSpec.set (hands w) k None) h)) (cont o ++ rest)).
Proof.
  intros H Hs Hk Al. destruct (parts1 c w i t H Hs) as (rest0 & w1 & w2 & E & L & P & S & Q & R). destruct (set_split _ _ _ Hk) as (h1 & h2 & Eh & _ & Sh).
  set (rest := flat_map cont w1 ++ flat_map cont w2 ++ flat_map hnd h1 ++ flat_map hnd h2).
  assert (Permutation rest0 (y :: rest)) as Pr.
  { rewrite R, Eh. unfold rest. rewrite (flat_map_app hnd). cbn [flat_map hnd app]. rewrite !app_assoc. symmetry. apply Permutation_middle. }
  exists rest, w1, w2. split; [exact E|]. split; [apply set_same; apply slot_err; exact Hs|]. rewrite (Permutation_length Pr) in S. cbn [length] in S.
  split; [rewrite P; apply Permutation_app_head; exact Pr|]. split; [exact S|]. split; [|split].
  - pose proof (wi_ids _ _ H) as Nd. rewrite (Permutation_map nd_id P), map_app, (Permutation_map nd_id Pr) in Nd. cbn [map] in Nd. apply NoDup_remove in Nd as [_ Nd].
    split; [exact Al|]. split; [intros C; apply Nd; apply in_or_app; now left|]. pose proof (wi_next _ _ H) as F. rewrite P, Pr in F. apply Forall_app in F as [_ F]. inversion F. assumption.
  - intros o h. destruct (Q o h) as [A B]. split; [exact A|]. rewrite B. apply Permutation_app_head. exact Pr.
  - intros o h. unfold all. cbn [tabs hands]. rewrite Sh. destruct (Q o h) as [A _]. cbn [put_tab tabs] in A. rewrite A, !flat_map_app. cbn [flat_map hnd app]. unfold rest. rewrite <- app_assoc. apply perm_swap_mid.
Qed.
Lemma insh_ok w i k hint n : WI w -> pre c (InsertHandle i k hint) w -> OK w (InsertHandle i k hint) (exec c (InsertHandle i k hint) w n).
Proof.
  intros H (t & o & Hs & Hk & Rm & Al & Hh). cbn [exec]. rewrite get_eq, Hk. pose proof (look_hand w k _ Hk) as Lh. destruct o as [y|].
  2: { cbn [ret outcome]. split; [exact H|]. split; [|auto]. cbn [FcaSpec.spec]. exists (look t). split; [apply look_at; exact Hs|]. rewrite Lh. cbn [option_map]. auto. }
  specialize (Al y eq_refl). destruct (in_hand w i t k y H Hs Hk Al) as (rest & w1 & w2 & E & Ess & P & S & IH & Q & Q2). pose proof (inv_in c w i t H Hs) as T. cbn [option_map] in Lh.
  set (l := contents t) in *. set (r := length rest) in *.
  assert (FcaIns2.room l 1) as Rm'. { unfold FcaWorld.room, FcaIns2.room, max_elems in *. rewrite (ti_size _ _ _ T) in Rm. fold l in Rm. lia. }
  eapply (run1_ok i _ _ w t n (fun a s' => match (if multi c then None else FcaTab.lookup c (f_pid t) (nkey y) l) with
      | Some z => a = (el z, Some y) /\ s' = (t, hp w)
      | None => fst a = el y /\ snd a = None /\ exists l', Permutation l' (y :: l) /\ SI r s' l' /\ Fr (t, hp w) s' /\ forall m, hint = Some m -> near_hint (keqf cb) (multi c) (f_pid t) m (nd_kv y) (map el l) (el y) (map el l') end)
    (WExn c (Datatypes.S r) (t, hp w) l)); [exact Hs| | |].
  - (* the member function *)
    assert (forall m it (a : eit * option node) (s' : St), hint = Some m -> Pos (f_b t) l m it -> multi c = true -> (snd a = None /\ exists ho, HintUsed c (t, hp w) l it y ho /\ InsPost c r (t, hp w) l ho y (fst a) s') ->
      exists l', Permutation l' (y :: l) /\ SI r s' l' /\ Fr (t, hp w) s' /\ NIt (f_b (fst s')) y (fst a) /\ forall m, hint = Some m -> near_hint (keqf cb) (multi c) (f_pid t) m (nd_kv y) (map el l) (el y) (map el l')) as NH.
    { intros m it [a1 a2] s' Em Ph Mu (_ & ho & [Ho Hu] & (l0 & l' & P0 & Ia & S' & F & N & _)). cbn [fst snd] in *. pose proof (insat_perm _ _ _ _ Ia) as Pi. exists l'. split; [rewrite Pi; constructor; symmetry; exact P0|]. do 3 (split; [assumption|]).
      intros m' Em'. assert (m' = m) as -> by congruence. intros _ q Hq Hk'. rewrite nth_error_map in Hq. destruct (nth_error l m) as [z|] eqn:Ez; [|discriminate]. cbn [option_map] in Hq. assert (el z = q) as <- by congruence. rewrite has_el in Hk'.
      destruct Ia as (l1 & l2 & El & El' & Hi). assert (ho = Some (nd_id z)) as Eh. { apply (Hu z); [eapply nth_error_In; exact Ez|apply (pos_node _ _ _ _ _ Ph Ez)|exact Hk']. }
      destruct (Hi _ Eh) as (l00 & z' & -> & Eid).
      assert (z' = z) as ->. { apply (nodup_ids l z' z); [apply (ci_ids _ _ _ (ti_c _ _ _ T))| |eapply nth_error_In; exact Ez|exact Eid]. apply (Permutation_in _ (Permutation_sym P0)). rewrite El. apply in_or_app. left. apply in_or_app. right. now left. }
      exists (map el l00), (map el l2). rewrite El', map_app, map_app. cbn [map]. rewrite <- app_assoc. reflexivity. }
    assert (forall (hi : option eit) s0 n1, s0 = (t, hp w) -> match hi with None => hint = None | Some it => exists m, hint = Some m /\ Pos (f_b t) l m it /\ HIt t l it end ->
      outcome ((p <- insert_handle c hi y ;; y0 <- deref (fst p) ;; ret (y0, snd p)) s0 n1) (fun a s' => match (if multi c then None else FcaTab.lookup c (f_pid t) (nkey y) l) with
      | Some z => a = (el z, Some y) /\ s' = (t, hp w)
      | None => fst a = el y /\ snd a = None /\ exists l', Permutation l' (y :: l) /\ SI r s' l' /\ Fr (t, hp w) s' /\ forall m, hint = Some m -> near_hint (keqf cb) (multi c) (f_pid t) m (nd_kv y) (map el l) (el y) (map el l') end) (WExn c (Datatypes.S r) (t, hp w) l)) as BODY.
    { intros hi s0 n1 -> Hhi. unfold insert_handle. destruct (multi c) eqn:Mu.
      - (* multi *)
        assert (outcome (match hi with None => insert_handle_equiv c y | Some h => insert_handle_hint_equiv c h y end (t, hp w) n1)
          (fun a s' => snd a = None /\ exists l', Permutation l' (y :: l) /\ SI r s' l' /\ Fr (t, hp w) s' /\ NIt (f_b (fst s')) y (fst a) /\ forall m, hint = Some m -> near_hint (keqf cb) true (f_pid t) m (nd_kv y) (map el l) (el y) (map el l'))
          (WExn c (Datatypes.S r) (t, hp w) l)) as B.
        { destruct hi as [it|].
          - destruct Hhi as (m & Em & Ph & HI). eapply outcome_weaken; [apply (insert_handle_hint_equiv_ok c r (t, hp w) l it y n1 S IH Mu HI Rm')| |auto].
            intros a s' X. split; [apply X|]. destruct (NH m it a s' Em Ph eq_refl X) as (l' & X1). exists l'. exact X1.
          - eapply outcome_weaken; [apply (insert_handle_equiv_ok c r (t, hp w) l y n1 S IH Mu Rm')| |auto].
            intros a s' (A & ho & Ho & (l0 & l' & P0 & Ia & S' & F & N & _)). split; [exact A|]. exists l'. pose proof (insat_perm _ _ _ _ Ia) as Pi. split; [rewrite Pi; constructor; symmetry; exact P0|]. do 3 (split; [assumption|]). intros m Em. congruence. }
        eapply outcome_bind; [destruct hi; exact B|]. cbv beta. intros [a1 a2] s' n2 (A & l' & P' & S' & F & N & Hn). cbn [fst snd] in *. rewrite (deref_ok c r s' l' y a1 _ n2 S' N). cbn [ret outcome fst snd].
        split; [reflexivity|]. split; [exact A|]. exists l'. auto.
      - assert (outcome (match hi with None => insert_handle_unique c y | Some h => insert_handle_hint_unique c h y end (t, hp w) n1) (HUPost c r (t, hp w) l y) (OpExn c (Datatypes.S r) (t, hp w) l)) as B.
        { destruct hi as [it|].
          - destruct Hhi as (m & Em & Ph & HI). apply (insert_handle_hint_unique_ok c r (t, hp w) l it y n1 S IH Mu HI Rm').
          - apply (insert_handle_unique_ok c r (t, hp w) l y n1 S IH Rm'). }
        eapply outcome_bind; [eapply outcome_weaken; [destruct hi; exact B| |]|].
        + intros a s' X. exact X.
        + intros kd s' X. apply OpExn_W. exact X.
        + intros [a1 a2] s' n2 X. unfold HUPost in X. cbn [fst snd] in *. destruct (FcaTab.lookup c (f_pid t) (nkey y) l) as [z|].
          * destruct X as (-> & -> & N). rewrite (deref_ok c (Datatypes.S r) (t, hp w) l z a1 _ n2 S N). cbn [ret outcome]. auto.
          * destruct X as (-> & (l0 & l' & P0 & Ia & S' & F & N & _)). rewrite (deref_ok c r s' l' y a1 _ n2 S' N). cbn [ret outcome fst snd]. split; [reflexivity|]. split; [reflexivity|]. exists l'.
            pose proof (insat_perm _ _ _ _ Ia) as Pi. split; [rewrite Pi; constructor; symmetry; exact P0|]. do 2 (split; [assumption|]). intros m Em. unfold near_hint. discriminate. }
    destruct hint as [m|].
    + specialize (Hh m eq_refl). rewrite (ti_size _ _ _ T) in Hh. fold l in Hh. assert (m <= length l) as Lm by lia. rewrite bind_bind.
      match goal with |- outcome (bind _ ?f _ n) _ _ => destruct (it_at_ok c (Datatypes.S r) (t, hp w) l m f n S Lm) as (it & Ph & ->) end. rewrite bind_ret. apply BODY; [reflexivity|]. exists m. split; [reflexivity|]. split; [exact Ph|]. apply (pos_hint c (Datatypes.S r) (t, hp w) l m it S Lm Ph).
    + rewrite bind_ret. apply BODY; reflexivity.
  - (* exception *)
    intros kd [t' h'] (R & l' & lost & S' & Pl & F & Ls). cbn [fst snd]. split; [exact R|]. pose proof (Fr_ok _ _ F) as Fm. destruct F as ((F1 & F2 & F3 & F4) & _ & Nx). cbn [fst snd] in *. pose proof (si_t _ _ _ _ S') as T'. cbn [fst] in T'. split; [|split].
    + apply (WI_put1 c w i t (y :: rest) h' t' l' w1 w2); try assumption. eapply ids_lost. exact Pl.
    + cbn [FcaSpec.spec]. exists (look t). split; [apply look_at; exact Hs|]. rewrite Lh. exists (map el l'), (map el lost). split; [unfold look; cbn [v_elems]; fold l; rewrite Pl, map_app; reflexivity|].
      split; [apply lost_el; exact Ls|]. rewrite look_put. f_equal. apply (same_view c t t' l' T'); assumption.
    + intros _ M. unfold MLW. rewrite (proj1 (Q _ _)). apply (ml_mid w1 (Some t)); [rewrite <- E; exact M|]. apply Fm. eapply ml_in; eassumption.
  - (* done *)
    intros [a1 a2] [t' h'] n' X. rewrite set_hand_eq. cbn [ret outcome fst snd put_tab tabs hands hp] in *.
    destruct (if multi c then None else FcaTab.lookup c (f_pid t) (nkey y) l) as [z|] eqn:Lk.
    + destruct X as (X1 & X2). assert (a1 = el z /\ a2 = Some y /\ t' = t /\ h' = hp w) as (-> & -> & -> & ->) by (repeat split; congruence). rewrite Ess, (set_same _ _ _ Hk).
      assert (MW (tabs w) (hands w) (hp w) = w) as -> by (destruct w; reflexivity). split; [exact H|]. split; [|auto]. cbn [FcaSpec.spec]. exists (look t). split; [apply look_at; exact Hs|]. rewrite Lh.
      destruct (multi c) eqn:Mu; [discriminate|]. unfold look at 1. cbn [v_pred v_elems]. unfold look at 1. cbn [v_elems]. change (key (el y)) with (nkey y). rewrite lookup_el. fold l. rewrite Lk. cbn [option_map]. auto.
    + destruct X as (-> & -> & l' & Pl & S' & F & Hn). pose proof (Fr_ok _ _ F) as Fm. destruct F as ((F1 & F2 & F3 & F4) & _ & Nx). cbn [fst snd] in *. pose proof (si_t _ _ _ _ S') as T'. cbn [fst] in T'. split; [|split].
      * apply (WI_step c w _ (l ++ [y]) l' rest); auto.
        -- rewrite P, <- app_assoc. reflexivity.
        -- specialize (Q2 (Some t') h'). cbn [cont] in Q2. rewrite (contents_eq c t' l' T') in Q2. exact Q2.
        -- apply (ci_ids _ _ _ (ti_c _ _ _ T')).
        -- apply ids_old. intros q Hq. apply (Permutation_in _ Pl) in Hq. apply in_or_app. destruct Hq as [<-|Hq]; [right; now left|now left].
        -- apply (si_next _ _ _ _ S').
        -- cbn [hp]. apply (si_live _ _ _ _ S').
        -- cbn [tabs]. destruct (Q (Some t') h') as [Et _]. cbn [put_tab tabs] in Et. rewrite Et. apply (slot_mid c w1 (Some t)); [rewrite <- E; apply (wi_t _ _ H)|eapply slot_ok_inv; exact T'].
      * cbn [FcaSpec.spec]. exists (look t). split; [apply look_at; exact Hs|]. rewrite Lh.
        assert ((if multi c then None else FcaSpec.lookup (keqf cb) (v_pred (look t)) (key (el y)) (v_elems (look t))) = None) as ->.
        { destruct (multi c); [reflexivity|]. unfold look. cbn [v_pred v_elems]. change (key (el y)) with (nkey y). rewrite lookup_el. fold l. rewrite Lk. reflexivity. }
        split; [reflexivity|]. split; [reflexivity|]. exists (map el l'). split; [unfold look; cbn [v_elems]; fold l; rewrite Pl; reflexivity|]. split; [exact Hn|].
        unfold look_all. cbn [tabs hands containers handles]. rewrite !set_map. cbn [option_map]. rewrite (same_view c t t' l' T') by assumption. reflexivity.
      * intros _ M. unfold MLW. cbn [tabs]. destruct (Q (Some t') h') as [Et _]. cbn [put_tab tabs] in Et. rewrite Et. apply (ml_mid w1 (Some t)); [rewrite <- E; exact M|]. apply Fm. eapply ml_in; eassumption.
Qed.

Theorem exec_ok w o n : WI w -> pre c o w -> outcome (exec c o w n) (fun v w' => Good w o (Done v) w') (fun kd w' => raised kd /\ Good w o (Threw kd) w').
Proof.
  intros H P. destruct o.
  - apply on_ok; assumption.
  - apply new_ok; assumption.
  - apply copyc_ok; assumption.
  - apply movec_ok; assumption.
  - apply moveca_ok; assumption.
  - apply destroy_good; assumption.
  - apply copya_ok; assumption.
  - apply movea_ok; assumption.
  - apply swap_good; assumption.
  - apply merge_good; assumption.
  - apply equal_good; assumption.
  - apply extractk_ok; assumption.
  - apply extractn_ok; assumption.
  - apply sethand_ok; assumption.
  - apply insh_ok; assumption.
  - apply drop_ok; assumption.
Qed.
Lemma WI_start : WI start.
Proof. constructor; cbn; constructor. Qed.
Lemma returned_ok w o n res w' : WI w -> pre c o w -> returned (exec c o w n) res w' -> Good w o res w' /\ match res with Done _ => True | Threw kd => raised kd end.
Proof.
  intros H P X. pose proof (exec_ok w o n H P) as Q. destruct (exec c o w n) as [v w1 n1|kd w1 n1|]; cbn [returned outcome] in *.
  - destruct X as [-> ->]. auto.
  - destruct X as [-> ->]. destruct Q. auto.
  - destruct X.
Qed.
Lemma history_snoc (a b d : world K V) rs o r : history (keqf cb) (multi c) (leftover c) (pocca cb) (pocma cb) a rs b -> spec b o r d -> history (keqf cb) (multi c) (leftover c) (pocca cb) (pocma cb) a (rs ++ [(o, r)]) d.
Proof. intros H Q. induction H as [q|q o1 r1 q1 rs q2 S1 H IH]; cbn [app]; econstructor; eauto. constructor. Qed.
Theorem runs_ok ok rs w : runs_with c ok rs w -> WI w /\ history (keqf cb) (multi c) (leftover c) (pocca cb) (pocma cb) (look_all start) rs (look_all w) /\ Forall (fun q => match snd q with Done _ => True | Threw kd => raised kd end) rs.
Proof.
  induction 1 as [|rs w o n r w' H (W & Hi & F) P _ X]; [split; [apply WI_start|split; constructor]|]. destruct (returned_ok w o n r w' W P X) as [(W' & S & _) R]. split; [exact W'|]. split; [eapply history_snoc; eassumption|].
  apply Forall_app. split; [exact F|]. repeat constructor. exact R.
Qed.
Theorem runs_ml rs w : runs_with c (no_new_arena c) rs w -> MLW w.
Proof.
  intros H. assert (forall ok, runs_with c ok rs w -> WI w) as _ by (intros ok X; apply (runs_ok _ _ _ X)). induction H as [|rs w o n r w' H IH P N X]; [constructor|].
  pose proof (proj1 (runs_ok _ _ _ H)) as W. destruct (returned_ok w o n r w' W P X) as [(_ & _ & M) _]. auto.
Qed.
(** no operation of a program whose preconditions hold has undefined behaviour *)
Theorem runs_def ok rs w o n : runs_with c ok rs w -> pre c o w -> exec c o w n <> Undef.
Proof. intros H P E. pose proof (exec_ok w o n (proj1 (runs_ok _ _ _ H)) P) as Q. rewrite E in Q. exact Q. Qed.
Lemma all_addr w : WI w -> addresses (look_all w) = map nd_id (all w).
Proof.
  intros H. unfold addresses, all, look_all. cbn [containers handles]. rewrite map_app. f_equal.
  - generalize (tabs w). intros T. induction T as [|[t|] T IH]; [reflexivity| |exact IH]. cbn [map flat_map option_map cont]. rewrite IH, map_app. f_equal. unfold look. cbn [v_elems]. apply ids_el.
  - generalize (hands w). intros T. induction T as [|[y|] T IH]; [reflexivity| |exact IH]. cbn [map flat_map option_map hnd app]. rewrite IH. reflexivity.
Qed.
End Run4.
