(** Assignment, swap, merge, comparison and node handles of the closed-addressing containers meet their specification. *)
From Coq Require Import NArith ZArith Bool List Arith Lia Permutation.
From Verif Require Import FloatModel HashArithModel HashArithProofs FoaModel FoaGroup FoaBase FcaLinks FcaLinksProofs FcaModel FcaInv FcaIter FcaTab FcaRehash FcaOps FcaIns FcaIns2 FcaHandle FcaErase FcaErase2 FcaCopy FcaMove FcaMerge FcaQuery FcaEq FcaSpec FcaWorld FcaApi FcaRun FcaRun2.
Import ListNotations.
Local Open Scope m_scope.
Local Open Scope nat_scope.

Section Run3.
Context {K V : Type} (c : FCfg K V).
Notation node := (node K V).
Notation table := (FcaModel.table K V).
Notation cb := (base c).
Notation St := (table * heap)%type.
Notation St2 := ((table * table) * heap)%type.
Notation TInv := (TInv c). Notation raised := (raised c).
Notation SI := (SI c). Notation WI := (WI c). Notation Good := (Good c). Notation slot_ok := (slot_ok c). Notation OK := (OK c).
Notation mworld := (@mworld K V).
Notation el := (@el K V).
Notation spec := (FcaSpec.spec (V:=V) (keqf cb) (multi c) (leftover c) (pocca cb) (pocma cb)).
Implicit Types (t x : table) (y z : node) (w : mworld).

Lemma lost_el kd (lost : list node) : (kd <> KHash -> lost = []) -> Lost kd (map el lost).
Proof. intros H. destruct (kind_dec kd KHash) as [->|N]; [right; reflexivity|left; rewrite (H N); reflexivity]. Qed.
Lemma no_elems t l : TInv t l -> (0 < f_size t)%N -> l <> []. Proof. intros T L ->. rewrite (ti_size _ _ _ T) in L. cbn in L. lia. Qed.
Lemma asg_fresh b (l : list node) (old : list node) : Forall (fun y => b <= nd_id y) l -> Forall (fun y => In (nd_id y) (map nd_id old) \/ b <= nd_id y) l.
Proof. intros F. eapply Forall_impl; [|exact F]. cbv beta. auto. Qed.

Lemma copya_ok w i j n : WI w -> pre c (CopyAssign i j) w -> OK w (CopyAssign i j) (exec c (CopyAssign i j) w n).
Proof.
  intros H (Nij & t & x & Hi & Hj & Hp). cbn [exec]. rewrite get_eq, Hj. cbn [of_option]. rewrite bind_ret.
  destruct (parts1 c w i t H Hi) as (rest & w1 & w2 & E & L & P & S & Q & _). pose proof (inv_in c w j x H Hj) as Tx. pose proof (inv_in c w i t H Hi) as T.
  assert (same_arena c t x \/ contents x <> [] \/ f_ml t = 0%N) as Pr.
  { destruct Hp as [Hp|[Hp|[Hp|Hp]]]; [left; left; exact Hp|left; right; exact Hp|right; left; apply (no_elems x); assumption|right; right].
    apply (ci_null _ _ _ (ti_c _ _ _ T)). unfold bucket_count in Hp. lia. }
  assert (no_new_arena c (CopyAssign i j) w -> same_arena c t x) as NA. { intros X. apply X; assumption. }
  eapply run1_ok; [exact Hi|apply (copy_assign_ok c (length rest) (t, hp w) (contents t) x (contents x) n S Tx Pr)| |].
  - cbv beta. intros kd [t' h'] [(R & Nx & X) Ml]. cbn [fst snd] in *. split; [exact R|].
    assert (no_new_arena c (CopyAssign i j) w -> MLW w -> MLW (put_tab w i (Some t') h')) as MG.
    { intros A M. unfold MLW. rewrite (proj1 (Q _ _)). apply (ml_mid w1 (Some t)); [rewrite <- E; exact M|]. apply Ml; [apply NA; exact A|eapply ml_in; eassumption]. }
    destruct X as [(l' & lost & S' & Pl & Ls & A1 & A2 & A3)|(f1 & f2 & Ef & (l' & S' & Pk & Fl & _ & B1 & B2 & B3 & B4) & Al)]; cbn [fst snd] in *.
    + split; [|split; [|exact MG]].
      * eapply WI_put1; try eassumption. eapply ids_lost. exact Pl.
      * cbn [FcaSpec.spec]. exists (look t), (look x). split; [apply look_at; exact Hi|]. split; [apply look_at; exact Hj|]. left. exists (map el l'), (map el lost).
        split; [unfold look; cbn [v_elems]; rewrite Pl, map_app; reflexivity|]. split; [apply lost_el; exact Ls|]. rewrite look_put. f_equal. pose proof (si_t _ _ _ _ S') as T'. cbn [fst] in T'.
        rewrite (look_inv c t' l' T'). unfold with_elems, look. cbn [v_hash v_pred v_alloc]. congruence.
    + split; [|split; [|exact MG]].
      * eapply WI_put1; try eassumption. apply asg_fresh. exact Fl.
      * cbn [FcaSpec.spec]. exists (look t), (look x). split; [apply look_at; exact Hi|]. split; [apply look_at; exact Hj|]. right. exists (f_al t'), (map el l'), f2.
        split; [|split; [unfold look; cbn [v_elems]; rewrite !kv_el, Pk, Ef; reflexivity|rewrite look_put; f_equal; pose proof (si_t _ _ _ _ S') as T'; cbn [fst] in T'; rewrite (look_inv c t' l' T'); unfold look; cbn [v_hash v_pred]; congruence]].
        cbn [look v_alloc]. destruct Al as [Al|Al]; auto.
  - cbv beta. intros u [t' h'] n' [(l' & S' & Pk & Fl & Nx & B1 & B2 & B3 & B4) Ml]. cbn [ret outcome fst snd] in *. split; [|split].
    + eapply WI_put1; try eassumption. apply asg_fresh. exact Fl.
    + cbn [FcaSpec.spec]. exists (look t), (look x). split; [apply look_at; exact Hi|]. split; [apply look_at; exact Hj|]. exists (map el l'). split; [unfold same_values, look; cbn [v_elems]; rewrite !kv_el; exact Pk|].
      rewrite look_put. f_equal. pose proof (si_t _ _ _ _ S') as T'. cbn [fst] in T'. rewrite (look_inv c t' l' T'). unfold look. cbn [v_hash v_pred v_alloc]. congruence.
    + intros A M. unfold MLW. rewrite (proj1 (Q _ _)). apply (ml_mid w1 (Some t)); [rewrite <- E; exact M|]. apply Ml. apply NA; exact A.
Qed.

Lemma left_ids b (A B : list node) : Forall (fun y => nd_id y < b) (A ++ B) -> Forall (fun y => nd_id y < b) (map (left_of c) A ++ B).
Proof. intros F. apply Forall_app in F as [F1 F2]. apply Forall_app. split; [|exact F2]. apply Forall_forall. intros y Hy. apply in_map_iff in Hy as (z & <- & Hz). rewrite Forall_forall in F1. apply (F1 z Hz). Qed.
Lemma ids_left b (old : list node) (A B lx : list node) : lx = A ++ B -> incl lx old -> Forall (fun y => In (nd_id y) (map nd_id old) \/ b <= nd_id y) (map (left_of c) A ++ B).
Proof.
  intros -> I. apply Forall_forall. intros y Hy. left. assert (In (nd_id y) (map nd_id (A ++ B))) as Q.
  { rewrite map_app, <- (map_left c A), <- map_app. apply in_map. exact Hy. }
  apply in_map_iff in Q as (z & <- & Hz). apply in_map. apply I. exact Hz.
Qed.
Lemma nodup_left (A B : list node) : NoDup (map nd_id (map (left_of c) A ++ B)) <-> NoDup (map nd_id (A ++ B)).
Proof. rewrite !map_app, map_left. reflexivity. Qed.

Lemma movea_ok w i j n : WI w -> pre c (MoveAssign i j) w -> OK w (MoveAssign i j) (exec c (MoveAssign i j) w n).
Proof.
  intros H (Nij & t & x & Hi & Hj & Hp). cbn [exec]. destruct (parts2 c w i j t x H Hi Hj Nij) as (rest & P & S2 & Pa & Ta & Ma).
  pose proof (inv_in c w j x H Hj) as Tx. pose proof (inv_in c w i t H Hi) as T. pose proof (world_ids2 c w i j t x rest H P Hi Hj) as ND0.
  assert (steals c t x = true \/ keeps c) as Pr. { unfold steals. destruct Hp as [->|[->|Hp]]; [left; reflexivity|left; rewrite N.eqb_refl; apply orb_true_r|right; exact Hp]. }
  destruct (SI2_parts c _ _ _ _ _ _ S2) as (_ & _ & _ & Ft & Fx).
  eapply run2_ok; [exact Hi|exact Hj|exact Nij|apply (move_assign_ok c (length rest) t x (hp w) (contents t) (contents x) n S2 Pr)| |].
  - cbv beta. intros kd [[t' x'] h'] (R & St & l' & A & B & Ex & S' & Nx & A1 & A2 & SX & X). cbn [fst snd] in *. split; [exact R|]. destruct (SI2_parts c _ _ _ _ _ _ S') as (T1 & T2 & _).
    assert (no_new_arena c (MoveAssign i j) w -> MLW w -> MLW (put_tab (put_tab w i (Some t') h') j (Some x') h')) as MG.
    { intros _ M. apply Ma; [exact M|exact A2|]. apply (SameX_ml _ _ SX). eapply ml_in; eassumption. }
    assert (look x' = with_elems (look x) (map (moved_from (leftover c)) (map el A) ++ map el B)) as Lx.
    { rewrite (look_inv c x' _ T2), map_app, el_left. destruct SX as ((B1 & B2 & B3 & _) & _). unfold with_elems, look. cbn [v_hash v_pred v_alloc]. congruence. }
    destruct X as [(lost & Pl & Ls & -> & C1 & C2)|(A0 & HA & Pk & Fl & C1 & C2)].
    + cbn [map app] in *. subst B. split; [|split; [|exact MG]].
      * eapply WI_put2; try eassumption.
        -- pose proof ND0 as N0. rewrite map_app in N0 |- *. rewrite (Permutation_map nd_id Pl), map_app, <- app_assoc in N0. eapply nodup_app_r. exact N0.
        -- apply ids_old. intros y Hy. apply in_app_or in Hy as [Hy|Hy]; apply in_or_app; [left|right; exact Hy]. apply (Permutation_in _ (Permutation_sym Pl)), in_or_app. right. exact Hy.
      * cbn [FcaSpec.spec]. exists (look t), (look x). split; [apply look_at; exact Hi|]. split; [apply look_at; exact Hj|]. cbv zeta. split; [exact St|]. left. exists (map el l'), (map el lost).
        split; [unfold look; cbn [v_elems]; rewrite Pl, map_app; reflexivity|]. split; [apply lost_el; exact Ls|]. rewrite look_put2, Lx. cbn [map app].
        assert (with_elems (look x) (map el (contents x)) = look x) as -> by reflexivity.
        assert (look t' = with_elems (look t) (map el l')) as -> by (rewrite (look_inv c t' _ T1); unfold with_elems, look; cbn [v_hash v_pred v_alloc]; congruence).
        apply put_same. unfold is_at, put. cbn [containers]. rewrite <- (put_same (look_all w) j (look x)) at 1 by (apply look_at; exact Hj).
        pose proof (look_at w j x Hj) as Lj. pose proof (look_at w i t Hi) as Li. unfold is_at in Lj, Li. rewrite (put_same (look_all w) j (look x)) by exact Lj.
        destruct (set_split _ _ _ Li) as (v1 & v2 & Ev & Lv & Sv). rewrite Sv. rewrite Ev in Lj. rewrite nth_app_mid in Lj |- *. rewrite Lv in *. destruct (Nat.eqb_spec j i); [congruence|exact Lj].
    + split; [|split; [|exact MG]].
      * eapply WI_put2; try eassumption.
        -- apply (nodup_old_new (next (hp w))); [apply (ci_ids _ _ _ (ti_c _ _ _ T1))|apply (ci_ids _ _ _ (ti_c _ _ _ T2))|exact Fl|]. apply left_ids. rewrite <- Ex. exact Fx.
        -- apply Forall_app. split; [apply asg_fresh; exact Fl|]. apply (ids_left _ _ A B (contents x) Ex). intros y Hy. apply in_or_app. now right.
      * cbn [FcaSpec.spec]. exists (look t), (look x). split; [apply look_at; exact Hi|]. split; [apply look_at; exact Hj|]. cbv zeta. split; [exact St|]. right.
        exists (map el A), (map el B), (map el l'), (map nd_kv (skipn (length A0) A)).
        split; [unfold look; cbn [v_elems]; rewrite Ex, map_app; reflexivity|]. rewrite !kv_el. split; [|split].
        -- destruct HA as [->|(y & ->)]; [rewrite skipn_all; cbn [map]; rewrite app_nil_r; symmetry; exact Pk|]. rewrite skipn_app_len, map_app. apply Permutation_app_tail. symmetry. exact Pk.
        -- destruct HA as [->|(y & ->)]; [rewrite skipn_all; cbn; lia|]. rewrite skipn_app_len. cbn. lia.
        -- rewrite look_put2, Lx, (look_inv c t' _ T1). unfold look. cbn [v_hash v_pred v_alloc]. congruence.
  - cbv beta. intros u [[t' x'] h'] n' (l' & lx' & S' & Pk & Nx & A1 & A2 & A3 & A4 & A5 & (B1 & B2 & B3 & B4) & A6 & A7 & A8). cbn [ret outcome fst snd] in *. destruct (SI2_parts c _ _ _ _ _ _ S') as (T1 & T2 & _).
    split; [|split].
    + destruct (steals c t x).
      * destruct (A7 eq_refl) as (-> & -> & _). eapply WI_put2; try eassumption; rewrite app_nil_r; [apply (ci_ids _ _ _ (ti_c _ _ _ Tx))|]. apply ids_old. intros y Hy. apply in_or_app. now right.
      * destruct (A8 eq_refl) as (-> & Fl). eapply WI_put2; try eassumption.
        -- apply (nodup_old_new (next (hp w))); [apply (ci_ids _ _ _ (ti_c _ _ _ T1))|apply (ci_ids _ _ _ (ti_c _ _ _ T2))|exact Fl|]. rewrite <- (app_nil_r (map (left_of c) _)). apply left_ids. rewrite app_nil_r. exact Fx.
        -- apply Forall_app. split; [apply asg_fresh; exact Fl|]. rewrite <- (app_nil_r (map (left_of c) _)). apply (ids_left _ _ (contents x) [] (contents x)); [symmetry; apply app_nil_r|]. intros y Hy. apply in_or_app. now right.
    + cbn [FcaSpec.spec]. exists (look t), (look x). split; [apply look_at; exact Hi|]. split; [apply look_at; exact Hj|]. cbv zeta. rewrite look_put2, (look_inv c t' _ T1), (look_inv c x' _ T2).
      change (pocma cb || (v_alloc (look t) =? v_alloc (look x))%N) with (steals c t x). destruct (steals c t x) eqn:ES; [left|right]; (split; [reflexivity|]).
      * destruct (A7 eq_refl) as (-> & -> & _). unfold with_elems, look. cbn [v_hash v_pred v_alloc v_elems map]. congruence.
      * destruct (A8 eq_refl) as (-> & Fl). exists (map el l'). split; [unfold same_values, look; cbn [v_elems]; rewrite !kv_el; exact Pk|]. rewrite el_left. unfold with_elems, look. cbn [v_hash v_pred v_alloc v_elems].
        assert (f_al t' = f_al t) as EA. { rewrite A3. destruct (pocma cb) eqn:Epm; [|reflexivity]. exfalso. unfold steals in ES. rewrite Epm in ES. discriminate. }
        congruence.
    + intros _ M. apply Ma; [exact M|apply A5|apply A6]; eapply ml_in; eassumption.
Qed.

Lemma swap_good w i j n : WI w -> pre c (Swap i j) w -> OK w (Swap i j) (exec c (Swap i j) w n).
Proof.
  intros H (Nij & t & x & Hi & Hj & Hp). cbn [exec]. destruct (parts2 c w i j t x H Hi Hj Nij) as (rest & P & S2 & Pa & Ta & Ma).
  pose proof (world_ids2 c w i j t x rest H P Hi Hj) as ND0.
  eapply run2_ok; [exact Hi|exact Hj|exact Nij|apply (swap_ok c (length rest) t x (hp w) (contents t) (contents x) n (fun _ _ => False) S2 Hp)|intros kd s' []|].
  cbv beta. intros u s' n' [-> S']. cbn [ret outcome fst snd] in *. split; [|split].
  - eapply WI_put2; try eassumption; [|apply ids_old; intros y Hy; apply in_app_or in Hy as [Hy|Hy]; apply in_or_app; auto|lia].
    rewrite (Permutation_map nd_id (Permutation_app_comm _ _)). exact ND0.
  - cbn [FcaSpec.spec]. exists (look t), (look x). split; [apply look_at; exact Hi|]. split; [apply look_at; exact Hj|]. split; [reflexivity|]. apply look_put2.
  - intros _ M. apply Ma; [exact M| |]; eapply ml_in; eassumption.
Qed.

Lemma msplit_moved p lx : forall l y, In y (fst (msplit c p l lx)) -> FcaTab.lookup c p (nkey y) l = None.
Proof.
  induction lx as [|z r IH]; intros l y Hy; cbn [msplit] in Hy; [destruct Hy|]. destruct (FcaTab.lookup c p (nkey z) l) as [q|] eqn:E; cbn [fst] in Hy; [apply IH; exact Hy|].
  destruct Hy as [<-|Hy]; [exact E|]. apply IH in Hy. rewrite lookup_none in Hy |- *. intros q Hq. apply Hy. now right.
Qed.
Lemma msplit_left p lx : forall l y, In y (snd (msplit c p l lx)) -> exists z, In z (fst (msplit c p l lx) ++ l) /\ keqf cb p (nkey y) (nkey z) = true.
Proof.
  induction lx as [|z r IH]; intros l y Hy; cbn [msplit] in Hy |- *; [destruct Hy|]. destruct (FcaTab.lookup c p (nkey z) l) as [q|] eqn:E; cbn [fst snd] in Hy |- *.
  - destruct Hy as [<-|Hy]; [|apply IH; exact Hy]. apply lookup_some in E as [A B]. exists q. split; [apply in_or_app; now right|exact B].
  - destruct (IH _ _ Hy) as (a & Ha & Hk). exists a. split; [|exact Hk]. apply in_app_or in Ha as [Ha|[<-|Ha]]; [right; apply in_or_app; now left|now left|right; apply in_or_app; now right].
Qed.
Lemma same_view t t' l : TInv t' l -> f_hid t' = f_hid t -> f_pid t' = f_pid t -> f_al t' = f_al t -> look t' = with_elems (look t) (map el l).
Proof. intros T A B C. rewrite (look_inv c t' l T). unfold with_elems, look. cbn [v_hash v_pred v_alloc]. congruence. Qed.

Lemma merge_good w i j n : WI w -> pre c (Merge i j) w -> OK w (Merge i j) (exec c (Merge i j) w n).
Proof.
  intros H (Nij & t & x & Hi & Hj & Ha & Rm). cbn [exec]. destruct (parts2 c w i j t x H Hi Hj Nij) as (rest & P & S2 & Pa & Ta & Ma).
  pose proof (inv_in c w j x H Hj) as Tx. pose proof (inv_in c w i t H Hi) as T. pose proof (world_ids2 c w i j t x rest H P Hi Hj) as ND0.
  assert (FcaIns2.room (contents t) (length (contents x))) as Rm'.
  { unfold FcaWorld.room, FcaIns2.room, max_elems in *. rewrite (ti_size _ _ _ T), (ti_size _ _ _ Tx), Nnat.Nat2N.id in Rm. lia. }
  assert (forall t' x' h' l' lx' lost, SI2 c (length rest) ((t', x'), h') l' lx' -> Permutation (contents t ++ contents x) (lost ++ l' ++ lx') -> Fr (t, hp w) (t', h') -> SameX x x' ->
    WI (put_tab (put_tab w i (Some t') h') j (Some x') h') /\ (MLW w -> MLW (put_tab (put_tab w i (Some t') h') j (Some x') h')) /\
    look_all (put_tab (put_tab w i (Some t') h') j (Some x') h') = put (put (look_all w) i (with_elems (look t) (map el l'))) j (with_elems (look x) (map el lx'))) as FIN.
  { intros t' x' h' l' lx' lost S' Pl F SX. destruct (SI2_parts c _ _ _ _ _ _ S') as (T1 & T2 & _). pose proof (Fr_ok _ _ F) as Fm. destruct F as ((F1 & F2 & F3 & F4) & _ & Nx). cbn [fst snd] in *. split; [|split].
    - eapply WI_put2; try eassumption.
      + pose proof ND0 as N0. rewrite (Permutation_map nd_id Pl), map_app in N0. eapply nodup_app_r. exact N0.
      + apply ids_old. intros y Hy. apply (Permutation_in _ (Permutation_sym Pl)). apply in_or_app. now right.
    - intros M. apply Ma; [exact M|apply Fm|apply (SameX_ml _ _ SX)]; eapply ml_in; eassumption.
    - rewrite look_put2, (same_view t t' l'), (same_view x x' lx'); auto; apply SX. }
  assert (outcome (merge c ((t, x), hp w) n) (fun _ (s' : St2) => exists l' lx' moved, SI2 c (length rest) s' l' lx' /\ Permutation (contents x) (moved ++ lx') /\ Permutation l' (moved ++ contents t) /\ Fr (t, hp w) (fst (fst s'), snd s') /\ SameX x (snd (fst s')) /\
      if multi c then lx' = [] else (forall y, In y moved -> FcaTab.lookup c (f_pid t) (nkey y) (contents t) = None) /\ (forall y, In y lx' -> FcaTab.lookup c (f_pid t) (nkey y) l' <> None))
    (fun kd (s' : St2) => raised kd /\ exists l' lx' lost, SI2 c (length rest) s' l' lx' /\ Permutation (contents t ++ contents x) (lost ++ l' ++ lx') /\ (kd = KHash \/ length lost <= if multi c then 1 else 0) /\ Fr (t, hp w) (fst (fst s'), snd s') /\ SameX x (snd (fst s')))) as MO.
  { destruct (multi c) eqn:Mu.
    - eapply outcome_weaken; [apply (merge_multi_ok c (length rest) t x (hp w) _ _ n Mu S2 ND0 Ha Rm')| |].
      + intros [] s' (l' & A & B & C & D). exists l', [], (contents x). rewrite app_nil_r. auto 7.
      + intros kd s' (R & l' & lx' & lost & A & B & C & D & E). split; [exact R|]. exists l', lx', lost. do 2 (split; [assumption|]). split; [|auto]. destruct (kind_dec kd KHash) as [->|Nk]; auto.
    - unfold merge. rewrite Mu. eapply outcome_weaken; [apply (merge_unique_ok c (length rest) t x (hp w) _ _ n Mu S2 ND0 Ha Rm')| |].
      + intros [] s' (l' & A & B & C & D & _). exists l', (snd (msplit c (f_pid t) (contents t) (contents x))), (fst (msplit c (f_pid t) (contents t) (contents x))).
        split; [exact A|]. split; [apply msplit_perm|]. do 3 (split; [assumption|]). split; [intros y; apply msplit_moved|]. intros y Hy E. destruct (msplit_left _ _ _ _ Hy) as (z & Hz & Ez).
        rewrite lookup_none in E. rewrite (E z) in Ez; [discriminate|]. apply (Permutation_in _ (Permutation_sym B)). exact Hz.
      + intros kd s' (R & l' & lx' & lost & A & B & C & D & E & _). split; [exact R|]. exists l', lx', lost. do 2 (split; [assumption|]). split; [|auto]. destruct (kind_dec kd KHash) as [->|Nk]; [auto|]. rewrite (C Nk). auto. }
  eapply run2_ok; [exact Hi|exact Hj|exact Nij|exact MO| |].
  - cbv beta. intros kd [[t' x'] h'] (R & l' & lx' & lost & S' & Pl & Ls & F & SX). cbn [fst snd] in *. split; [exact R|]. destruct (FIN t' x' h' l' lx' lost S' Pl F SX) as (W & M & Lk). split; [exact W|]. split; [|auto].
    cbn [FcaSpec.spec]. exists (look t), (look x), (map el l'), (map el lx'). split; [apply look_at; exact Hi|]. split; [apply look_at; exact Hj|]. split; [exact Lk|]. exists (map el lost). unfold look. cbn [v_elems].
    split; [rewrite <- !map_app; apply Permutation_map; exact Pl|]. rewrite map_length. exact Ls.
  - cbv beta. intros u [[t' x'] h'] n' (l' & lx' & moved & S' & Pm & Pl & F & SX & Hs). cbn [ret outcome fst snd] in *.
    destruct (FIN t' x' h' l' lx' [] S') as (W & M & Lk); [cbn [app]; rewrite Pm, Pl, !app_assoc; apply Permutation_app_tail, Permutation_app_comm|exact F|exact SX|]. split; [exact W|]. split; [|auto].
    cbn [FcaSpec.spec]. exists (look t), (look x), (map el l'), (map el lx'). split; [apply look_at; exact Hi|]. split; [apply look_at; exact Hj|]. split; [exact Lk|]. exists (map el moved). unfold look. cbn [v_elems v_pred].
    split; [rewrite <- !map_app; apply Permutation_map; exact Pm|]. split; [rewrite <- !map_app; apply Permutation_map; exact Pl|]. destruct (multi c); [rewrite Hs; reflexivity|]. destruct Hs as [H1 H2]. split.
    + intros q Hq. apply in_map_iff in Hq as (y & <- & Hy). change (key (el y)) with (nkey y). rewrite lookup_el, (H1 y Hy). reflexivity.
    + intros q Hq. apply in_map_iff in Hq as (y & <- & Hy). change (key (el y)) with (nkey y). rewrite lookup_el. specialize (H2 y Hy). destruct (FcaTab.lookup c (f_pid t) (nkey y) l'); [discriminate|congruence].
Qed.

(** comparison *)
Lemma forall2_el (Rn : node -> node -> Prop) (Re : nat * (K * V) -> nat * (K * V) -> Prop) (lx ly : list node) : (forall a b : node, Rn a b <-> Re (el a) (el b)) ->
  ((exists l', Permutation ly l' /\ Forall2 Rn lx l') <-> (exists l', Permutation (map el ly) l' /\ Forall2 Re (map el lx) l')).
Proof.
  intros HR. assert (forall l1 l2 : list node, Forall2 Rn l1 l2 <-> Forall2 Re (map el l1) (map el l2)) as F2.
  { induction l1 as [|a l1 IH]; intros [|b l2]; cbn [map]; split; intros F; try constructor; try (inversion F; fail); inversion F; subst; try (apply HR; assumption); apply IH; assumption. }
  split.
  - intros (l' & P & F). exists (map el l'). split; [apply Permutation_map; exact P|apply F2; exact F].
  - intros (l' & P & F). apply Permutation_sym, Permutation_map_inv in P as (l2 & -> & P). exists l2. split; [exact P|apply F2; exact F].
Qed.
Lemma forall2_imp {A} (P Q : A -> A -> Prop) l1 l2 : (forall a b, P a b -> Q a b) -> Forall2 P l1 l2 -> Forall2 Q l1 l2. Proof. intros H F. induction F; constructor; auto. Qed.
Lemma equal_good w i j eeq n : WI w -> pre c (Equal i j eeq) w -> OK w (Equal i j eeq) (exec c (Equal i j eeq) w n).
Proof.
  intros H (x & y & Hi & Hj & Ep & He). cbn [exec]. rewrite get_eq, Hi, Hj. cbn [of_option]. rewrite !bind_ret.
  pose proof (inv_in c w i x H Hi) as Tx. pose proof (inv_in c w j y H Hj) as Ty.
  eapply outcome_bind.
  - instantiate (1 := fun b w' => w' = w /\ (b = true <-> exists l', Permutation (contents y) l' /\ Forall2 (fun a b : node => keqf cb (f_pid y) (nkey a) (nkey b) = true /\ eeq (nd_kv a) (nd_kv b) = true) (contents x) l')).
    eapply outcome_weaken with (E := RO c w).
    + instantiate (1 := fun b w' => w' = w /\ (b = true <-> exists l', Permutation (contents y) l' /\ Forall2 (fun a b : node => keqf cb (f_pid y) (nkey a) (nkey b) = true /\ eeq (nd_kv a) (nd_kv b) = true) (contents x) l')).
      unfold equal_tables. destruct (multi c) eqn:Mu.
      * destruct (He eq_refl) as (E1 & E2 & E3 & E4). eapply outcome_weaken; [apply (equals_equiv_ok c eeq E1 E2 E3 x y (contents x) (contents y) w n Tx Ty Ep E4)| |auto].
        cbv beta. intros b w' [-> Hb]. split; [reflexivity|]. rewrite Hb. unfold matches. split; intros (l' & P & F); exists l'; (split; [exact P|]); (eapply forall2_imp; [|exact F]); cbv beta; [|intros a b0 [_ X]; exact X].
        intros a b0 X. split; [apply E4; exact X|exact X].
      * eapply outcome_weaken; [apply (equals_unique_ok c eeq x y (contents x) (contents y) w n Tx Ty)| |auto]. cbv beta. intros b w' [-> ->]. split; [reflexivity|].
        pose proof (keysok_all c _ _ Tx) as Ux. pose proof (keysok_all c _ _ Ty) as Uy. unfold KeysOk in *. rewrite Mu in *. rewrite Ep in Ux. apply (unique_matches c eeq (f_pid y)); [exact Ux|exact Uy|apply (Eqv_of c _ _ (ti_c _ _ _ Ty))].
    + auto.
    + cbv beta. intros kd w' (-> & Hk & R). split; [exact R|]. split; [exact H|]. split; [|auto]. cbn [FcaSpec.spec]. exists (look x), (look y). split; [apply look_at; exact Hi|]. split; [apply look_at; exact Hj|]. auto.
  - cbv beta. intros b w' n' [-> Hb]. cbn [ret outcome]. split; [exact H|]. split; [|auto]. cbn [FcaSpec.spec]. exists (look x), (look y). split; [apply look_at; exact Hi|]. split; [apply look_at; exact Hj|]. split; [reflexivity|].
    rewrite Hb. unfold look. cbn [v_elems v_pred]. apply forall2_el. intros a b0. reflexivity.
Qed.
End Run3.
