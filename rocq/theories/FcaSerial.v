(** Serialization of the closed-addressing containers: proofs. *)
From Coq Require Import NArith ZArith Bool List Arith Lia Permutation.
From Verif Require Import FloatModel FloatProofs HashArithModel HashArithProofs FoaModel FoaGroup FoaBase FcaLinks FcaLinksProofs FcaModel FcaInv FcaIter FcaTab FcaRehash FcaLoad FcaOps FcaIns FcaIns2 FcaHandle FcaErase FcaErase2 FcaCopy FcaMove FcaMerge FcaQuery FcaEq FcaSpec FcaWorld FcaApi FcaRun FcaRun2 FcaRun3 FcaRun4 FcaProps FcaProps2 FcaReserve
  SerialSpec SerialFacts FcaSerialModel.
Import ListNotations.
Local Open Scope m_scope.
Local Open Scope nat_scope.

Section Serial.
Context {K V : Type} (c : FCfg K V).
Notation node := (node K V).
Notation table := (FcaModel.table K V).
Notation cb := (base c).
Notation St := (table * heap)%type.
Notation TInv := (TInv c). Notation raised := (raised c). Notation SI := (SI c).
Notation mworld := (@mworld K V).
Notation el := (@el K V).
Notation in_program := (in_program c).
Implicit Types (t : table) (y z : node) (w : mworld).
Variable ok : op K V -> mworld -> Prop.
Hypothesis okOn : forall i o w, ok (On i o) w.

(** container i of the program w is in state s (operations on container i only) *)
Definition at_world (w : mworld) (i : nat) (s : St) : Prop := exists rs, runs_with c ok rs (put_tab w i (Some (fst s)) (snd s)).
Definition there (w : mworld) (i : nat) : Prop := exists t, slot w i = Some t.
Lemma put_put w i a h b h' : there w i -> put_tab (put_tab w i a h) i b h' = put_tab w i b h'.
Proof.
  intros (t & H). unfold put_tab. cbn [tabs hands]. f_equal. destruct (set_split _ _ _ (slot_err w i t H)) as (w1 & w2 & E & L & Se). rewrite !Se. unfold FcaSpec.set.
  rewrite firstn_app, skipn_app, L, Nat.sub_diag, firstn_all2, skipn_all2 by lia. replace (S i - i) with 1 by lia. cbn [firstn skipn app]. rewrite app_nil_r. reflexivity.
Qed.
Lemma put_there w i o h : there w i -> slot (put_tab w i o h) i = o.
Proof. intros (t & H). rewrite (put_slot w i o h i t H), Nat.eqb_refl. reflexivity. Qed.
Lemma at_program w i s : there w i -> at_world w i s -> in_program (fst s) (snd s).
Proof. intros T (rs & R). exists rs. eexists. exists i. split; [eapply runs_weaken; [|exact R]; auto|]. split; [apply put_there; exact T|reflexivity]. Qed.
Lemma at_start rs w i t : runs_with c ok rs w -> slot w i = Some t -> at_world w i (t, hp w).
Proof.
  intros R H. exists rs. destruct w as [ts hs hp0]. unfold put_tab. cbn [fst snd tabs hands hp]. destruct (set_split _ _ (Some t) (slot_err _ i t H)) as (w1 & w2 & E & L & Se). cbn [tabs] in E, Se.
  rewrite Se, <- E. exact R.
Qed.

Lemma step_at w i t h o n : there w i -> at_world w i (t, h) -> pre1 c o t ->
  match exec1 c o (t, h) n with
  | Ret v s' _ => at_world w i s' /\ FcaSpec.spec1 (keqf cb) (multi c) (f_pid t) o (elems t) (Done v) (elems (fst s')) /\ f_pid (fst s') = f_pid t /\ f_hid (fst s') = f_hid t
  | Exn k s' _ => at_world w i s' /\ FcaSpec.spec1 (keqf cb) (multi c) (f_pid t) o (elems t) (Threw k) (elems (fst s')) /\ f_pid (fst s') = f_pid t /\ f_hid (fst s') = f_hid t /\ raised k
  | Undef => False
  end.
Proof.
  intros T A P. pose proof (step1 c t h o n (at_program w i _ T A) P) as Q. destruct A as (rs & R). cbn [fst snd] in R.
  assert (forall res (s' : St), returned (exec c (On i o) (put_tab w i (Some t) h) n) res (put_tab (put_tab w i (Some t) h) i (Some (fst s')) (snd s')) -> at_world w i s') as NX.
  { intros res s' X. exists (rs ++ [(On i o, res)]). rewrite <- (put_put w i (Some t) h (Some (fst s')) (snd s') T).
    eapply (runs_snoc c ok rs _ (On i o) n res); [exact R|exists t; split; [apply put_there; exact T|exact P]|apply okOn|exact X]. }
  unfold exec, run1 in NX. rewrite (put_there w i _ h T) in NX. cbn [hp put_tab] in NX. destruct (exec1 c o (t, h) n) as [v s' n'|kd s' n'|]; [| |exact Q].
  - split; [apply (NX (Done v) s'); split; reflexivity|]. apply Q.
  - split; [apply (NX (Threw kd) s'); split; reflexivity|]. apply Q.
Qed.

(** insertion, with the iterator it returns *)
Definition points t (it : eit) (x : nat * (K * V)) : Prop := exists j, nth_it t j = Some it /\ nth_error (elems t) j = Some x.
Lemma exec1_insert kf e s n : exec1 c (Insert kf e) s n = bind (f_insert c kf e) (fun r => y <- deref (fst r) ;; ret (VIns y (snd r))) s n.
Proof.
  cbn [exec1]. unfold f_insert. destruct (multi c); [|reflexivity]. unfold bind. destruct (new_node c KConstruct e s n) as [y s1 n1|k s1 n1|]; [|reflexivity|reflexivity].
  destruct (emplace_equiv c y s1 n1) as [it s2 n2|k s2 n2|]; reflexivity.
Qed.
Lemma nit_points t l y it : TInv t l -> NIt (f_b t) y it -> points t it (el y).
Proof.
  intros T Ny. pose proof (ti_c _ _ _ T) as C. assert (In y l) as I by (destruct Ny as (p & J & _); apply (in_CInv c t l y p C J)). destruct (In_nth_error _ _ I) as (j & Ej). exists j. assert (j < length l) as Lj by (apply nth_error_Some; congruence).
  destruct (nth_it_ok t l j (ci_b _ _ _ C) (ci_ids _ _ _ C) (ti_size _ _ _ T) ltac:(lia)) as (it1 & E1 & P1). pose proof (pos_node _ _ _ _ _ P1 Ej) as N1.
  rewrite (NIt_inj _ l y it it1 (TInv_wf c t l y T I) (ci_ids _ _ _ C) Ny N1). split; [exact E1|]. rewrite (elems_inv c t l T), nth_error_map, Ej. reflexivity.
Qed.
Lemma f_insert_ok w i kf t h e n : there w i -> at_world w i (t, h) -> FcaWorld.room t 1 ->
  match f_insert c kf e (t, h) n with
  | Ret r s' _ => at_world w i s' /\ f_pid (fst s') = f_pid t /\ f_hid (fst s') = f_hid t /\
      exists x, points (fst s') (fst r) x /\ inserted (keqf cb) (multi c) (f_pid t) e (elems t) x (snd r) (elems (fst s')) /\ exists n1 v, exec1 c (Insert kf e) (t, h) n = Ret v s' n1
  | Exn k s' _ => at_world w i s' /\ f_pid (fst s') = f_pid t /\ f_hid (fst s') = f_hid t /\ raised k /\ exists lost, Permutation (elems t) (lost ++ elems (fst s')) /\ (k <> KHash -> lost = [])
  | Undef => False
  end.
Proof.
  intros T A Rm. pose proof (step_at w i t h (Insert kf e) n T A Rm) as Q. rewrite exec1_insert in *. pose proof (at_program w i _ T A) as H. cbn [fst snd] in H. destruct (prog_si c t h H) as (r & I). set (l := contents t) in *.
  pose proof (si_t _ _ _ _ I) as TI. cbn [fst] in TI. pose proof (ti_size _ _ _ TI) as Sz.
  assert (FcaIns2.room l 1) as Rm2. { unfold FcaWorld.room, FcaIns2.room, max_elems in *. rewrite Sz in Rm. lia. }
  assert ((N.of_nat (length l) + 1 < max_elems)%N) as Rm1. { unfold FcaWorld.room, max_elems in *. rewrite Sz in Rm. lia. }
  assert (match f_insert c kf e (t, h) n with
    | Ret r s' _ => exists l' y, TInv (fst s') l' /\ NIt (f_b (fst s')) y (fst r) /\ inserted (keqf cb) (multi c) (f_pid t) e (map el l) (el y) (snd r) (map el l')
    | Exn k s' _ => OpExn c r (t, h) l k s' | Undef => False end) as F.
  { unfold f_insert. destruct (multi c) eqn:Mu.
    - pose proof (emplace_fresh_equiv_ok c r (t, h) l KConstruct e n Mu I Rm2) as X. unfold bind in *. destruct (new_node c KConstruct e (t, h) n) as [y0 s1 n1|k s1 n1|]; cbn [outcome] in X; [|exact X|exact X].
      destruct (emplace_equiv c y0 s1 n1) as [it s2 n2|k s2 n2|]; cbn [outcome ret] in *; [|exact X|exact X]. destruct X as (y & E & Ny & [X _]).
      destruct (ins_new c r (t, h) l _ y it s2 I X Ny) as (l' & S' & _ & _ & N' & Ins); [rewrite Mu; reflexivity|]. rewrite E, Mu in Ins. exists l', y. split; [apply (si_t _ _ _ _ S')|]. split; [exact N'|exact Ins].
    - pose proof (emplace_unique_ok c r (t, h) l kf KConstruct e n I Rm1) as X. destruct (emplace_unique c kf KConstruct e (t, h) n) as [[it b] s2 n2|k s2 n2|]; cbn [outcome] in X; [|exact X|exact X].
      destruct (eu_post c r (t, h) l e it b s2 I Mu X) as (l' & y & S' & _ & _ & N' & Ins). rewrite Mu in Ins. exists l', y. cbn [fst snd]. split; [apply (si_t _ _ _ _ S')|]. split; [exact N'|exact Ins]. }
  unfold bind in Q |- *. destruct (f_insert c kf e (t, h) n) as [p s' n'|k s' n'|]; [| |exact F].
  - destruct F as (l' & y & T' & Ny & Ins). pose proof (nit_points (fst s') l' y (fst p) T' Ny) as Pt. pose proof (elems_inv c _ _ T') as El'. pose proof (elems_inv c _ _ TI) as El.
    destruct s' as [t' h']. cbn [fst snd] in *.
    assert (e_node (f_b t') (fst p) = Some y) as En.
    { destruct Ny as (q & J & ->). pose proof (in_CInv c t' l' y q (ti_c _ _ _ T') J) as Iy. apply (e_node_ok _ l' y); [apply (TInv_wf c t' l' y T' Iy)|apply (ci_ids _ _ _ (ti_c _ _ _ T'))|exists q; auto]. }
    unfold deref, bind, get_t, get, ret in *. cbn [fst] in *. unfold bind, get, ret in *. cbn [fst] in *. rewrite En in *. cbn [of_option] in *. unfold ret in *. destruct Q as (Q1 & _ & Q2 & Q3).
    split; [exact Q1|]. split; [exact Q2|]. split; [exact Q3|]. exists (el y). split; [exact Pt|]. split; [rewrite El, El'; exact Ins|]. eauto.
  - destruct Q as (Q1 & Q2 & Q3 & Q4 & Q5). split; [exact Q1|]. split; [exact Q3|]. split; [exact Q4|]. split; [exact Q5|]. cbn [FcaSpec.spec1] in Q2.
    destruct Q2 as [[N E]|(-> & lost & P)]; [exists []; rewrite E; split; [reflexivity|reflexivity]|exists lost; split; [exact P|intros X; contradiction]].
Qed.

(** *** loading *)
Definition feqv (p : N) (a b : K * V) : bool := negb (multi c) && keqf cb p (fst a) (fst b).
Definition vals t : list (K * V) := map snd (elems t).
Definition fwent (done : list (K * V)) (s : nat) (l : list (K * V)) (p : N) (r : load_result) (k : nat) : Prop :=
  match r with
  | Loaded => k = s /\ s <= length l
  | ReadFailed => k = length l /\ length l < s
  | BadArchive => k < s /\ exists e, nth_error l k = Some e /\ existsb (feqv p e) (done ++ firstn k l) = true
  end.
Lemma size_at w i s : there w i -> at_world w i s -> f_size (fst s) = N.of_nat (length (vals (fst s))).
Proof. intros T A. rewrite (size_ok c _ _ (at_program w i s T A)). unfold vals. rewrite map_length. reflexivity. Qed.
Lemma ins_true p (e : K * V) l x l' : inserted (keqf cb) (multi c) p e l x true l' -> snd x = e /\ Permutation l' (x :: l).
Proof. unfold inserted. destruct (if multi c then None else _); [intros (_ & D & _); discriminate|]. intros (A & _ & _ & B). auto. Qed.
Lemma ins_false p (e : K * V) l x l' : inserted (keqf cb) (multi c) p e l x false l' -> l' = l /\ existsb (feqv p e) (map snd l) = true.
Proof.
  unfold inserted, feqv. destruct (multi c); [intros (_ & D & _); discriminate|]. unfold FcaSpec.lookup. destruct (List.find (has (keqf cb) p (fst e)) l) as [y|] eqn:E; [|intros (_ & D & _); discriminate].
  intros (_ & _ & ->). split; [reflexivity|]. apply find_some in E as [I E]. apply existsb_exists. exists (snd y). split; [apply in_map; exact I|exact E].
Qed.
Lemma distinct_at w i s : there w i -> at_world w i s -> distinct (feqv (f_pid (fst s))) (vals (fst s)).
Proof.
  intros T A. pose proof (at_program w i s T A) as H. unfold distinct, feqv, vals. apply pairs_map. destruct (multi c) eqn:Mu; cbn [negb andb].
  - generalize (elems (fst s)). induction l as [|a l IH]; constructor; [|exact IH]. apply Forall_forall. reflexivity.
  - apply (unique_keys c _ _ H Mu).
Qed.
Lemma pid_sym w i s : there w i -> at_world w i s -> forall a b, feqv (f_pid (fst s)) a b = feqv (f_pid (fst s)) b a.
Proof. intros T A a b. unfold feqv. f_equal. pose proof (prog_inv c _ _ (at_program w i s T A)) as TI. destruct (ci_agree _ _ _ (ti_c _ _ _ TI)) as [(_ & S & _) _]. apply S. Qed.

Lemma f_items_ok w i kf : there w i -> forall s l tracked t h n done, at_world w i (t, h) -> Permutation (vals t) done -> (N.of_nat (length done + length l) < 2 ^ 53)%N ->
  match f_load_items c kf s l tracked (t, h) n with
  | Ret r s' _ => at_world w i s' /\ f_pid (fst s') = f_pid t /\ f_hid (fst s') = f_hid t /\ exists k, fwent done s l (f_pid t) (fst r) k /\ Permutation (vals (fst s')) (done ++ firstn k l)
  | Exn kd s' _ => at_world w i s' /\ f_pid (fst s') = f_pid t /\ f_hid (fst s') = f_hid t /\ raised kd /\
      exists k lost, k <= s /\ k <= length l /\ distinct (feqv (f_pid t)) (done ++ firstn k l) /\ Permutation (done ++ firstn k l) (lost ++ vals (fst s')) /\ (kd <> KHash -> lost = [])
  | Undef => False
  end.
Proof.
  intros T. induction s as [|s IH]; intros l tracked t h n done A P L; cbn [f_load_items].
  - cbn [ret fst snd]. do 3 (split; [auto|]). exists 0. cbn [fwent firstn]. rewrite app_nil_r. repeat split; auto; lia.
  - destruct l as [|e r].
    { cbn [ret fst snd]. do 3 (split; [auto|]). exists 0. cbn [fwent firstn length]. rewrite app_nil_r. repeat split; auto; lia. }
    cbn [length] in L. pose proof (size_at w i _ T A) as Sz. cbn [fst] in Sz. rewrite (Permutation_length P) in Sz.
    pose proof (f_insert_ok w i kf t h e n T A ltac:(unfold FcaWorld.room; lia)) as X. unfold bind. destruct (f_insert c kf e (t, h) n) as [[it b] s1 n1|kd s1 n1|]; [| |exact X].
    + destruct X as (A1 & Ep & Eh & x & _ & Ins & _). destruct s1 as [t1 h1]. cbn [fst snd] in *. destruct b.
      * destruct (ins_true _ _ _ _ _ Ins) as [Ev P1].
        assert (Permutation (vals t1) (done ++ [e])) as P2. { unfold vals in *. rewrite P1. cbn [map]. rewrite Ev, P. apply Permutation_cons_append. }
        specialize (IH r (tracked ++ [it]) t1 h1 n1 (done ++ [e]) A1 P2). rewrite app_length in IH. cbn [length] in IH. specialize (IH ltac:(lia)).
        destruct (f_load_items c kf s r (tracked ++ [it]) (t1, h1) n1) as [[r0 tr] s2 n2|kd s2 n2|]; [| |exact IH]; cbn [fst snd] in *.
        -- destruct IH as (A2 & Ep2 & Eh2 & k & W & P3). split; [exact A2|]. split; [congruence|]. split; [congruence|]. exists (S k). cbn [firstn]. change (e :: firstn k r) with ([e] ++ firstn k r). rewrite app_assoc. split; [|exact P3].
           rewrite Ep in W. clear - W. destruct r0; cbn [fwent length nth_error firstn] in *; [lia| |lia]. destruct W as (W1 & y & W2 & W3). split; [lia|]. exists y. split; [exact W2|]. change (e :: firstn k r) with ([e] ++ firstn k r). rewrite app_assoc. exact W3.
        -- destruct IH as (A2 & Ep2 & Eh2 & R & k & lost & K1 & K2 & D3 & P3 & Hl). rewrite Ep in D3. split; [exact A2|]. split; [congruence|]. split; [congruence|]. split; [exact R|]. exists (S k), lost. cbn [firstn length].
           change (e :: firstn k r) with ([e] ++ firstn k r). rewrite app_assoc. repeat split; auto; lia.
      * destruct (ins_false _ _ _ _ _ Ins) as [El Ex]. cbn [ret fst snd]. split; [exact A1|]. split; [exact Ep|]. split; [exact Eh|]. exists 0. cbn [firstn fwent nth_error]. rewrite app_nil_r. split.
        -- split; [lia|]. exists e. split; [reflexivity|]. apply existsb_exists in Ex as (y & Hy & Ey). apply existsb_exists. exists y. split; [|exact Ey]. eapply Permutation_in; [exact P|exact Hy].
        -- unfold vals in *. rewrite El. exact P.
    + destruct X as (A1 & Ep & Eh & R & lost & P1 & Hl). do 3 (split; [assumption|]). split; [exact R|]. exists 0, (map snd lost). cbn [firstn]. rewrite app_nil_r. split; [lia|]. split; [lia|]. split; [apply (distinct_perm _ (pid_sym w i _ T A) _ _ P), (distinct_at w i _ T A)|]. split.
      * rewrite <- P. unfold vals. rewrite P1, map_app. reflexivity.
      * intros N. rewrite (Hl N). reflexivity.
Qed.
Lemma clear_at w i t h n : there w i -> at_world w i (t, h) ->
  match clear (t, h) n with Ret _ s' _ => at_world w i s' /\ f_pid (fst s') = f_pid t /\ f_hid (fst s') = f_hid t /\ vals (fst s') = [] /\ f_size (fst s') = 0%N | _ => False end.
Proof.
  intros T A. pose proof (step_at w i t h Clear n T A Logic.I) as Q. pose proof (prog_si c t h (at_program w i _ T A)) as (r & I).
  pose proof (clear_ok c r (t, h) (contents t) n (fun _ _ => False) I) as C. cbn [exec1] in Q. unfold bind in Q. destruct (clear (t, h) n) as [u s' n'|k s' n'|]; cbn [outcome] in C; [|exact C|exact C]. cbn [ret] in Q.
  destruct Q as (A1 & S1 & Ep & Eh). cbn [FcaSpec.spec1] in S1. do 3 (split; [assumption|]). split; [unfold vals; rewrite S1; reflexivity|]. rewrite (size_at w i s' T A1). unfold vals. rewrite S1. reflexivity.
Qed.
Lemma reserve_at w i t h m n : there w i -> at_world w i (t, h) ->
  match reserve c m (t, h) n with
  | Ret _ s' _ => at_world w i s' /\ f_pid (fst s') = f_pid t /\ f_hid (fst s') = f_hid t /\ Permutation (vals (fst s')) (vals t) /\ f_size (fst s') = f_size t /\ f_mlf (fst s') = f_mlf t /\
      exists b, bucket_count_for (min_buckets m (f_mlf t)) = Some b /\ (b <= bucket_count (f_b (fst s')))%N
  | Exn kd s' _ => at_world w i s' /\ f_pid (fst s') = f_pid t /\ f_hid (fst s') = f_hid t /\ raised kd /\ exists lost, Permutation (vals t) (lost ++ vals (fst s')) /\ (kd <> KHash -> lost = [])
  | Undef => False
  end.
Proof.
  intros T A. pose proof (step_at w i t h (Reserve m) n T A Logic.I) as Q. assert (exec1 c (Reserve m) (t, h) n = match reserve c m (t, h) n with Ret _ s' n' => Ret VUnit s' n' | Exn k s' n' => Exn k s' n' | Undef => Undef end) as E by reflexivity.
  pose proof (rehash_done c t h (min_buckets m (f_mlf t)) n) as D. rewrite <- reserve_is_rehash, E in D. rewrite E in Q. destruct (reserve c m (t, h) n) as [u s' n'|k s' n'|]; [| |exact Q].
  - destruct (D _ _ _ (at_program w i _ T A) eq_refl) as (_ & P & Em & Es & B). destruct Q as (A1 & _ & Ep & Eh). do 3 (split; [assumption|]). split; [unfold vals; rewrite P; reflexivity|]. split; [exact Es|]. split; [exact Em|].
    destruct (bcf_ok (min_buckets m (f_mlf t))) as (b & Eb & _). exists b. split; [exact Eb|]. apply (bcf_mono _ _ _ _ Eb B). lia.
  - destruct Q as (A1 & S & Ep & Eh & R). do 3 (split; [assumption|]). split; [exact R|]. cbn [FcaSpec.spec1] in S. destruct S as [[-> El]|(-> & lost & P)].
    + exists []. unfold vals. rewrite El. split; [reflexivity|reflexivity].
    + exists (map snd lost). split; [unfold vals; rewrite P, map_app; reflexivity|contradiction].
Qed.
Lemma f_load_ok w i kf t h a n : there w i -> at_world w i (t, h) -> (N.of_nat (length (items a)) < 2 ^ 53)%N ->
  match f_load c kf a (t, h) n with
  | Ret r s' _ => at_world w i s' /\ f_pid (fst s') = f_pid t /\ f_hid (fst s') = f_hid t /\ loaded (feqv (f_pid t)) a (fst r) (vals (fst s'))
  | Exn kd s' _ => at_world w i s' /\ f_pid (fst s') = f_pid t /\ f_hid (fst s') = f_hid t /\ raised kd /\
      exists lost, interrupted (feqv (f_pid t)) a (lost ++ vals (fst s')) /\ (kd <> KHash -> lost = [])
  | Undef => False
  end.
Proof.
  intros T A L. unfold f_load, bind. pose proof (clear_at w i t h n T A) as C. destruct (clear (t, h) n) as [u [t1 h1] n1|k s1 n1|]; [|destruct C|destruct C]. destruct C as (A1 & Ep1 & Eh1 & V1 & _). cbn [fst] in *.
  pose proof (reserve_at w i t1 h1 (count a) n1 T A1) as Rv. destruct (reserve c (count a) (t1, h1) n1) as [u2 [t2 h2] n2|k s2 n2|]; [| |exact Rv]; cbn [fst] in *.
  2:{ destruct Rv as (A2 & Ep2 & Eh2 & R & lost & P & Hl). split; [exact A2|]. split; [congruence|]. split; [congruence|]. split; [exact R|]. rewrite V1 in P. apply Permutation_nil in P. exists lost. split; [|exact Hl]. rewrite P.
      exists [], (items a). repeat split; [cbn; lia|constructor|reflexivity]. }
  destruct Rv as (A2 & Ep2 & Eh2 & P2 & _). rewrite V1 in P2.
  pose proof (f_items_ok w i kf T (N.to_nat (count a)) (items a) [] t2 h2 n2 [] A2 P2 L) as Q.
  destruct (f_load_items c kf (N.to_nat (count a)) (items a) [] (t2, h2) n2) as [[r tr] s3 n3|kd s3 n3|]; [| |exact Q]; cbn [fst app] in *.
  - destruct Q as (A3 & Ep3 & Eh3 & k & W & P). split; [exact A3|]. assert (f_pid (fst s3) = f_pid t) as Ep by congruence. split; [exact Ep|]. split; [congruence|].
    pose proof (distinct_at w i s3 T A3) as D. pose proof (pid_sym w i s3 T A3) as Sy. rewrite Ep in D, Sy. apply (distinct_perm _ Sy _ _ P) in D. replace (f_pid t2) with (f_pid t) in W by congruence.
    destruct r; cbn [fwent loaded app] in *.
    + destruct W as [-> W]. auto.
    + destruct W as (W1 & e & W2 & W3). apply nth_error_split in W2 as (l1 & l2 & E2 & Lk). exists l1, e, l2. rewrite E2 in *. rewrite <- Lk, firstn_app, Nat.sub_diag, firstn_all in *. cbn [firstn] in *. rewrite app_nil_r in *. repeat split; auto.
    + destruct W as [-> W]. rewrite firstn_all in *. auto.
  - destruct Q as (A3 & Ep3 & Eh3 & R & k & lost & K1 & K2 & D & P & Hl). split; [exact A3|]. split; [congruence|]. split; [congruence|]. split; [exact R|]. exists lost. split; [|exact Hl].
    exists (firstn k (items a)), (skipn k (items a)). split; [symmetry; apply firstn_skipn|]. split; [rewrite firstn_length; lia|]. split; [|symmetry; exact P].
    replace (f_pid t) with (f_pid t2) by congruence. exact D.
Qed.

(** saving *)
Lemma f_save_ok w i t h n : there w i -> at_world w i (t, h) -> f_save t (t, h) n = Ret (Archive (f_size t) (vals t)) (t, h) n.
Proof.
  intros T A. pose proof (prog_inv c t h (at_program w i _ T A)) as TI. unfold f_save, bind, vals, elems, look, contents.
  rewrite (elements_ok t (contents t) (ci_b _ _ _ (ti_c _ _ _ TI)) (ci_ids _ _ _ (ti_c _ _ _ TI)) (ti_size _ _ _ TI)). cbn [of_option ret v_elems]. rewrite !map_map. reflexivity.
Qed.
End Serial.

(** *** the tracked positions *)
Section Track.
Context {K V : Type} (c : FCfg K V).
Notation table := (FcaModel.table K V).
Implicit Types (t : table).
Notation at_world := (at_world c (no_new_arena c)).
Lemma arena_on : forall i (o : op1 K V) w, no_new_arena c (On i o) w. Proof. intros i o w. exact I. Qed.
Lemma at_arena w i s : there w i -> at_world w i s -> in_program_arena c (fst s) (snd s).
Proof. intros T (rs & R). exists rs. eexists. exists i. split; [exact R|]. split; [apply put_there; exact T|reflexivity]. Qed.
Definition tracks t (it : eit) (e : K * V) : Prop := exists x, points t it x /\ snd x = e.
Lemma points_stay t t' h h' it x : in_program c t h -> in_program c t' h' -> f_hid t' = f_hid t -> bucket_count (f_b t') = bucket_count (f_b t) -> In x (elems t') -> points t it x -> points t' it x.
Proof. intros H H' Eh Eb I (j & A & B). destruct (iterators_stay c t t' h h' x j it H H' Eh Eb A B I) as (j' & A' & B'). exists j'. auto. Qed.
Lemma items_tracked w i kf (m : nat) b : there w i -> forall s l tracked t h n done, at_world w i (t, h) -> Permutation (vals t) done -> (N.of_nat (length done + length l) < 2 ^ 53)%N -> (length done + s <= m)%nat ->
  bucket_count_for (min_buckets (N.of_nat m) (f_mlf t)) = Some b -> (b <= bucket_count (f_b t))%N -> Forall2 (tracks t) tracked done ->
  match f_load_items c kf s l tracked (t, h) n with
  | Ret r s' _ => fst r = Loaded -> bucket_count (f_b (fst s')) = bucket_count (f_b t) /\ Forall2 (tracks (fst s')) (snd r) (done ++ firstn s l)
  | _ => True
  end.
Proof.
  intros T. induction s as [|s IH]; intros l tracked t h n done A P L Ln Eb Lb F; cbn [f_load_items].
  - cbn [ret fst snd firstn]. rewrite app_nil_r. auto.
  - destruct l as [|e r]; [cbn [ret fst snd]; discriminate|]. cbn [length] in L. pose proof (size_at c _ w i _ T A) as Sz. cbn [fst] in Sz. rewrite (Permutation_length P) in Sz.
    assert (FcaWorld.room t 1) as Rm by (unfold FcaWorld.room; lia).
    pose proof (f_insert_ok c _ arena_on w i kf t h e n T A Rm) as X. unfold bind. destruct (f_insert c kf e (t, h) n) as [[it bo] s1 n1|kd s1 n1|]; [|exact I|exact I].
    destruct X as (A1 & Ep & Eh & x & Px & Ins & n2 & v & Ex). destruct s1 as [t1 h1]. cbn [fst snd] in *. destruct bo; [|cbn [ret fst]; discriminate].
    destruct (ins_true c _ _ _ _ _ Ins) as [Ev P1]. pose proof (at_arena w i _ T A) as Ar. cbn [fst snd] in Ar.
    assert (Permutation (vals t1) (done ++ [e])) as P2. { unfold vals in *. rewrite P1. cbn [map]. rewrite Ev, P. apply Permutation_cons_append. }
    destruct (insert_bc c t h (Insert kf e) n v (t1, h1) n2 Ar Rm I Ex) as [_ Bc]. cbn [fst] in Bc. assert (f_size t + 1 <= N.of_nat m)%N as Le by (clear - Sz Ln; lia). specialize (Bc (N.of_nat m) b Le Eb Lb).
    pose proof (size_at c _ w i _ T A1) as Sz1. cbn [fst] in Sz1. rewrite (Permutation_length P2), app_length in Sz1. cbn [length] in Sz1.
    pose proof (at_program c _ w i _ T A) as H0. cbn [fst snd] in H0. destruct (insert_frame c t h (Insert kf e) n v (t1, h1) n2 H0 Rm I Ex) as [Em _]. cbn [fst] in Em.
    specialize (IH r (tracked ++ [it]) t1 h1 n1 (done ++ [e]) A1 P2). rewrite app_length in IH. cbn [length] in IH. assert (N.of_nat (length done + 1 + length r) < 2 ^ 53)%N as L' by (replace (length done + 1 + length r)%nat with (length done + S (length r))%nat by (clear; lia); exact L). assert (length done + 1 + s <= m)%nat as Ln' by (clear - Ln; lia).
    specialize (IH L' Ln'). rewrite Em in IH. specialize (IH Eb ltac:(rewrite Bc; exact Lb)).
    assert (Forall2 (tracks t1) (tracked ++ [it]) (done ++ [e])) as F1.
    { apply Forall2_app; [|repeat constructor; exists x; auto]. pose proof (at_program c _ w i _ T A) as H. pose proof (at_program c _ w i _ T A1) as H1. cbn [fst snd] in H, H1. clear - F P1 H H1 Eh Bc.
      induction F as [|it0 e0 its es Q F IHF]; constructor; [|exact IHF]. destruct Q as (y & Py & Ey). exists y. split; [|exact Ey]. eapply points_stay; [exact H|exact H1|exact Eh|exact Bc| |exact Py].
      eapply Permutation_in; [symmetry; exact P1|]. right. destruct Py as (j & _ & Ej). eapply nth_error_In. exact Ej. }
    specialize (IH F1). destruct (f_load_items c kf s r (tracked ++ [it]) (t1, h1) n1) as [[r0 tr] s2 n3|kd s2 n3|]; [|exact I|exact I]. cbn [fst snd firstn] in *. intros E0. destruct (IH E0) as [B1 F2]. split; [congruence|].
    change (e :: firstn s r) with ([e] ++ firstn s r). rewrite app_assoc. exact F2.
Qed.
Lemma load_tracked w i kf t h a n : there w i -> at_world w i (t, h) -> (N.of_nat (length (items a)) < 2 ^ 53)%N ->
  match f_load c kf a (t, h) n with
  | Ret r s' _ => fst r = Loaded -> Forall2 (tracks (fst s')) (snd r) (firstn (N.to_nat (count a)) (items a))
  | _ => True
  end.
Proof.
  intros T A L. unfold f_load, bind. pose proof (clear_at c _ arena_on w i t h n T A) as C. destruct (clear (t, h) n) as [u [t1 h1] n1|k s1 n1|]; [|exact I|exact I]. destruct C as (A1 & Ep1 & Eh1 & V1 & _). cbn [fst] in *.
  pose proof (reserve_at c _ arena_on w i t1 h1 (count a) n1 T A1) as Rv. destruct (reserve c (count a) (t1, h1) n1) as [u2 [t2 h2] n2|k s2 n2|]; [|exact I|exact I]; cbn [fst] in *.
  destruct Rv as (A2 & Ep2 & Eh2 & P2 & _ & Em & b & Eb & Lb). rewrite V1 in P2. rewrite <- Em in Eb.
  pose proof (items_tracked w i kf (N.to_nat (count a)) b T (N.to_nat (count a)) (items a) [] t2 h2 n2 [] A2 P2 L ltac:(cbn; lia)) as Q. rewrite N2Nat.id in Q. specialize (Q Eb Lb (Forall2_nil _)).
  destruct (f_load_items c kf (N.to_nat (count a)) (items a) [] (t2, h2) n2) as [[r tr] s3 n3|kd s3 n3|]; [|exact I|exact I]. intros E0. apply (Q E0).
Qed.
End Track.
