(** C40: visit(first,last,f). The machine is that of ConcBulkModel.v: threads making bulk calls run with any number of threads making all other calls.
    [bruns c n nb es BC]: n threads of ConcModel, nb making bulk calls. In an event [BCall u d x keys ts], [keys] are the keys of the range, with what the
    function does when called for each; the lookup of the j-th key is shown, in the events of ConcModel, as one by thread [nth j ts]. *)
From Coq Require Import NArith Bool List Arith Lia Permutation.
From Verif Require Properties_Conc.
From Verif Require Import SizeModel GroupModel FoaModel FoaArr FoaSpec FoaWorld FoaExamples ConcSpec ConcModel ConcInv ConcSys ConcVisit ConcProgress ConcFound ConcExec ConcWrap ConcExamples
  ConcBulkSpec ConcBulkModel ConcBulk ConcBulk3 ConcBulk5 ConcBulk6 ConcBulkExec.
Import ListNotations.
Local Open Scope N_scope.

Section P.
Context {K V : Type} (c : Cfg K V).
Hypothesis HC : good_cfg c.
Notation stored := Properties_Conc.stored. Notation holds := Properties_Conc.holds.
Notation bconf := (@bconf K V). Notation bcall := (@bcall K V).

(** the lookups of the keys of a range are lookups of ConcModel: all theorems of Properties_Conc.v hold of the executions with bulk calls *)
Theorem C40_is_a_run : forall n nb es BC, bruns c n nb es BC -> runs_with c counters_fit n (plain es) (bc BC).
Proof. intros n nb es BC R. apply (breach c HC _ _ _ _ R). Qed.
(** in particular every key is looked up atomically, between the call and the return *)
Theorem C40_keys_are_looked_up_atomically : forall n nb es BC, bruns c n nb es BC -> atomic_history (keqf c) (moves c) (filter visible (plain es)).
Proof. intros n nb es BC R. eapply Properties_Conc.C36_linearizable; [exact HC|eapply C40_is_a_run; exact R]. Qed.
(** a call that returns has looked up every key of the range once, whatever its length; it returns the number of keys found. If it throws, the keys up to that
    for which the exception was thrown have been looked up *)
Theorem C40_every_key_once : forall n nb es0 BC0 u d x keys ts ev1 BC1 tr BC r ev2 BC2, bruns c n nb es0 BC0 ->
  bstep c BC0 (By u) ev1 BC1 -> In (BCall u d x keys ts) ev1 -> counters_fit (bc BC1) ->
  bsteps c BC1 tr BC -> (forall r, ~ In (BRet u r) tr) -> bstep c BC (By u) ev2 BC2 -> In (BRet u r) ev2 ->
  ev1 = BCall u d x keys ts :: map (fun y => BPlain (ECall (fst y) (OnC d (Point (PVisit x (fst (snd y)) (snd (snd y))))))) (combine ts keys) /\
  NoDup ts /\ length ts = length keys /\
  (forall t a, In t ts -> ~ In (BPlain (ECall t a)) tr) /\
  exists rs, length rs = length keys /\ ev2 = BRet u r :: map (fun y => BPlain (ERet (fst y) (AnsC (snd y)))) (combine ts rs) /\
  match r with
  | Some m => Forall no_throw rs /\ m = how_many rs
  | None => exists rs1 k, rs = rs1 ++ repeat RThrew k /\ Forall no_throw rs1
  end.
Proof.
  intros n nb es0 BC0 u d x keys ts ev1 BC1 tr BC r ev2 BC2 R S1 I1 F H Nr S2 I2. destruct (call_inv c _ _ _ _ _ _ _ _ S1 I1) as (s & Hb & L & ND & Hi & E1 & Hn). cbn zeta in E1.
  split. { clear - S1 I1. assert (forall e : option (event K V), ~ In (BCall u d x keys ts) (opt_ev e)) as No by (intros [e|] Hi; [destruct Hi as [Hi|[]]; discriminate Hi|exact Hi]).
    inversion S1; subst; try (destruct (No _ I1)); try (destruct I1).
    - match goal with E : BCall _ _ _ _ _ = _ |- _ => injection E as -> -> -> -> end. reflexivity.
    - exfalso. match goal with Hx : In _ (map _ _) |- _ => apply in_map_iff in Hx as (? & Hx & _); discriminate Hx end.
    - exfalso. match goal with Hx : In _ (give_up_events _ _) |- _ => unfold give_up_events in Hx; apply in_flat_map in Hx as ([t1 l1] & _ & Hx); cbn [fst snd] in Hx; destruct l1; try contradiction Hx; destruct Hx as [Hx|[]]; discriminate Hx end.
    - discriminate.
    - exfalso. match goal with Hx : In _ (map _ _) |- _ => apply in_map_iff in Hx as (? & Hx & _); discriminate Hx end. }
  split; [exact ND|]. split; [exact L|]. set (b := BCallOf d x keys ts BWaiting) in *.
  pose proof (br_snoc c _ _ _ _ _ _ _ R S1 F) as R1.
  assert (nth_error (bulks BC1) u = Some (Some b)) as Hu1 by (rewrite E1; cbn [set_b bulks]; eapply self_err; exact Hn).
  destruct (active_steps c HC _ _ _ _ _ _ u b R1 H Hu1 Nr) as (Nret & b' & Hu' & (D1 & D2 & D3 & D4)). cbn [b b_d b_x b_keys b_ts] in *. split.
  - intros t a Ht Hin. pose proof (bsteps_gsteps c HC _ _ _ _ _ _ R1 H) as Gs. apply breach in R1 as (_ & I & _); [|exact HC].
    destruct (owned_key BC1 u b t I Hu1 Ht) as (j & l & kf & _ & _ & Hat).
    assert (In (ECall t a) (plain tr)) as Hp by (unfold plain; apply in_flat_map; exists (BPlain (ECall t a)); split; [exact Hin|left; reflexivity]).
    specialize (Nret t). specialize (fun x => Nret x Ht). clear - Gs Hat Hp Nret.
    assert ((exists l', nth_error (th (bc BC)) t = Some (ConcModel.At (b_d b) (key_op (b_x b) kf) l')) /\ ~ In (ECall t a) (plain tr)) as [_ X]; [|exact (X Hp)]. clear Hp.
    induction Gs as [|es C1 e C2 G IH St _]; [split; [eauto|intros []]|]. destruct IH as [[l' IH1] IH2]; [intros y Hy; apply (Nret y), in_or_app; auto|].
    split; [eapply stays_at; [exact St|exact IH1|intros y ->; apply (Nret y), in_or_app; right; left; reflexivity]|].
    intros Hy. apply in_app_or in Hy as [Hy|Hy]; [exact (IH2 Hy)|]. destruct e as [e|]; [|exact Hy]. destruct Hy as [->|[]]. inversion St; subst; try congruence. destruct a0; discriminate.
  - destruct (results c HC _ _ _ _ _ _ _ _ (bruns_trans c _ _ _ _ _ _ R1 H) S2 I2) as (b2 & rs & Hu2 & Ev & Lr & L2 & Hres). assert (b2 = b') by congruence. subst b2.
    exists rs. rewrite D3 in Lr. rewrite D4 in Ev. auto.
Qed.
(** if no other call takes effect meanwhile, the results and the contents are those of visit(k,f) for the successive keys k *)
Theorem C40_like_single_visits : forall n nb es0 BC0 u d x keys ts ev1 BC1 tr BC r ev2 BC2 s, bruns c n nb es0 BC0 ->
  bstep c BC0 (By u) ev1 BC1 -> In (BCall u d x keys ts) ev1 -> counters_fit (bc BC1) ->
  bsteps c BC1 tr BC -> (forall r, ~ In (BRet u r) tr) -> (forall t a, In (BPlain (ELin t a)) tr -> In t ts) ->
  bstep c BC (By u) ev2 BC2 -> In (BRet u r) ev2 -> holds (bc BC0) d s ->
  exists s' rs k, holds (bc BC) d s' /\ length (rs ++ repeat RThrew k) = length keys /\
  ev2 = BRet u r :: map (fun y => BPlain (ERet (fst y) (AnsC (snd y)))) (combine ts (rs ++ repeat RThrew k)) /\
  match r with
  | Some m => k = 0%nat /\ m = how_many rs /\ Forall no_throw rs /\
      in_turn (keqf c) (moves c) (pid (tb s)) x keys rs (stored s) (stored s')
  | None => k <> 0%nat /\ Forall no_throw rs /\ exists l1,
      in_turn (keqf c) (moves c) (pid (tb s)) x (firstn (length rs) keys) rs (stored s) l1 /\
      (Permutation l1 (stored s') \/
       exists kf e, nth_error keys (length rs) = Some kf /\ called (keqf c) (pid (tb s)) (fst kf) x (snd kf) e None l1 (stored s'))
  end.
Proof.
  intros n nb es0 BC0 u d x keys ts ev1 BC1 tr BC r ev2 BC2 s R S1 I1 F H Nr Hl S2 I2 Hs.
  destruct (visits_in_turn c HC _ _ _ _ _ _ _ _ _ _ _ _ _ _ _ _ s R S1 I1 F H Nr Hl S2 I2 (Properties_Conc.holds_box _ _ _ Hs)) as (s' & rs & k & E1 & _ & E2 & E3 & E4).
  exists s', rs, k. split; [|split; [exact E3|split; [exact E2|]]].
  - unfold holds, box in *. destruct (nth_error (boxes (bc BC)) d) as [[z|]|]; congruence.
  - destruct r as [m|]; [|exact E4]. destruct E4 as (A & B & C & D). auto.
Qed.
(** a bulk call never holds the lock of more than one group *)
Theorem C40_one_lock : forall n nb es BC u b t t' d d' o o' l l' g g' x x', bruns c n nb es BC -> nth_error (bulks BC) u = Some (Some b) -> In t (b_ts b) -> In t' (b_ts b) ->
  nth_error (th (bc BC)) t = Some (ConcModel.At d o l) -> lock_of o l = Some (g, x) ->
  nth_error (th (bc BC)) t' = Some (ConcModel.At d' o' l') -> lock_of o' l' = Some (g', x') -> t = t'.
Proof. intros n nb es BC u b t t' d d' o o' l l' g g' x x' R Hu T1 T2 H1 L1 H2 L2. eapply (one_lock c HC n nb es BC u b); eauto 9. Qed.
(** while a call, bulk or not, is in progress, some thread can make a step of its own call *)
Theorem C40_no_deadlock : forall n nb es BC, bruns c n nb es BC ->
  (exists u b, nth_error (bulks BC) u = Some (Some b)) \/ (exists t d o l, nth_error (th (bc BC)) t = Some (ConcModel.At d o l)) ->
  (exists u b ev BC', nth_error (bulks BC) u = Some (Some b) /\ bstep c BC (By u) ev BC') \/
  (exists t d o l ev BC', ~ owned (bulks BC) t /\ nth_error (th (bc BC)) t = Some (ConcModel.At d o l) /\ bstep c BC Other ev BC' /\
    nth_error (th (bc BC')) t <> Some (ConcModel.At d o l)).
Proof. intros n nb es BC R H. exact (no_deadlock c HC n nb es BC R H). Qed.
(** the local arrays of a chunk (l.1349-1352) have 2*bulk_visit_size-1 entries: no access is out of bounds, and no chunk goes past the end of the range *)
Theorem C40_chunk_fits : forall n nb es BC u b first m ph i res, bruns c n nb es BC -> nth_error (bulks BC) u = Some (Some b) -> b_st b = BRun first m ph i res ->
  (i <= m)%nat /\ (m <= 31)%nat /\ (first + m <= length (b_keys b))%nat.
Proof. intros n nb es BC u b first m ph i res R Hu Hs. exact (chunk_fits c HC n nb es BC u b first m ph i res R Hu Hs). Qed.

(** *** C38: a lookup finds an element that is there during the whole call, whatever other threads do *)
Theorem C38_present_is_found : forall n es0 C0 t d o k C1 p es C r C', runs_with c counters_fit n es0 C0 -> ((exists x f, o = PVisit x k f) \/ exists f, o = PErase k f) ->
  gstep c C0 (Some (ECall t (OnC d (Point o)))) C1 -> steps c (fun C => counters_fit C /\ present c C d p k) C1 es C -> (forall a, ~ In (ERet t a) es) ->
  gstep c C (Some (ERet t (AnsC r))) C' -> r <> RNone.
Proof.
  intros n es0 C0 t d o k C1 p es C r C' R Ho S1 H Ne S2 ->.
  assert (counters_fit C1) as F1 by (clear - H; induction H as [X|? ? ? ? ? IH]; [apply X|exact IH]).
  pose proof (r_snoc c counters_fit n es0 C0 _ C1 R S1 F1) as R1.
  assert (nth_error (th C1) t = Some (ConcModel.At d (Point o) LEnter)) as Ht1.
  { remember (Some (ECall t (OnC d (Point o)))) as ev eqn:Ev. destruct S1; try discriminate Ev; [|destruct a; discriminate Ev]. injection Ev as -> -> ->. cbn [set_th th]. eapply self_err. eassumption. }
  assert (exists l', nth_error (th C) t = Some (ConcModel.At d (Point o) l')) as [l' Ht].
  { clear - H Ne Ht1. induction H as [_|es C2 e C3 H IH S3 _]; [eauto|]. destruct IH as [l' IH]; [intros a Ha; apply (Ne a), in_or_app; auto|].
    eapply stays_at; [exact S3|exact IH|intros a ->; apply (Ne a), in_or_app; right; left; reflexivity]. }
  assert (pkey o = k /\ emplaces o = false) as [Ek Em] by (destruct Ho as [(x & f & ->)|(f & ->)]; split; reflexivity).
  rewrite <- Ek in H. apply (present_found c HC n _ C1 t d o p es C R1 Ht1 Em H Ne).
  remember (Some (ERet t (AnsC RNone))) as ev eqn:Ev. destruct S2; try discriminate Ev; [destruct a; discriminate Ev|]. injection Ev as -> ->. congruence.
Qed.
End P.
(** thread 1 erases key 7, which precedes key 5 in their group, while thread 0 visits key 5 *)
Definition find5 : cop N N := Point (PVisit true 5 (fun e => (snd e + 1, Some true))).
Definition in_scan (l : @loc N N) := match l with LScan _ (_ :: _) _ => true | _ => false end.
Definition f1 := then_ (MCall 0 0 find5) ([], ex1).
Definition f2 := until 0 never (do_call 1 (era1 7) (until 0 in_scan f1)).
Definition f2_events : list (event N N) := Eval vm_compute in match play nothrow false both (tl (fst f2)) (snd f1) with Some (es, _) => es | None => [] end.
Example C38_case : exists C', runs_with wcfg counters_fit 3 e1 ex1 /\ gstep wcfg ex1 (Some (ECall 0 (OnC 0 find5))) (snd f1) /\
  steps wcfg (fun C => counters_fit C /\ present wcfg C 0 0 5) (snd f1) f2_events (snd f2) /\ In (ERet 1 (AnsC (RErased (7, 107)))) f2_events /\
  gstep wcfg (snd f2) (Some (ERet 0 (AnsC (RSeen (5, 105))))) C'.
Proof.
  eexists. split; [exact ex1_runs|]. split; [apply (do_move_ok nothrow false (MCall 0 0 find5)); vm_compute; reflexivity|].
  split; [apply (play_steps nothrow false both _ both_ok (tl (fst f2)) (snd f1) [] (snd f1)); [apply st_nil, both_ok; vm_compute; reflexivity|vm_compute; reflexivity]|].
  split; [vm_compute; auto 10|]. apply (do_move_ok nothrow false (MRet 0)). vm_compute. reflexivity.
Qed.

(** A concrete run. Keys 5 and 7 are inserted, with values 105 and 107; then a call looks up the 40 keys 0, ..., 39, in two chunks (16 and 24 keys), with a function
    that adds 1 to the value. Threads 2 to 41 stand for the keys. *)
Definition plus1 : ufun N N := fun e => (snd e + 1, Some true).
Definition forty : list (N * ufun N N) := map (fun i => (N.of_nat i, plus1)) (seq 0 40).
Definition bk0 := do_call 1 (ins1 7) (do_call 0 (ins1 5) (then_ (MRet 0) (then_ (MWhole 0 0) (then_ (MWCall 0 (New 1 0 0 10)) ([], start 42))))).
Definition bk0_events : list (event N N) := Eval vm_compute in match play nothrow false fitb (fst bk0) (start 42) with Some (es, _) => es | None => [] end.
Definition bk0_conf : @conf N N := Eval vm_compute in snd bk0.
Definition forty_call : @bcall N N := BCallOf 0 true forty (seq 2 40) BWaiting.
Definition bk1 : @bconf N N := set_b (BConf bk0_conf [None]) (place bk0_conf (seq 2 40) (all_at forty_call (repeat LEnter 40))) 0 (Some forty_call).
Definition is_out (st : bstate) : bool := match st with BOut _ => true | _ => false end.
Definition in_second (st : bstate) : bool := match st with BRun (S _) 24 Visiting 3 _ => true | _ => false end.
Definition fuel : nat := N.to_nat 10000.
Definition bk2 := Eval vm_compute in brun nothrow false fuel 0 is_out bk1 [].
Notation stored := Properties_Conc.stored. Notation holds := Properties_Conc.holds.
Definition bk1b := Eval vm_compute in brun nothrow false fuel 0 in_second bk1 [].
Definition bk2_conf : @bconf N N := Eval vm_compute in match bk2 with Some (_, BC) => BC | None => bk1 end.
Definition forty_found : list (event N N) := [ELin 7 (APoint (RSeen (5, 105))); ELin 9 (APoint (RSeen (7, 107)))].
Definition forty_results : list (cres N N) := repeat RNone 5 ++ [RSeen (5, 105); RNone; RSeen (7, 107)] ++ repeat RNone 32.
Lemma bk2_eq : brun nothrow false fuel 0 is_out bk1 [] = Some (map BPlain forty_found, bk2_conf).
Proof. vm_cast_no_check (eq_refl (Some (map (@BPlain N N) forty_found, bk2_conf))). Qed.
Lemma bk1b_eq : brun nothrow false fuel 0 in_second bk1 [] = bk1b.
Proof. vm_cast_no_check (eq_refl bk1b). Qed.
Example C40_example : exists ev1 ev2 BC2 s s',
  bruns wcfg 42 1 (map BPlain bk0_events) (BConf bk0_conf [None]) /\
  bstep wcfg (BConf bk0_conf [None]) (By 0) ev1 bk1 /\ In (BCall 0 0 true forty (seq 2 40)) ev1 /\ counters_fit (bc bk1) /\
  bsteps wcfg bk1 (map BPlain forty_found) bk2_conf /\ (forall t a, In (BPlain (ELin t a)) (map BPlain forty_found) -> In t (seq 2 40)) /\
  bstep wcfg bk2_conf (By 0) ev2 BC2 /\ In (BRet 0 (Some 2%nat)) ev2 /\
  ev2 = BRet 0 (Some 2%nat) :: map (fun y => BPlain (ERet (fst y) (AnsC (snd y)))) (combine (seq 2 40) forty_results) /\
  holds bk0_conf 0 s /\ Permutation (stored s) [(5, 105); (7, 107)] /\ holds (bc bk2_conf) 0 s' /\ Permutation (stored s') [(5, 106); (7, 108)] /\
  (* while it runs *)
  (exists es BC b, bruns wcfg 42 1 es BC /\ nth_error (bulks BC) 0 = Some (Some b) /\ b_st b = BRun 16 24 Visiting 3 2).
Proof.
  assert (bruns wcfg 42 1 (map BPlain bk0_events) (BConf bk0_conf [None])) as R0.
  { apply (plain_runs nothrow false 42 1 bk0_events bk0_conf). apply (played nothrow false 42 (fst bk0)); vm_compute; reflexivity. }
  assert (bstep wcfg (BConf bk0_conf [None]) (By 0) (BCall 0 0 true forty (seq 2 40) :: map (fun y => BPlain (ECall (fst y) (OnC 0 (key_op true (snd y))))) (combine (seq 2 40) forty)) bk1) as S1.
  { eapply (b_call wcfg bk0_conf [None] 0 0 true forty (seq 2 40)); [reflexivity|vm_compute; reflexivity|reflexivity|apply seq_NoDup|].
    intros t Ht. apply in_seq in Ht. assert (forallb (fun t => match nth_error (th bk0_conf) t with Some Idle => true | _ => false end) (seq 2 40) = true) as X by (vm_compute; reflexivity).
    rewrite forallb_forall in X. specialize (X t (proj2 (in_seq 40 2 t) Ht)). destruct (nth_error (th bk0_conf) t) as [[]|]; try discriminate. reflexivity. }
  assert (counters_fit (bc bk1)) as F1 by (apply fitb_ok; vm_compute; reflexivity).
  pose proof (br_snoc wcfg _ _ _ _ _ _ _ R0 S1 F1) as R1.
  assert (bsteps wcfg bk1 (map BPlain forty_found) bk2_conf) as H by (exact (brun_ok nothrow false fuel _ _ _ _ 0 is_out _ _ _ _ R1 (bs_nil wcfg bk1) bk2_eq)).
  destruct (bmove nothrow false 0 false bk2_conf) as [[ev2 BC2]|] eqn:M; [|vm_compute in M; discriminate].
  pose proof (bmove_ok nothrow false _ _ _ _ _ _ _ _ (bruns_trans wcfg _ _ _ _ _ _ R1 H) M) as S2.
  assert (ev2 = BRet 0 (Some 2%nat) :: map (fun y => BPlain (ERet (fst y) (AnsC (snd y)))) (combine (seq 2 40) forty_results)) as Ev by (vm_compute in M; injection M as <- _; vm_compute; reflexivity).
  destruct (box bk0_conf 0) as [s|] eqn:Es; [|vm_compute in Es; discriminate]. destruct (box (bc bk2_conf) 0) as [s'|] eqn:Es'; [|vm_compute in Es'; discriminate].
  eexists _, ev2, BC2, s, s'. split; [exact R0|]. split; [exact S1|]. split; [left; reflexivity|]. split; [exact F1|]. split; [exact H|].
  split; [intros t a Ht; cbn in Ht; destruct Ht as [Ht|[Ht|[]]]; injection Ht as <- _; apply in_seq; lia|].
  split; [exact S2|]. split; [rewrite Ev; left; reflexivity|]. split; [exact Ev|].
  split; [vm_compute in Es; injection Es as <-; vm_compute; reflexivity|]. split; [vm_compute in Es; injection Es as <-; vm_compute; apply perm_swap || reflexivity|].
  split; [vm_compute in Es'; injection Es' as <-; vm_compute; reflexivity|]. split; [vm_compute in Es'; injection Es' as <-; vm_compute; apply perm_swap || reflexivity|].
  destruct bk1b as [[es3 BC3]|] eqn:E3; [|vm_compute in E3; discriminate].
  assert (bsteps wcfg bk1 es3 BC3) as H3 by (exact (brun_ok nothrow false fuel _ _ _ _ 0 in_second _ _ _ _ R1 (bs_nil wcfg bk1) (eq_trans bk1b_eq E3))).
  eexists _, BC3, _. split; [eapply bruns_trans; [exact R1|exact H3]|]. vm_compute in E3. injection E3 as _ <-. split; reflexivity.
Qed.

(** one query for all theorems of this file *)
Definition all_theorems := (@C40_is_a_run, @C40_keys_are_looked_up_atomically, @C40_every_key_once, @C40_like_single_visits, @C40_one_lock, @C40_no_deadlock, @C40_chunk_fits, @C38_present_is_found).
Print Assumptions all_theorems.
