(** The member functions of the closed-addressing containers meet the specification. *)
From Coq Require Import NArith ZArith Bool List Arith Lia Permutation.
From Verif Require Import FloatModel HashArithModel HashArithProofs FoaModel FoaGroup FoaBase FcaLinks FcaLinksProofs FcaModel FcaInv FcaIter FcaTab FcaRehash FcaOps FcaIns FcaIns2 FcaHandle FcaErase FcaErase2 FcaCopy FcaMove FcaMerge FcaQuery FcaEq FcaSpec FcaWorld.
Import ListNotations.
Local Open Scope m_scope.
Local Open Scope nat_scope.

Section Api.
Context {K V : Type} (c : FCfg K V).
Notation node := (node K V).
Notation table := (FcaModel.table K V).
Notation cb := (base c).
Notation St := (table * heap)%type.
Notation St2 := ((table * table) * heap)%type.
Notation CInv := (CInv c). Notation TInv := (TInv c). Notation raised := (raised c). Notation keq := (keq c).
Notation SI := (SI c). Notation OpExn := (OpExn c). Notation WExn := (WExn c). Notation InsPost := (InsPost c).
Notation el := (@el K V).
Notation spec1 := (FcaSpec.spec1 (V:=V) (keqf cb) (multi c)).
Notation slookup := (FcaSpec.lookup (V:=V) (keqf cb)).
Notation has := (FcaSpec.has (V:=V) (keqf cb)).
Implicit Types (t x : table) (y z : node) (s : St) (e : K * V).

Lemma lookup_el p k (l : list node) : slookup p k (map el l) = option_map el (FcaTab.lookup c p k l).
Proof. unfold FcaSpec.lookup, FcaTab.lookup. induction l as [|y l IH]; [reflexivity|]. cbn [map List.find]. unfold FcaSpec.has, key, FcaWorld.el at 1. cbn [snd]. change (fst (nd_kv y)) with (nkey y). destruct (keqf cb p k (nkey y)); [reflexivity|exact IH]. Qed.
Lemma has_el p k y : has p k (el y) = keqf cb p k (nkey y). Proof. reflexivity. Qed.
Lemma filter_el (f : nat * (K * V) -> bool) (l : list node) : filter f (map el l) = map el (filter (fun y => f (el y)) l).
Proof. induction l as [|y l IH]; [reflexivity|]. cbn [map filter]. destruct (f (el y)); cbn [map]; rewrite IH; reflexivity. Qed.
Lemma added_el p es : forall ks, FcaSpec.added (keqf cb) (multi c) p ks es = FcaIns2.added c p ks es.
Proof. induction es as [|e es IH]; intros ks; [reflexivity|]. cbn [FcaSpec.added FcaIns2.added]. rewrite !IH. reflexivity. Qed.
Lemma keys_el (l : list node) : map key (map el l) = map nkey l. Proof. rewrite map_map. reflexivity. Qed.
Lemma kv_el (l : list node) : map snd (map el l) = map nd_kv l. Proof. rewrite map_map. reflexivity. Qed.
Lemma ids_el (l : list node) : map fst (map el l) = map nd_id l. Proof. rewrite map_map. reflexivity. Qed.
Lemma fresh_el b (l xs : list node) : Forall (fun y => nd_id y < b) l -> Forall (fun y => b <= nd_id y) xs -> fresh (map el l) (map el xs).
Proof.
  intros A B q Hq. apply in_map_iff in Hq as (y & <- & Hy). cbn [fst FcaWorld.el]. rewrite ids_el. intros C. apply in_map_iff in C as (z & E & Hz).
  rewrite Forall_forall in A, B. specialize (A z Hz). specialize (B y Hy). lia.
Qed.

(** what one operation does to the container and to the world around it *)
Record Post1 (r : nat) (s : St) (l : list node) (o : op1 K V) (res : result K V) (s' : St) (l' : list node) : Prop := {
  p1_si : SI r s' l';
  p1_ids : Forall (fun y => In (nd_id y) (map nd_id l) \/ next (snd s) <= nd_id y) l';
  p1_next : next (snd s) <= next (snd s');
  p1_hid : f_hid (fst s') = f_hid (fst s);
  p1_pid : f_pid (fst s') = f_pid (fst s);
  p1_al : f_al (fst s') = f_al (fst s);
  p1_ml : MLok (fst s) -> MLok (fst s');
  p1_spec : spec1 (f_pid (fst s)) o (map el l) res (map el l')
}.
Definition P1 r s l o res s' : Prop := exists l', Post1 r s l o res s' l'.

Lemma post_fr r s l o res s' l' : SI r s' l' -> Fr s s' -> Forall (fun y => In (nd_id y) (map nd_id l) \/ next (snd s) <= nd_id y) l' ->
  spec1 (f_pid (fst s)) o (map el l) res (map el l') -> P1 r s l o res s'.
Proof.
  intros H F I Q. exists l'. pose proof (Fr_ok s s' F) as M. destruct F as ((A & B & C & D) & _ & N). constructor; auto.
Qed.
Lemma post_kept r s l o res s' : SI r s l -> Kept s s' -> spec1 (f_pid (fst s)) o (map el l) res (map el l) -> P1 r s l o res s'.
Proof.
  intros H F Q. apply (post_fr r s l o res s' l); [apply (Kept_SI c r s s' l F H)|apply Kept_Fr; exact F| |exact Q].
  apply Forall_forall. intros y Hy. left. apply in_map. exact Hy.
Qed.
Lemma post_same r s l o res : SI r s l -> spec1 (f_pid (fst s)) o (map el l) res (map el l) -> P1 r s l o res s.
Proof. intros H Q. apply post_kept; [exact H|apply Kept_refl|exact Q]. Qed.

Lemma si_wf r s (l : list node) y : SI r s l -> In y l -> Wf (f_b (fst s)) l. Proof. intros H Hy. eapply TInv_wf; [apply (si_t _ _ _ _ H)|exact Hy]. Qed.
Lemma deref_ok {A} r s l y it (f : nat * (K * V) -> M St A) n : SI r s l -> NIt (f_b (fst s)) y it -> bind (deref it) f s n = f (el y) s n.
Proof.
  intros H N. destruct s as [t h]. cbn [fst] in N. pose proof (si_t _ _ _ _ H) as T. cbn [fst] in T.
  assert (In y l) as Hy. { destruct N as (p & Hp & _). apply (in_CInv c t l y p (ti_c _ _ _ T) Hp). }
  unfold deref. unfold bind at 1. rewrite get_t_eq.
  rewrite (e_node_ok (f_b t) l y it (TInv_wf c t l y T Hy) (ci_ids _ _ _ (ti_c _ _ _ T)) N). reflexivity.
Qed.
Lemma NIt_end b y it : NIt b y it -> e_eqb it e_end = false. Proof. intros (p & _ & ->). reflexivity. Qed.
Lemma deref_opt_node {A} r s l y it (f : option (nat * (K * V)) -> M St A) n : SI r s l -> NIt (f_b (fst s)) y it -> bind (deref_opt it) f s n = f (Some (el y)) s n.
Proof.
  intros H N. unfold deref_opt. rewrite (NIt_end _ _ _ N). unfold bind at 1. rewrite (deref_ok r s l y it _ n H N). reflexivity.
Qed.
Lemma deref_opt_none {A} s it (f : option (nat * (K * V)) -> M St A) n : e_p it = None -> bind (deref_opt it) f s n = f None s n.
Proof. intros N. unfold deref_opt, e_eqb. rewrite N. reflexivity. Qed.
Lemma it_at_ok {A} r s l m (f : eit -> M St A) n : SI r s l -> m <= length l -> exists it, Pos (f_b (fst s)) l m it /\ bind (it_at m) f s n = f it s n.
Proof.
  intros H L. destruct s as [t h]. pose proof (si_t _ _ _ _ H) as T. cbn [fst] in T.
  destruct (nth_it_ok t l m (ci_b _ _ _ (ti_c _ _ _ T)) (ci_ids _ _ _ (ti_c _ _ _ T)) (ti_size _ _ _ T) L) as (it & E & P). exists it. split; [exact P|].
  unfold it_at. unfold bind at 1. rewrite get_t_eq, E. reflexivity.
Qed.
Lemma pos_hint r s l m it : SI r s l -> m <= length l -> Pos (f_b (fst s)) l m it -> HIt (fst s) l it.
Proof.
  intros H L P. destruct (nth_error l m) as [y|] eqn:E.
  - right. exists y. split; [eapply nth_error_In; exact E|]. eapply pos_node; eauto.
  - left. apply nth_error_None in E. assert (m = length l) as -> by lia. pose proof (e_end_pos (f_b (fst s)) l (length l) it (le_n _) P) as Q.
    rewrite Nat.eqb_refl in Q. unfold e_eqb in Q. destruct (e_p it); [discriminate|reflexivity].
Qed.

(** *** insertions *)
Lemma ids_perm b (l l' xs : list node) : Permutation l' (xs ++ l) -> Forall (fun y => b <= nd_id y) xs -> Forall (fun y => In (nd_id y) (map nd_id l) \/ b <= nd_id y) l'.
Proof.
  intros P F. apply Forall_forall. intros y Hy. apply (Permutation_in _ P) in Hy. apply in_app_or in Hy as [Hy|Hy].
  - right. rewrite Forall_forall in F. apply F; exact Hy.
  - left. apply in_map. exact Hy.
Qed.
Lemma ids_lost b (l l' lost : list node) : Permutation l (lost ++ l') -> Forall (fun y => In (nd_id y) (map nd_id l) \/ b <= nd_id y) l'.
Proof.
  intros P. apply Forall_forall. intros y Hy. left. apply in_map. apply (Permutation_in _ (Permutation_sym P)). apply in_or_app. right. exact Hy.
Qed.
Lemma insat_perm hint y (l0 l' : list node) : InsAt hint y l0 l' -> Permutation l' (y :: l0).
Proof. intros (l1 & l2 & -> & -> & _). symmetry. apply Permutation_middle. Qed.
Lemma ins_new r s l hint y it s' : SI r s l -> InsPost r s l hint y it s' -> next (snd s) <= nd_id y -> (if multi c then None else slookup (f_pid (fst s)) (nkey y) (map el l)) = None ->
  exists l', SI r s' l' /\ Fr s s' /\ Forall (fun z => In (nd_id z) (map nd_id l) \/ next (snd s) <= nd_id z) l' /\ NIt (f_b (fst s')) y it /\ inserted (keqf cb) (multi c) (f_pid (fst s)) (nd_kv y) (map el l) (el y) true (map el l').
Proof.
  intros H (l0 & l' & P & I & S' & F & N & _) Ny L. exists l'. do 2 (split; [assumption|]).
  pose proof (insat_perm _ _ _ _ I) as Q. rewrite <- P in Q. split.
  { apply (ids_perm _ l l' [y]); [exact Q|repeat constructor; exact Ny]. }
  split; [exact N|]. unfold inserted. change (fst (nd_kv y)) with (nkey y). rewrite L. split; [reflexivity|]. split; [reflexivity|]. split.
  - apply (fresh_el (next (snd s)) l [y]); [apply (si_next _ _ _ _ H)|repeat constructor; exact Ny].
  - rewrite Q. reflexivity.
Qed.
Lemma op_exn r s l o kd s' : SI r s l -> OpExn r s l kd s' ->
  ((kd <> KHash /\ spec1 (f_pid (fst s)) o (map el l) (Threw kd) (map el l)) \/
   (kd = KHash /\ forall l' lost, Permutation (map el l) (lost ++ l') -> spec1 (f_pid (fst s)) o (map el l) (Threw kd) l')) -> raised kd /\ P1 r s l o (Threw kd) s'.
Proof.
  intros H (R & l' & lost & S' & P & F & St) Q. split; [exact R|]. destruct Q as [[N Q]|[E Q]].
  - destruct (St (or_introl N)) as (Kp & _ & ->). apply post_kept; assumption.
  - apply (post_fr r s l o (Threw kd) s' l'); [exact S'|exact F|eapply ids_lost; exact P|]. apply (Q _ (map el lost)). rewrite P, map_app. reflexivity.
Qed.
Lemma kind_dec (a b : kind) : {a = b} + {a <> b}. Proof. decide equality. Qed.
Definition strong1 (o : op1 K V) : Prop := match o with Insert _ _ | InsertHint _ _ _ | InsertOrAssign _ _ | Index _ _ => True | _ => False end.
Lemma op_exn_ins r s l o kd s' : SI r s l -> strong1 o -> OpExn r s l kd s' -> raised kd /\ P1 r s l o (Threw kd) s'.
Proof.
  intros H So X. apply op_exn; [exact H|exact X|]. destruct (kind_dec kd KHash) as [->|N]; [right|left]; (split; [auto|]).
  - intros l' lost P. destruct o; try destruct So; cbn [FcaSpec.spec1]; right; (split; [reflexivity|]); eauto.
  - destruct o; try destruct So; cbn [FcaSpec.spec1]; left; auto.
Qed.

Lemma eu_post r s l e it b s' : SI r s l -> multi c = false -> EUPost c r s l e (it, b) s' ->
  exists l' y, SI r s' l' /\ Fr s s' /\ Forall (fun z => In (nd_id z) (map nd_id l) \/ next (snd s) <= nd_id z) l' /\ NIt (f_b (fst s')) y it /\ inserted (keqf cb) (multi c) (f_pid (fst s)) e (map el l) (el y) b (map el l').
Proof.
  intros H Mu X. unfold EUPost in X. destruct (FcaTab.lookup c (f_pid (fst s)) (fst e) l) as [y|] eqn:L; cbn [fst snd] in X.
  - destruct X as (-> & Kp & N). exists l, y. split; [apply (Kept_SI c r s s' l Kp H)|]. split; [apply Kept_Fr; exact Kp|]. split.
    { apply Forall_forall. intros z Hz. left. apply in_map. exact Hz. }
    destruct Kp as (Kt & _). rewrite Kt. split; [exact N|]. unfold inserted. rewrite Mu, lookup_el, L. cbn [option_map]. auto.
  - destruct X as (-> & y & E & Ny & [I _]). destruct (ins_new r s l None y it s' H I Ny) as (l' & A & B & C & D & G).
    { rewrite Mu, lookup_el. unfold nkey. rewrite E, L. reflexivity. }
    exists l', y. rewrite E in G. auto 6.
Qed.

(** *** ranges *)
Lemma range_post r s l o es s' : SI r s l -> (o = InsertRange true es \/ o = InsertRange false es) -> RangePost c r s l es s' -> P1 r s l o (Done VUnit) s'.
Proof.
  intros H Ho (xs & l' & E & F & S' & P & Fs). apply (post_fr r s l o (Done VUnit) s' l' S' Fs); [apply (ids_perm _ l l' xs P F)|].
  assert (exists xs0, map snd xs0 = FcaSpec.added (keqf cb) (multi c) (f_pid (fst s)) (map key (map el l)) es /\ fresh (map el l) xs0 /\ Permutation (map el l') (xs0 ++ map el l)) as Q.
  { exists (map el xs). rewrite kv_el, added_el, keys_el. split; [exact E|]. split; [apply (fresh_el _ l xs (si_next _ _ _ _ H) F)|]. rewrite P, map_app. reflexivity. }
  destruct Ho as [-> | ->]; exact Q.
Qed.
Lemma range_exn r s l o es kd s' : SI r s l -> (o = InsertRange true es \/ o = InsertRange false es) -> RangeExn c r s l es kd s' -> raised kd /\ P1 r s l o (Threw kd) s'.
Proof.
  intros H Ho (R & es1 & es2 & xs & l' & lost & E & Ex & F & S' & P & Ls & Fs). split; [exact R|]. apply (post_fr r s l o (Threw kd) s' l' S' Fs).
  - apply Forall_forall. intros y Hy. assert (In y (xs ++ l)) as Hy' by (apply (Permutation_in _ (Permutation_sym P)), in_or_app; auto).
    apply in_app_or in Hy' as [Hx|Hx]; [right; rewrite Forall_forall in F; apply F; exact Hx|left; apply in_map; exact Hx].
  - assert (exists es1 es2 xs0 lost, es = es1 ++ es2 /\ map snd xs0 = FcaSpec.added (keqf cb) (multi c) (f_pid (fst s)) (map key (map el l)) es1 /\ Permutation (xs0 ++ map el l) (lost ++ map el l') /\ Lost kd lost) as Q.
    { exists es1, es2, (map el xs), (map el lost). rewrite kv_el, added_el, keys_el. split; [exact E|]. split; [exact Ex|]. split; [rewrite <- !map_app, P; reflexivity|].
      destruct (kind_dec kd KHash) as [->|N]; [right; reflexivity|left; rewrite (Ls N); reflexivity]. }
    destruct Ho as [-> | ->]; exact Q.
Qed.
Lemma range_ok r s l fwd es n : SI r s l -> FcaIns2.room l (length es) ->
  outcome ((if multi c then insert_range_equiv c fwd es else insert_range_unique c es) s n) (fun _ s' => RangePost c r s l es s') (RangeExn c r s l es).
Proof.
  intros H R. destruct (multi c) eqn:Mu; [apply insert_range_equiv_ok; assumption|apply insert_range_unique_ok; assumption].
Qed.

(** read-only operations *)
Lemma ro_bind {A} r s l o (m : M St A) (f : A -> M St (value K V)) n (Q : A -> Prop) : SI r s l ->
  (forall kd, kd = KHash \/ kd = KEq -> spec1 (f_pid (fst s)) o (map el l) (Threw kd) (map el l)) ->
  outcome (m s n) (fun a s' => s' = s /\ Q a) (RO c s) ->
  (forall a n', Q a -> outcome (f a s n') (fun v s' => P1 r s l o (Done v) s') (fun kd s' => raised kd /\ P1 r s l o (Threw kd) s')) ->
  outcome (bind m f s n) (fun v s' => P1 r s l o (Done v) s') (fun kd s' => raised kd /\ P1 r s l o (Threw kd) s').
Proof.
  intros H He Hm Hf. eapply outcome_bind; [eapply outcome_weaken; [exact Hm| |]|].
  - intros a s' X. exact X.
  - intros kd s' (-> & Hk & R). split; [exact R|]. apply post_same; auto.
  - intros a s' n' [-> Ha]. apply Hf. exact Ha.
Qed.
Lemma exists_lookup p k (l : list node) : existsb (has p k) (map el l) = match FcaTab.lookup c p k l with Some _ => true | None => false end.
Proof. rewrite <- (lookup_exists c p k l). induction l as [|y l IH]; [reflexivity|]. cbn [map existsb]. rewrite IH. reflexivity. Qed.
Lemma len_el (l : list node) : length (map el l) = length l. Proof. apply map_length. Qed.
Lemma count_neg {A} (f : A -> bool) l : length (filter f l) + length (filter (fun a => negb (f a)) l) = length l.
Proof. induction l as [|a l IH]; [reflexivity|]. cbn [filter]. destruct (f a); cbn [negb length]; lia. Qed.
Lemma filter_removed p k (l1 : list node) y l2 : Uniq c p (l1 ++ y :: l2) -> Eqv c p -> keqf cb p k (nkey y) = true -> (forall z w, keqf cb p k (nkey z) = true -> keq p z w = keqf cb p k (nkey w)) ->
  filter (fun z => negb (keqf cb p k (nkey z))) (l1 ++ y :: l2) = l1 ++ l2 /\ filter (fun z => keqf cb p k (nkey z)) (l1 ++ y :: l2) = [y].
Proof.
  intros U [Es _] Hk T. apply (uniq_app c p l1 (y :: l2)) in U as (_ & U2 & U3). inversion U2 as [|a b F _]; subst. rewrite Forall_forall in F.
  assert (forall z, In z l1 -> keqf cb p k (nkey z) = false) as A1.
  { intros z Hz. destruct (keqf cb p k (nkey z)) eqn:E; [|reflexivity]. rewrite <- (U3 z y Hz (or_introl eq_refl)). rewrite (T z y E). symmetry. exact Hk. }
  assert (forall z, In z l2 -> keqf cb p k (nkey z) = false) as A2.
  { intros z Hz. specialize (F z Hz). rewrite (T y z Hk) in F. exact F. }
  rewrite !filter_app. cbn [filter]. rewrite Hk. cbn [negb].
  assert (forall l, (forall z, In z l -> keqf cb p k (nkey z) = false) -> filter (fun z => negb (keqf cb p k (nkey z))) l = l /\ filter (fun z => keqf cb p k (nkey z)) l = []) as G.
  { intros l. induction l as [|z l IH]; intros A; [auto|]. cbn [filter]. rewrite (A z) by now left. destruct IH as [I1 I2]; [intros w Hw; apply A; now right|]. cbn [negb]. rewrite I1, I2. auto. }
  destruct (G l1 A1) as [-> ->]. destruct (G l2 A2) as [-> ->]. auto.
Qed.
Lemma filter_id {A} (f : A -> bool) l : (forall a, In a l -> f a = true) -> filter f l = l.
Proof. induction l as [|a l IH]; intros H; [reflexivity|]. cbn [filter]. rewrite (H a) by now left. rewrite IH; [reflexivity|]. intros b Hb. apply H. now right. Qed.
Lemma ids_sub b (l l' : list node) : incl l' l -> Forall (fun y => In (nd_id y) (map nd_id l) \/ b <= nd_id y) l'.
Proof. intros I. apply Forall_forall. intros y Hy. left. apply in_map. apply I. exact Hy. Qed.
Lemma nodup_ids (l : list node) : forall y z, NoDup (map nd_id l) -> In y l -> In z l -> nd_id y = nd_id z -> y = z.
Proof.
  induction l as [|a l IH]; intros y z N Hy Hz E; [destruct Hy|]. cbn [map] in N. inversion N as [|? ? N1 N2]; subst.
  destruct Hy as [->|Hy], Hz as [->|Hz]; auto; exfalso; apply N1; [rewrite E|rewrite <- E]; apply in_map; assumption.
Qed.
Lemma incl_mid (l1 : list node) y l2 : incl (l1 ++ l2) (l1 ++ y :: l2).
Proof. intros z Hz. apply in_app_or in Hz as [Hz|Hz]; apply in_or_app; [left|right; right]; exact Hz. Qed.

Theorem exec1_ok r s l o n : SI r s l -> pre1 c o (fst s) ->
  outcome (exec1 c o s n) (fun v s' => P1 r s l o (Done v) s') (fun kd s' => raised kd /\ P1 r s l o (Threw kd) s').
Proof.
  intros H Hpre. pose proof (si_t _ _ _ _ H) as T. pose proof (ti_size _ _ _ T) as Sz. pose proof (ti_c _ _ _ T) as C. pose proof (Eqv_of c (fst s) l C) as Eqv0.
  assert (forall k', FcaWorld.room (fst s) k' -> FcaIns2.room l k') as Rm. { intros k' R. unfold FcaWorld.room, FcaIns2.room, max_elems in *. rewrite Sz in R. lia. }
  assert (FcaIns2.room l 1 -> (N.of_nat (length l) + 1 < max_elems)%N) as Rm1. { unfold FcaIns2.room. lia. }
  destruct o as [kf e|kf m e|fwd es|es|k v|dv k|k|k|k|k|k|k|m|m m2|pr| |n'|n'|z| |]; cbn [exec1 pre1] in *.
  - (* Insert *)
    apply Rm in Hpre. destruct (multi c) eqn:Mu.
    + rewrite <- bind_bind. eapply outcome_bind; [eapply outcome_weaken; [apply (emplace_fresh_equiv_ok c r s l KConstruct e n Mu H Hpre)| |]|].
      * intros a s' X. exact X.
      * intros kd s' X. apply (op_exn_ins r s l _ kd s' H); [exact I|exact X].
      * intros it s' n' (y & E & Ny & [I _]). destruct (ins_new r s l _ y it s' H I Ny) as (l' & A & B & D & G & J); [rewrite Mu; reflexivity|].
        rewrite (deref_ok r s' l' y it _ n' A G). cbn [ret outcome]. apply (post_fr r s l _ _ s' l' A B D). cbn [FcaSpec.spec1]. rewrite E in J. exact J.
    + eapply outcome_bind; [eapply outcome_weaken; [apply (emplace_unique_ok c r s l kf KConstruct e n H (Rm1 Hpre))| |]|].
      * intros a s' X. exact X.
      * intros kd s' X. apply (op_exn_ins r s l _ kd s' H); [exact I|exact X].
      * intros [it b] s' n' X. destruct (eu_post r s l e it b s' H Mu X) as (l' & y & A & B & D & G & J). cbn [fst snd].
        rewrite (deref_ok r s' l' y it _ n' A G). cbn [ret outcome]. apply (post_fr r s l _ _ s' l' A B D). cbn [FcaSpec.spec1]. exact J.
  - (* InsertHint *)
    destruct Hpre as [Hr Hm]. apply Rm in Hr. rewrite Sz in Hm. assert (m <= length l) as Lm by lia.
    match goal with |- outcome (bind _ ?f s n) _ _ => destruct (it_at_ok r s l m f n H Lm) as (hint & Ph & ->) end.
    pose proof (pos_hint r s l m hint H Lm Ph) as Hh. destruct (multi c) eqn:Mu.
    + rewrite <- bind_bind. eapply outcome_bind; [eapply outcome_weaken; [apply (emplace_fresh_hint_equiv_ok c r s l KConstruct hint e n Mu H Hh Hr)| |]|].
      * intros a s' X. exact X.
      * intros kd s' X. apply (op_exn_ins r s l _ kd s' H); [exact I|exact X].
      * intros it s' n' (y & ho & E & Ny & [_ Hu] & [I _]). destruct (ins_new r s l _ y it s' H I Ny) as (l' & A & B & D & G & J); [rewrite Mu; reflexivity|].
        rewrite (deref_ok r s' l' y it _ n' A G). cbn [ret outcome]. apply (post_fr r s l _ _ s' l' A B D). cbn [FcaSpec.spec1]. rewrite E in J. split; [eauto|].
        intros _ q Hq Hk. rewrite nth_error_map in Hq. destruct (nth_error l m) as [z|] eqn:Ez; [|discriminate]. cbn [option_map] in Hq. assert (el z = q) as <- by congruence. rewrite has_el in Hk.
        pose proof (pos_node _ _ _ _ _ Ph Ez) as Nz. destruct I as (l0 & l'2 & P0 & (l1 & l2 & El & El' & Hi) & S2 & _).
        assert (l'2 = l') as -> by (eapply SI_fun; eassumption).
        assert (ho = Some (nd_id z)) as Eh. { apply (Hu z); [eapply nth_error_In; exact Ez|exact Nz|]. unfold nkey at 1. rewrite E. exact Hk. }
        destruct (Hi _ Eh) as (l00 & z' & -> & Eid).
        assert (z' = z) as ->. { apply (nodup_ids l z' z); [apply (ci_ids _ _ _ C)| |eapply nth_error_In; exact Ez|exact Eid]. apply (Permutation_in _ (Permutation_sym P0)). rewrite El. apply in_or_app. left. apply in_or_app. right. now left. }
        exists (map el l00), (map el l2). rewrite El', map_app, map_app. cbn [map]. rewrite <- app_assoc. reflexivity.
    + eapply outcome_bind; [eapply outcome_weaken; [apply (emplace_hint_unique_ok c r s l kf hint e n H Mu Hh (Rm1 Hr))| |]|].
      * intros a s' X. exact X.
      * intros kd s' X. apply (op_exn_ins r s l _ kd s' H); [exact I|exact X].
      * intros it s' n' [b X]. destruct (eu_post r s l e it b s' H Mu X) as (l' & y & A & B & D & G & J).
        rewrite (deref_ok r s' l' y it _ n' A G). cbn [ret outcome]. apply (post_fr r s l _ _ s' l' A B D). cbn [FcaSpec.spec1]. split; [eauto|]. unfold near_hint. rewrite Mu. discriminate.
  - (* InsertRange *)
    apply Rm in Hpre. eapply outcome_bind; [eapply outcome_weaken; [apply (range_ok r s l fwd es n H Hpre)| |]|].
    + intros a s' X. exact X.
    + intros kd s' X. apply (range_exn r s l _ es kd s' H); [destruct fwd; auto|exact X].
    + intros u s' n1 X. cbn [ret outcome]. apply (range_post r s l _ es s' H); [destruct fwd; auto|exact X].
  - (* AssignList *)
    eapply outcome_bind; [eapply outcome_weaken; [apply (clear_ok c r s l n (fun _ _ => False) H)| |]|].
    + intros a s' X. exact X.
    + intros kd s' [].
    + intros u s1 n1 [H1 B1]. cbv beta in *. pose proof (SameB_Fr s s1 B1) as F1. pose proof B1 as (_ & _ & En & (_ & Ep & _)).
      eapply outcome_bind; [eapply outcome_weaken; [apply (range_ok r s1 [] true es n1 H1)| |]|].
      * unfold FcaIns2.room, max_elems. cbn [length Nat.add]. lia.
      * intros a s' X. exact X.
      * intros kd s' (R & es1 & es2 & xs & l' & lost & E & Ex & F & S' & P & Ls & Fs). split; [exact R|]. apply (post_fr r s l _ _ s' l' S' (Fr_trans _ _ _ F1 Fs)).
        { apply Forall_forall. intros y Hy. right. rewrite app_nil_r in P. rewrite Forall_forall in F. rewrite <- En. apply F. apply (Permutation_in _ (Permutation_sym P)). apply in_or_app. now right. }
        cbn [FcaSpec.spec1]. exists es1, es2, (map el xs), (map el lost). rewrite kv_el, added_el. rewrite <- Ep. split; [exact E|]. split; [exact Ex|]. rewrite app_nil_r in P. split; [rewrite <- map_app, P; reflexivity|].
        destruct (kind_dec kd KHash) as [->|Nk]; [right; reflexivity|left; rewrite (Ls Nk); reflexivity].
      * intros u' s' n2 (xs & l' & Ex & F & S' & P & Fs). cbn [ret outcome]. rewrite app_nil_r in P. apply (post_fr r s l _ _ s' l' S' (Fr_trans _ _ _ F1 Fs)).
        { apply Forall_forall. intros y Hy. right. rewrite Forall_forall in F. rewrite <- En. apply F. apply (Permutation_in _ P). exact Hy. }
        cbn [FcaSpec.spec1]. exists (map el xs). rewrite kv_el, added_el, <- Ep. split; [exact Ex|]. rewrite P. reflexivity.
  - (* InsertOrAssign *)
    destruct Hpre as [Hr Mu]. apply Rm in Hr. eapply outcome_bind; [eapply outcome_weaken; [apply (insert_or_assign_ok c r s l k v n H (Rm1 Hr))| |]|].
    + intros a s' X. exact X.
    + intros kd s' X. apply (op_exn_ins r s l _ kd s' H); [exact I|exact X].
    + intros [it b] s' n' X. unfold AssignPost in X. cbn [fst snd] in *. destruct (FcaTab.lookup c (f_pid (fst s)) k l) as [y|] eqn:L.
      * destruct X as (-> & l1 & l2 & El & S' & F & Nit & _). rewrite (deref_ok r s' _ _ it _ n' S' Nit). cbn [ret outcome]. apply (post_fr r s l _ _ s' _ S' F).
        { apply Forall_forall. intros z0 Hz. left. rewrite El. rewrite map_app. cbn [map]. apply (in_map nd_id) in Hz. rewrite map_app in Hz. exact Hz. }
        cbn [FcaSpec.spec1]. rewrite lookup_el, L. cbn [option_map]. exists (map el l1), (map el l2). rewrite El, !map_app. auto.
      * destruct X as (-> & y & E & Ny & [I _]). destruct (ins_new r s l None y it s' H I Ny) as (l' & A & B & D & G & J).
        { rewrite Mu, lookup_el. unfold nkey. rewrite E. cbn [fst]. rewrite L. reflexivity. }
        rewrite (deref_ok r s' l' y it _ n' A G). cbn [ret outcome]. apply (post_fr r s l _ _ s' l' A B D). cbn [FcaSpec.spec1]. rewrite lookup_el, L. cbn [option_map]. rewrite E in J. exact J.
  - (* Index *)
    destruct Hpre as [Hr Mu]. apply Rm in Hr. eapply outcome_bind; [eapply outcome_weaken; [apply (emplace_unique_ok c r s l true KConstruct (k, dv) n H (Rm1 Hr))| |]|].
    + intros a s' X. exact X.
    + intros kd s' X. apply (op_exn_ins r s l _ kd s' H); [exact I|exact X].
    + intros [it b] s' n' X. destruct (eu_post r s l _ it b s' H Mu X) as (l' & y & A & B & D & G & J). cbn [fst snd].
      rewrite (deref_ok r s' l' y it _ n' A G). cbn [ret outcome]. apply (post_fr r s l _ _ s' l' A B D). cbn [FcaSpec.spec1]. pose proof J as J'. unfold inserted in J. rewrite Mu in J. cbn [fst] in J.
      destruct (slookup (f_pid (fst s)) k (map el l)) as [q|].
      * destruct J as (-> & _ & J). auto.
      * destruct J as (Ey & -> & _). split; [rewrite Ey; reflexivity|]. eauto.
  - (* Find *)
    destruct s as [t h]. rewrite get_t_eq. cbn [fst] in *. eapply (ro_bind r (t, h) l _ _ _ n); [exact H|cbn; auto|apply (find_ok c t l k (t, h) n T)|].
    intros it n1 Q. unfold opt_it in Q. destruct (FcaTab.lookup c (f_pid t) k l) as [y|] eqn:L.
    + rewrite (deref_opt_node r (t, h) l y it _ n1 H Q). cbn [ret outcome]. apply post_same; [exact H|]. cbn [FcaSpec.spec1 fst]. rewrite lookup_el, L. auto.
    + rewrite (deref_opt_none (t, h) it _ n1 Q). cbn [ret outcome]. apply post_same; [exact H|]. cbn [FcaSpec.spec1 fst]. rewrite lookup_el, L. auto.
  - (* At *)
    destruct s as [t h]. rewrite get_t_eq. cbn [fst] in *. eapply (ro_bind r (t, h) l _ _ _ n); [exact H|cbn; auto|apply (find_ok c t l k (t, h) n T)|].
    intros it n1 Q. unfold opt_it in Q. destruct (FcaTab.lookup c (f_pid t) k l) as [y|] eqn:L.
    + rewrite (deref_opt_node r (t, h) l y it _ n1 H Q). cbn [ret outcome]. apply post_same; [exact H|]. cbn [FcaSpec.spec1 fst]. rewrite lookup_el, L. auto.
    + rewrite (deref_opt_none (t, h) it _ n1 Q). cbn [ret outcome]. apply post_same; [exact H|]. cbn [FcaSpec.spec1 fst]. rewrite lookup_el, L. auto.
  - (* Count *)
    destruct s as [t h]. rewrite get_t_eq. cbn [fst] in *. eapply (ro_bind r (t, h) l _ _ _ n); [exact H|cbn; auto|apply (group_count_ok c t l k (t, h) n T)|].
    intros m n1 ->. cbn [ret outcome]. apply post_same; [exact H|]. cbn [FcaSpec.spec1 fst]. rewrite filter_el, len_el. auto.
  - (* Contains *)
    destruct s as [t h]. rewrite get_t_eq. cbn [fst] in *. eapply (ro_bind r (t, h) l _ _ _ n); [exact H|cbn; auto|apply (find_ok c t l k (t, h) n T)|].
    intros it n1 Q. cbn [ret outcome]. apply post_same; [exact H|]. cbn [FcaSpec.spec1 fst]. rewrite exists_lookup. unfold opt_it in Q. destruct (FcaTab.lookup c (f_pid t) k l) as [y|] eqn:L.
    + rewrite (NIt_end _ _ _ Q). auto.
    + unfold e_eqb. rewrite Q. auto.
  - (* EqualRange *)
    destruct s as [t h]. rewrite get_t_eq. cbn [fst] in *. eapply (ro_bind r (t, h) l _ _ _ n); [exact H|cbn; auto|apply (equal_range_ok c t l k (t, h) n T)|].
    intros g n1 ->. cbn [ret outcome]. apply post_same; [exact H|]. cbn [FcaSpec.spec1 fst]. rewrite filter_el. split; [reflexivity|]. split; [reflexivity|].
    destruct (run_split c t l k l C (keysok_grouped c _ _ (keysok_all c t l T))) as (A & D & E & _). exists (map el A), (map el D). rewrite <- !map_app. f_equal. exact E.
  - (* EraseKey *)
    destruct (multi c) eqn:Mu.
    + eapply outcome_bind; [eapply outcome_weaken; [apply (erase_key_equiv_ok c r s l k n H Mu)| |]|].
      * intros a s' X. exact X.
      * intros kd s' [R X]. split; [exact R|]. destruct X as [->|(run & S' & B & F)]; [apply post_same; [exact H|]; left; reflexivity|].
        apply (post_fr r s l _ _ s' _ S' (SameB_Fr _ _ B)); [apply ids_sub; intros y Hy; apply (filter_In (kept run)) in Hy; apply Hy|].
        cbn [FcaSpec.spec1]. right. split; [exact Mu|]. exists (map el (filter (fun y => negb (kept run y)) l)). split.
        { rewrite <- map_app. apply Permutation_map. symmetry. clear. induction l as [|y l IH]; [constructor|]. cbn [filter]. destruct (kept run y); cbn [negb app]; [|constructor; exact IH].
          rewrite <- Permutation_middle. constructor. exact IH. }
        apply forallb_forall. intros q Hq. apply in_map_iff in Hq as (y & <- & Hy). apply (filter_In (fun y => negb (kept run y))) in Hy as [Hy Hk]. rewrite has_el.
        unfold kept in Hk. rewrite negb_involutive in Hk. apply existsb_exists in Hk as (z & Hz & Ei). apply Nat.eqb_eq in Ei. rewrite Forall_forall in F. destruct (F z Hz) as [Hz' Kz].
        rewrite <- (nodup_ids l z y (ci_ids _ _ _ C) Hz' Hy Ei). exact Kz.
      * intros m s' n1 (S' & B & _ & E). cbv beta in *. cbn [ret outcome]. apply (post_fr r s l _ _ s' _ S' (SameB_Fr _ _ B)); [apply ids_sub; intros y Hy; apply filter_In in Hy; apply Hy|].
        cbn [FcaSpec.spec1]. rewrite !filter_el, len_el. split; [|reflexivity]. unfold FcaSpec.has, key, FcaWorld.el in *. cbn [snd] in *.
        pose proof (count_neg (fun y => keqf cb (f_pid (fst s)) k (nkey y)) l) as Q. change (fst (nd_kv ?y)) with (nkey y). unfold nkey in *. lia.
    + eapply outcome_bind; [eapply outcome_weaken; [apply (erase_key_unique_ok c r s l k n H)| |]|].
      * intros a s' X. exact X.
      * intros kd s' (-> & Hk & R). split; [exact R|]. apply post_same; [exact H|]. left. reflexivity.
      * intros m s' n1 X. cbv beta in *. destruct (FcaTab.lookup c (f_pid (fst s)) k l) as [y|] eqn:L.
        -- destruct X as (-> & l1 & l2 & El & S' & B & _). cbn [ret outcome]. apply (post_fr r s l _ _ s' _ S' (SameB_Fr _ _ B)); [rewrite El; apply ids_sub, incl_mid|].
           cbn [FcaSpec.spec1]. rewrite !filter_el, len_el. apply lookup_some in L as [_ Lk]. pose proof (keysok_all c _ _ T) as U. unfold KeysOk in U. rewrite Mu in U.
           pose proof (key_tr c (fst s) l k C) as Tr. rewrite El in U. destruct (filter_removed (f_pid (fst s)) k l1 y l2 U Eqv0 Lk Tr) as [F1 F2].
           unfold FcaSpec.has, key, FcaWorld.el, nkey in *. cbn [snd] in *. rewrite El, F1, F2. auto.
        -- destruct X as (-> & ->). cbn [ret outcome]. apply post_same; [exact H|]. cbn [FcaSpec.spec1]. rewrite !filter_el, len_el. rewrite lookup_none in L.
           assert (filter (fun y => has (f_pid (fst s)) k (el y)) l = []) as E0. { apply eqs_none. exact L. }
           rewrite E0. split; [reflexivity|]. f_equal. symmetry. apply filter_id. intros y Hy. rewrite has_el, (L y Hy). reflexivity.
  - (* EraseNth *)
    rewrite Sz in Hpre. assert (m < length l) as Lm by lia.
    match goal with |- outcome (bind _ ?f s n) _ _ => destruct (it_at_ok r s l m f n H ltac:(lia)) as (it & Ph & ->) end.
    destruct (nth_error l m) as [y|] eqn:Ey; [|apply nth_error_None in Ey; lia]. pose proof (pos_node _ _ _ _ _ Ph Ey) as Ny.
    rewrite (deref_ok r s l y it _ n H Ny). destruct (nth_error_split l m Ey) as (l1 & l2 & El & Ll).
    assert (SI r s (l1 ++ y :: l2)) as H2 by (rewrite <- El; exact H).
    eapply outcome_bind; [eapply outcome_weaken; [apply (erase_node_ok c r s l1 y l2 it n (fun _ _ => False) H2 Ny)| |]|].
    + intros a s' X. exact X.
    + intros kd s' [].
    + intros it' s' n1 ((S' & B & _) & Pn). cbv beta in *.
      assert (forall v, spec1 (f_pid (fst s)) (EraseNth m) (map el l) (Done v) (map el (l1 ++ l2)) -> P1 r s l (EraseNth m) (Done v) s') as Fin.
      { intros v Q. apply (post_fr r s l _ _ s' _ S' (SameB_Fr _ _ B)); [rewrite El; apply ids_sub, incl_mid|exact Q]. }
      destruct (nth_error (l1 ++ l2) (length l1)) as [z|] eqn:Ez.
      * rewrite (deref_opt_node r s' (l1 ++ l2) z it' _ n1 S' (pos_node _ _ _ _ _ Pn Ez)). cbn [ret outcome]. apply Fin. cbn [FcaSpec.spec1].
        exists (map el l1), (map el l2). rewrite len_el, El, !map_app. split; [exact Ll|]. do 2 (split; [reflexivity|]). rewrite <- map_app, nth_error_map, <- Ll, Ez. reflexivity.
      * apply nth_error_None in Ez as Le. rewrite app_length in Le. assert (l2 = []) as -> by (destruct l2; [reflexivity|cbn in Le; lia]). rewrite app_nil_r in *.
        pose proof (e_end_pos _ _ _ _ (le_n _) Pn) as Q. rewrite Nat.eqb_refl in Q. rewrite deref_opt_none by (unfold e_eqb in Q; destruct (e_p it'); [discriminate|reflexivity]).
        cbn [ret outcome]. apply Fin. cbn [FcaSpec.spec1]. exists (map el l1), []. rewrite len_el, El, !map_app, app_nil_r. split; [exact Ll|]. do 2 (split; [reflexivity|]). rewrite nth_error_map, <- Ll, Ez. reflexivity.
  - (* EraseRange *)
    destruct Hpre as [Lm Lm2]. rewrite Sz in Lm2. assert (m2 <= length l) as Lm2' by lia.
    match goal with |- outcome (bind _ ?f s n) _ _ => destruct (it_at_ok r s l m f n H ltac:(lia)) as (it & Ph & ->) end.
    match goal with |- outcome (bind _ ?f s n) _ _ => destruct (it_at_ok r s l m2 f n H ltac:(lia)) as (it2 & Ph2 & ->) end.
    eapply outcome_bind; [eapply outcome_weaken; [apply (erase_nodes_range_ok c r s l m m2 it it2 n (fun _ _ => False) H Lm Lm2' Ph Ph2)| |]|].
    + intros a s' X. exact X.
    + intros kd s' [].
    + intros u s' n1 (S' & B & _). cbn [ret outcome]. apply (post_fr r s l _ _ s' _ S' (SameB_Fr _ _ B)).
      * apply ids_sub. intros y Hy. apply in_app_or in Hy as [Hy|Hy]; [rewrite <- (firstn_skipn m l); apply in_or_app; now left|rewrite <- (firstn_skipn m2 l); apply in_or_app; now right].
      * cbn [FcaSpec.spec1]. rewrite map_app, firstn_map, skipn_map. reflexivity.
  - (* EraseIf *)
    eapply outcome_bind; [eapply outcome_weaken; [apply (erase_if_ok c r pr s l n H)| |]|].
    + intros a s' X. exact X.
    + intros kd s' (R & d & u & El & S' & B & _). split; [exact R|]. apply (post_fr r s l _ _ s' _ S' (SameB_Fr _ _ B)).
      * apply ids_sub. rewrite El. intros y Hy. apply in_app_or in Hy as [Hy|Hy]; apply in_or_app; [left; apply filter_In in Hy; apply Hy|now right].
      * cbn [FcaSpec.spec1]. exists (map el d), (map el u). rewrite El, !map_app, filter_el. auto.
    + intros m s' n1 ((S' & B & _) & E). cbn [ret outcome]. apply (post_fr r s l _ _ s' _ S' (SameB_Fr _ _ B)); [apply ids_sub; intros y Hy; apply filter_In in Hy; apply Hy|].
      cbn [FcaSpec.spec1]. rewrite !filter_el, len_el. cbn [snd FcaWorld.el]. split; [|reflexivity]. pose proof (count_neg (fun y => pr (nd_kv y)) l) as Q. lia.
  - (* Clear *)
    eapply outcome_bind; [eapply outcome_weaken; [apply (clear_ok c r s l n (fun _ _ => False) H)| |]|].
    + intros a s' X. exact X.
    + intros kd s' [].
    + intros u s' n1 [S' B]. cbn [ret outcome]. apply (post_fr r s l _ _ s' _ S' (SameB_Fr _ _ B)); [constructor|reflexivity].
  - (* Rehash *)
    destruct s as [t h]. assert (length l <= live h) as Ll by (pose proof (si_live _ _ _ _ H) as Lv; cbn [snd] in Lv; lia).
    eapply outcome_bind; [eapply outcome_weaken; [apply (rehash_ok c t h l n' n T Ll)| |]|].
    + intros a s' X. exact X.
    + intros kd s' X. destruct (RehashExn_SI c r t h l kd s' H X) as (R & Y). split; [exact R|]. destruct Y as [(-> & ->)|(-> & l' & lost & S' & P & F)].
      * apply post_same; [exact H|]. left. auto.
      * apply (post_fr r (t, h) l _ _ s' l' S' F); [eapply ids_lost; exact P|]. right. split; [reflexivity|]. exists (map el lost). rewrite P, map_app. reflexivity.
    + intros u s' n1 [X _]. destruct (Rehashed_SI c r t h l s' H X) as (l' & S' & P & F). cbn [ret outcome].
      apply (post_fr r (t, h) l _ _ s' l' S' F); [apply (ids_lost _ l l' []); exact P|]. cbn [FcaSpec.spec1]. rewrite P. reflexivity.
  - (* Reserve *)
    destruct s as [t h]. assert (length l <= live h) as Ll by (pose proof (si_live _ _ _ _ H) as Lv; cbn [snd] in Lv; lia).
    eapply outcome_bind; [eapply outcome_weaken; [apply (reserve_ok c t h l n' n T Ll)| |]|].
    + intros a s' X. exact X.
    + intros kd s' X. destruct (RehashExn_SI c r t h l kd s' H X) as (R & Y). split; [exact R|]. destruct Y as [(-> & ->)|(-> & l' & lost & S' & P & F)].
      * apply post_same; [exact H|]. left. auto.
      * apply (post_fr r (t, h) l _ _ s' l' S' F); [eapply ids_lost; exact P|]. right. split; [reflexivity|]. exists (map el lost). rewrite P, map_app. reflexivity.
    + intros u s' n1 [X _]. destruct (Rehashed_SI c r t h l s' H X) as (l' & S' & P & F). cbn [ret outcome].
      apply (post_fr r (t, h) l _ _ s' l' S' F); [apply (ids_lost _ l l' []); exact P|]. cbn [FcaSpec.spec1]. rewrite P. reflexivity.
  - (* MaxLoadFactor *)
    destruct s as [t h]. unfold max_load_factor. rewrite mod_t_eq. cbn [ret outcome fst] in *. set (z' := match z with None => None | Some v => Some (Z.max v min_mlf) end).
    assert (TInv (recalc (set_mlf z' t)) l) as T'. { apply TInv_recalc_mlf; [exact T|]. unfold z'. destruct z; [apply Z.le_max_r|exact I]. }
    exists l. constructor; cbn [fst snd] in *; auto; try reflexivity.
    + constructor; [exact T'|apply (si_live _ _ _ _ H)|apply (si_next _ _ _ _ H)].
    + apply ids_sub. intros y Hy. exact Hy.
  - (* Iterate *)
    destruct s as [t h]. rewrite get_t_eq. cbn [fst] in *. rewrite (elements_ok t l (ci_b _ _ _ C) (ci_ids _ _ _ C) Sz). cbn [of_option]. rewrite bind_ret. cbn [ret outcome].
    apply post_same; [exact H|]. cbn. auto.
  - (* Size *)
    destruct s as [t h]. rewrite get_t_eq. cbn [ret outcome fst] in *. apply post_same; [exact H|]. cbn [FcaSpec.spec1]. rewrite len_el. auto.
Qed.
End Api.
