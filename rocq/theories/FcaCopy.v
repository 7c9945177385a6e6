(** Copy construction and copy assignment of the closed-addressing containers. *)
From Coq Require Import NArith ZArith Bool List Arith Lia Permutation.
From Verif Require Import FloatModel HashArithModel HashArithProofs FoaModel FoaGroup FoaBase FcaLinks FcaLinksProofs FcaModel FcaInv FcaIter FcaTab FcaRehash FcaOps FcaIns FcaIns2 FcaHandle FcaErase FcaErase2.
Import ListNotations.
Local Open Scope m_scope.
Local Open Scope nat_scope.

Section Copy.
Context {K V : Type} (c : FCfg K V).
Notation node := (node K V).
Notation barray := (barray K V).
Notation table := (FcaModel.table K V).
Notation cb := (base c).
Notation St := (table * heap)%type.
Notation CInv := (CInv c). Notation TInv := (TInv c). Notation raised := (raised c). Notation keq := (keq c). Notation lookup := (lookup c).
Notation SI := (SI c). Notation OpExn := (OpExn c).
Notation WExn := (WExn c).
Implicit Types (b nb : barray) (t : table) (x y : node) (s : St) (e : K * V).

Lemma nodup_app_r {A} (l1 l2 : list A) : NoDup (l1 ++ l2) -> NoDup l2.
Proof. induction l1 as [|a l1 IH]; [auto|]. cbn [app]. intros H. inversion H. auto. Qed.
Lemma nodup_app_l {A} (l1 l2 : list A) : NoDup (l1 ++ l2) -> NoDup l1.
Proof. induction l1 as [|a l1 IH]; [constructor|]. cbn [app]. intros H. inversion H. subst. constructor; [|auto]. intros I. apply H2. apply in_or_app. left. exact I. Qed.
(** *** the order of the keys in the whole sequence *)
Lemma uniq_of p (l : list node) : NoDup l -> (forall x y, In x l -> In y l -> keq p x y = true -> x = y) -> Uniq c p l.
Proof.
  induction l as [|a l IH]; intros ND H; [constructor|]. inversion ND as [|? ? N1 N2]. subst. constructor.
  - apply Forall_forall. intros y Iy. destruct (keq p a y) eqn:E; [|reflexivity]. exfalso. apply N1. rewrite (H a y); auto; [left; reflexivity|right; exact Iy].
  - apply IH; [exact N2|]. intros x y Ix Iy. apply H; right; assumption.
Qed.
Lemma keysok_all t l : TInv t l -> KeysOk c (f_pid t) l.
Proof.
  intros T. pose proof (ti_c _ _ _ T) as H. pose proof (NoDup_map_inv _ _ (ci_ids _ _ _ H)) as ND. pose proof (Eqv_of c t l H) as [Sy Tr].
  assert (forall x, keq (f_pid t) x x = true) as Rf by (intros x; destruct (ci_agree _ _ _ H) as [(R & _) _]; apply R).
  unfold KeysOk. destruct (multi c) eqn:M.
  - intros l1 x l2 y l3 El Ek. assert (In x l) as Ix by (rewrite El; apply in_elt). assert (In y l) as Iy by (rewrite El; apply in_or_app; right; right; apply in_elt).
    pose proof (TInv_wf c t l x T Ix) as W. destruct (CInv_in c t l x H Ix) as (p & Jx). pose proof (ci_placed _ _ _ H p x Jx) as Pp.
    assert (p < b_size (f_b t)) as Lp by (destruct W as (o & W & _); apply (chain_lt _ _ _ _ _ W Jx)).
    destruct (seq_chain _ _ p W Lp) as (A & C & Es & D).
    assert (forall z, In z A \/ In z C -> keq (f_pid t) x z = false) as NK. { intros z Iz. destruct (D z Iz) as (q & Nq & Jz). apply (not_here c t l (nkey x) p z q H Pp Jz Nq). }
    pose proof Jx as Jx0. apply in_split in Jx0 as (c1 & c2 & Ec). rewrite Ec in Es.
    assert (A ++ c1 = l1 /\ c2 ++ C = l2 ++ y :: l3) as [E1 E2].
    { apply (split_nodup x (A ++ c1) (c2 ++ C) l1 (l2 ++ y :: l3)); [rewrite <- El; exact ND|]. rewrite <- El, Es, <- !app_assoc. reflexivity. }
    assert (In y c2) as Jy. { assert (In y (c2 ++ C)) as Z by (rewrite E2; apply in_elt). apply in_app_or in Z as [Z|Z]; [exact Z|]. rewrite (NK y (or_intror Z)) in Ek. discriminate. }
    apply in_split in Jy as (d1 & d2 & ->). rewrite <- app_assoc in E2. cbn [app] in E2.
    assert (d1 = l2) as <-. { apply (split_nodup y d1 (d2 ++ C) l2 l3); [|symmetry; exact E2]. rewrite El in ND. apply nodup_app_r in ND. inversion ND. assumption. }
    pose proof (ci_keys _ _ _ H p) as G. unfold KeysOk in G. rewrite M in G. apply (G c1 x d1 y d2 Ec Ek).
  - apply uniq_of; [exact ND|]. intros x y Ix Iy E. apply (uniq_one c t l x y (nkey x) T M Ix Iy); [apply Rf|exact E].
Qed.

(** *** copying a sequence of nodes *)
Definition CopyPost (r : nat) (s : St) (l : list node) (es : list (K * V)) (s' : St) : Prop :=
  exists xs l', Permutation (map nd_kv xs) es /\ Forall (fun x => next (snd s) <= nd_id x) xs /\ SI r s' l' /\ Permutation l' (xs ++ l) /\ Fr s s'.
Definition CopyExn (r : nat) (s : St) (l : list node) (es : list (K * V)) (kd : kind) (s' : St) : Prop :=
  raised kd /\ exists f1 f2 : list (K * V), es = f1 ++ f2 /\ CopyPost r s l f1 s'.
Lemma copy_nil r s l : SI r s l -> CopyPost r s l [] s.
Proof. intros I. exists [], l. split; [reflexivity|]. split; [constructor|]. split; [exact I|]. split; [reflexivity|apply Fr_refl]. Qed.
Lemma copy_kept r s s' l : Kept s s' -> SI r s l -> CopyPost r s l [] s'.
Proof. intros Kp I. exists [], l. split; [reflexivity|]. split; [constructor|]. split; [apply (Kept_SI c r s); assumption|]. split; [reflexivity|apply Kept_Fr; exact Kp]. Qed.
Lemma copy_exn_kept r s s' l es kd : raised kd -> Kept s s' -> SI r s l -> CopyExn r s l es kd s'.
Proof. intros R Kp I. split; [exact R|]. exists [], es. split; [reflexivity|apply copy_kept; assumption]. Qed.
Lemma copy_seq r s l (e1 : list (K * V)) s1 l1 (e2 : list (K * V)) s2 : CopyPost r s l e1 s1 -> SI r s1 l1 -> CopyPost r s1 l1 e2 s2 -> CopyPost r s l (e1 ++ e2) s2.
Proof.
  intros (xs & l' & E & F & I & P & Fs) I1 (ys & l2 & E' & F' & I' & P' & Fs'). assert (l' = l1) as -> by (apply (SI_fun c r s1); assumption).
  exists (ys ++ xs), l2. split; [|split; [|split; [exact I'|split; [rewrite P', P, app_assoc; reflexivity|apply (Fr_trans s s1); assumption]]]].
  - rewrite map_app, E, E'. apply Permutation_app_comm.
  - apply Forall_app. split; [|exact F]. eapply Forall_impl; [|exact F']. cbn beta. destruct Fs as (_ & _ & L). intros a La. lia.
Qed.
Lemma InsPost_copy r s l hint x it s' : InsPost c r s l hint x it s' -> next (snd s) <= nd_id x -> CopyPost r s l [nd_kv x] s'.
Proof.
  intros (l0 & l' & P & IA & I & F & _) L. exists [x], l'. split; [reflexivity|]. split; [constructor; [exact L|constructor]|]. split; [exact I|]. split; [|exact F]. rewrite (Inserted_perm _ _ _ (InsAt_ins _ _ _ _ IA)), P. reflexivity.
Qed.
Lemma bind_ret_r {X A} (m : M X A) (s : X) n : bind m (fun a => ret a) s n = m s n.
Proof. unfold bind. destruct (m s n); reflexivity. Qed.
(** one step: the node y of another table is copied; no growth *)
Definition may_add (p : N) (l : list node) (y : node) : Prop := multi c = true \/ lookup p (nkey y) l = None.
Definition copy_one (y : node) : M St unit :=
  t <- get_t ;; h <- hash_for cb (f_hid t) (nkey y) ;; itb <- of_option (at_hash (f_b t) h) ;; x <- new_node c KTransfer (nd_kv y) ;;
  on_exn (hint <- (if multi c then find_node_impl c t (nkey y) itb else ret None) ;; on_b (fun b => insert_node_hint b itb x hint)) (delete_node x) ;;; mod_t inc_size.
Lemma copy_one_ok r s l y n : SI r s l -> 0 < b_size (f_b (fst s)) -> room l 1 -> may_add (f_pid (fst s)) l y ->
  outcome (copy_one y s n) (fun _ s' => CopyPost r s l [nd_kv y] s' /\ 0 < b_size (f_b (fst s'))) (CopyExn r s l [nd_kv y]).
Proof.
  intros I Z Rm MA. destruct s as [t h]. pose proof (si_t _ _ _ _ I) as T. pose proof (ti_c _ _ _ T) as H. cbn [fst] in *. unfold copy_one. rewrite get_t_eq.
  apply outcome_hash; [intros R; apply copy_exn_kept; [exact R|apply Kept_refl|exact I]|]. intros n1. destruct (at_hash_ok c t l (nkey y) H) as (itb & A). rewrite A. cbn [of_option]. rewrite bind_ret.
  eapply outcome_bind; [eapply outcome_weaken; [apply (new_node_ok c KTransfer (nd_kv y) t h n1)|intros a s' X; exact X|]|].
  { cbn beta. intros kd s' (_ & R & Y). apply copy_exn_kept; [exact R| |exact I]. destruct Y as [->| ->]; [apply Kept_refl|apply (kept_minus_plus (t, h))]. }
  cbn beta. intros x s' n2 [-> ->]. set (x := Nd (next h) (f_al t) (nd_kv y)). pose proof (plus_SI c r (t, h) l I) as I'. unfold plus in I'. cbn [fst snd] in I'. set (h1 := Hp (S (live h)) (S (next h))) in *.
  pose proof (fresh_hand c r (t, h) l (nd_kv y) I) as Hx. unfold plus in Hx. cbn [fst snd] in Hx. fold h1 x in Hx.
  assert (forall ho n', HintOk c t l (nkey x) ho -> outcome (on_b (fun b => insert_node_hint b itb x ho) (t, h1) n') (fun _ s' => forall n2, outcome (mod_t inc_size s' n2) (fun _ s' => CopyPost r (t, h) l [nd_kv y] s' /\ 0 < b_size (f_b (fst s'))) (CopyExn r (t, h) l [nd_kv y])) (fun _ _ => False)) as INS.
  { intros ho n' Hh. pose proof (on_b_insert_ok c r t h1 l x itb ho (fun u => ret u) n' (fun _ s' => forall n2, outcome (mod_t inc_size s' n2) (fun _ s' => CopyPost r (t, h) l [nd_kv y] s' /\ 0 < b_size (f_b (fst s'))) (CopyExn r (t, h) l [nd_kv y])) (fun _ _ => False) I' Hx Z A Hh Rm) as Q. rewrite bind_ret_r in Q.
    apply Q. intros t' l' I2 IA NI S ML BC n3. unfold mod_t, modify. cbn [outcome fst snd inc_size set_size f_b]. split; [|unfold bucket_count in BC; lia].
    change [nd_kv y] with [nd_kv x]. apply (InsPost_copy r (t, h) l ho x (EI (Some (nd_id x)) itb)); [|cbn; lia].
    exists l, l'. split; [reflexivity|]. split; [exact IA|]. split; [exact I2|]. split; [|split; [exact NI|auto]]. split; [exact S|]. split; [left; auto|cbn; lia]. }
  assert (forall (m : M St unit) n', outcome (m (t, h1) n') (fun _ s' => forall n2, outcome (mod_t inc_size s' n2) (fun _ s' => CopyPost r (t, h) l [nd_kv y] s' /\ 0 < b_size (f_b (fst s'))) (CopyExn r (t, h) l [nd_kv y])) (RO c (t, h1)) ->
    outcome ((on_exn m (delete_node x) ;;; mod_t inc_size) (t, h1) n') (fun _ s' => CopyPost r (t, h) l [nd_kv y] s' /\ 0 < b_size (f_b (fst s'))) (CopyExn r (t, h) l [nd_kv y])) as FIN.
  { intros m n' Q. unfold bind, on_exn. destruct (m (t, h1) n') as [u s1 n3|kd s1 n3|]; cbn [outcome] in *; [apply Q| |exact Q]. destruct Q as (-> & _ & R). rewrite delete_node_ok by (try reflexivity; cbn; lia). cbn [outcome].
    apply copy_exn_kept; [exact R|apply (kept_minus_plus (t, h))|exact I]. }
  apply FIN. destruct (multi c) eqn:M.
  - eapply outcome_bind; [apply (find_node_impl_ok c t l (nkey y) itb (t, h1) n2 H A)|]. cbn beta. intros ri s' n3 [-> ->].
    eapply outcome_weaken; [apply (INS _ n3 (lookup_hint c t l (nkey x) M))|intros [] s' X; exact X|intros kd s' []].
  - rewrite bind_ret. eapply outcome_weaken; [apply (INS None n2)|intros [] s' X; exact X|intros kd s' []]. destruct MA as [X|X]; [congruence|exact X].
Qed.
Lemma may_add_next r s l y s' l' z : CopyPost r s l [nd_kv y] s' -> SI r s' l' -> may_add (f_pid (fst s)) l z -> (multi c = false -> keq (f_pid (fst s)) y z = false) -> may_add (f_pid (fst s')) l' z.
Proof.
  intros (xs & l1 & E & _ & I & P & ((_ & F & _) & _)) I' MA U. assert (l1 = l') as -> by (apply (SI_fun c r s'); assumption). rewrite F. unfold may_add in *. destruct (multi c) eqn:M; [auto|]. right. destruct MA as [X|X]; [discriminate|].
  apply lookup_none. intros w Iw. apply (Permutation_in _ P) in Iw. apply in_app_or in Iw as [Iw|Iw]; [|apply (proj1 (lookup_none c _ _ _) X w Iw)].
  apply Permutation_sym, Permutation_length_1_inv in E. destruct xs as [|x [|x2 xs]]; try discriminate. destruct Iw as [<-|[]]. cbn [map] in E. assert (nd_kv x = nd_kv y) as Ex by congruence. unfold FcaTab.keq in U. unfold nkey in *. rewrite Ex. specialize (U eq_refl).
  rewrite <- U. destruct (ci_agree _ _ _ (ti_c _ _ _ (si_t _ _ _ _ I'))) as [(_ & Sy & _) _]. rewrite F in Sy. apply Sy.
Qed.
Lemma copy_room r s l es s' l' n : CopyPost r s l es s' -> SI r s' l' -> room l (length es + n) -> room l' n.
Proof.
  intros (xs & l1 & E & _ & I & P & _) I' Rm. assert (l1 = l') as -> by (apply (SI_fun c r s'); assumption). unfold room in *. rewrite (Permutation_length P), app_length. apply Permutation_length in E. rewrite map_length in E. lia.
Qed.
Lemma copy_nodes_ok r src : forall s l n, SI r s l -> 0 < b_size (f_b (fst s)) -> room l (length src) -> Forall (may_add (f_pid (fst s)) l) src -> (multi c = false -> Uniq c (f_pid (fst s)) src) ->
  outcome (copy_nodes c src s n) (fun _ s' => CopyPost r s l (map nd_kv src) s') (CopyExn r s l (map nd_kv src)).
Proof.
  induction src as [|y src IH]; intros s l n I Z Rm MA U; [cbn [copy_nodes map outcome ret]; apply copy_nil; exact I|].
  assert (copy_nodes c (y :: src) s n = bind (copy_one y) (fun _ => copy_nodes c src) s n) as ->.
  { cbn [copy_nodes]. unfold copy_one, bind. destruct (get_t s n) as [t s1 n1| |]; try reflexivity. destruct (hash_for cb (f_hid t) (nkey y) s1 n1) as [hh s2 n2| |]; try reflexivity. destruct (of_option (at_hash (f_b t) hh) s2 n2) as [itb s3 n3| |]; try reflexivity.
    destruct (new_node c KTransfer (nd_kv y) s3 n3) as [x s4 n4| |]; try reflexivity. match goal with |- context [on_exn ?m ?d s4 n4] => destruct (on_exn m d s4 n4) as [u s5 n5| |] end; reflexivity. }
  cbn [length] in Rm. inversion MA as [|? ? MA1 MA2]. subst. cbn [map]. change (nd_kv y :: map nd_kv src) with ([nd_kv y] ++ map nd_kv src).
  eapply outcome_bind; [eapply outcome_weaken; [apply (copy_one_ok r s l y n I Z); [unfold room in *; lia|exact MA1]|intros a s' X; exact X|]|].
  { intros kd s' (R & e1 & e2 & E & X). split; [exact R|]. exists e1, (e2 ++ map nd_kv src). split; [rewrite app_assoc, <- E; reflexivity|exact X]. }
  cbn beta. intros _ s1 n1 (P & Z1). pose proof P as (xs & l1 & _ & _ & I1 & _ & F1).
  eapply outcome_weaken; [apply (IH s1 l1 n1 I1 Z1)| |].
  - apply (copy_room r s l [nd_kv y] s1); assumption.
  - apply Forall_forall. intros z Iz. rewrite Forall_forall in MA2. apply (may_add_next r s l y s1 l1 z P I1 (MA2 z Iz)). intros M. specialize (U M). inversion U as [|? ? Fy _]. subst. rewrite Forall_forall in Fy. apply Fy. exact Iz.
  - intros M. destruct F1 as ((_ & Fp & _) & _). rewrite Fp. specialize (U M). inversion U. assumption.
  - intros [] s2 Q. apply (copy_seq r s l [nd_kv y] s1 l1); assumption.
  - intros kd s2 (R & e1 & e2 & E & Q). split; [exact R|]. exists ([nd_kv y] ++ e1), e2. split; [rewrite E, app_assoc; reflexivity|]. apply (copy_seq r s l [nd_kv y] s1 l1); assumption.
Qed.
(** [Rehashed] without elements *)
Lemma copy_buckets_ok r s src ls n : SI r s [] -> TInv src ls -> f_pid src = f_pid (fst s) ->
  outcome (copy_buckets c src s n) (fun _ s' => CopyPost r s [] (map nd_kv ls) s') (CopyExn r s [] (map nd_kv ls)).
Proof.
  intros I T Ep. destruct s as [t h]. cbn [fst] in Ep. unfold copy_buckets. pose proof (si_t _ _ _ _ I) as Tt. cbn [fst] in Tt.
  assert (elements src = Some ls) as El by (apply elements_ok; [apply (ci_b _ _ _ (ti_c _ _ _ T))|apply (ci_ids _ _ _ (ti_c _ _ _ T))|apply (ti_size _ _ _ T)]). rewrite El. cbn [of_option].
  assert (forall A (m : M St A) s n, bind (ret ls) (fun l => m) s n = m s n) as _ by reflexivity.
  destruct ls as [|y ls].
  - assert (f_size src = 0%N) as -> by apply (ti_size _ _ _ T). unfold reserve_for_insert. rewrite bind_bind, get_t_eq. destruct (N.ltb_spec (f_ml t) 0) as [X|_]; [lia|]. rewrite bind_ret, bind_ret. cbn [copy_nodes outcome ret map]. apply copy_nil. exact I.
  - remember (y :: ls) as all eqn:Ea. assert (0 < length all) as La by (subst all; cbn; lia). clear Ea El y ls. pose proof (ti_room _ _ _ T) as Rm.
    eapply outcome_bind; [eapply outcome_weaken; [apply (reserve_for_insert_ok c t h [] (f_size src) n Tt)|intros a s' X; exact X|]|].
    + cbn; lia.
    + rewrite (ti_size _ _ _ T). lia.
    + rewrite (ti_size _ _ _ T). lia.
    + cbn beta. intros kd s' (X & _). destruct (RehashExn_SI c r t h [] kd s' I X) as (R & [[-> ->]|(-> & l' & lost & I' & P & F)]).
      * apply copy_exn_kept; [exact R|apply Kept_refl|exact I].
      * split; [exact R|]. exists [], (map nd_kv all). split; [reflexivity|]. exists [], l'. split; [reflexivity|]. split; [constructor|]. split; [exact I'|]. split; [|exact F]. apply Permutation_nil in P. apply app_eq_nil in P as [_ ->]. reflexivity.
    + cbn beta. intros _ s1 n1 (Rh & Z & _). destruct (Rehashed_SI c r t h [] s1 I Rh) as (l1 & I1 & P & F). apply Permutation_nil in P. subst l1.
      rewrite bind_ret. pose proof F as ((_ & Fp & _) & _). cbn [fst] in Fp. assert (CopyPost r (t, h) [] [] s1) as C0. { exists [], []. split; [reflexivity|]. split; [constructor|]. split; [exact I1|]. split; [reflexivity|exact F]. }
      eapply outcome_weaken; [apply (copy_nodes_ok r all s1 [] n1 I1 Z)| |].
      * unfold room. cbn [length]. lia.
      * apply Forall_forall. intros z _. right. reflexivity.
      * intros M. pose proof (keysok_all src all T) as KO. unfold KeysOk in KO. rewrite M in KO. congruence.
      * intros [] s2 Q. apply (copy_seq r (t, h) [] [] s1 []); assumption.
      * intros kd s2 (R & e1 & e2 & E & Q). split; [exact R|]. exists e1, e2. split; [exact E|]. apply (copy_seq r (t, h) [] [] s1 [] e1); assumption.
Qed.

(** *** construction *)
Definition MLok (t : table) : Prop := f_ml t = max_load_for (f_mlf t) (bucket_count (f_b t)).
Lemma MLstep_ok t t' : MLstep t t' -> f_mlf t' = f_mlf t -> MLok t -> MLok t'.
Proof. unfold MLok. intros [[A B]|A] E O; congruence. Qed.
Lemma Fr_ok s s' : Fr s s' -> MLok (fst s) -> MLok (fst s').
Proof. intros ((_ & _ & _ & E) & M & _). apply MLstep_ok; assumption. Qed.
Lemma MLok_recalc t : MLok (recalc t). Proof. reflexivity. Qed.
Lemma fresh_tab hid pid al mlf b : agree cb hid pid -> (match mlf with None => True | Some m => (min_mlf <= m)%Z end) -> b_own b = al -> BOk b [] -> (forall q, chainat b q = []) -> TInv (recalc (FT hid pid al 0 mlf 0 b)) [].
Proof.
  intros A M O B C. constructor; [|reflexivity|reflexivity]. constructor; cbn [recalc set_ml f_b f_al f_pid f_hid f_ml f_mlf]; auto.
  - constructor.
  - intros q. rewrite C. apply keysok_nil.
  - intros q x. rewrite C. intros [].
  - intros E. unfold bucket_count. rewrite E. reflexivity.
Qed.
Definition NewPost (h : heap) (hid pid al : N) (mlf : option Z) (es : list (K * V)) (t : table) (h' : heap) : Prop :=
  exists l, SI (live h) (t, h') l /\ Permutation (map nd_kv l) es /\ Forall (fun x => next h <= nd_id x) l /\ next h <= next h' /\ MLok t /\ f_hid t = hid /\ f_pid t = pid /\ f_al t = al /\ f_mlf t = mlf.
Definition NewExn (h : heap) (kd : kind) (h' : heap) : Prop := raised kd /\ live h' = live h /\ next h <= next h'.
Lemma new_table_ok h hid pid al bc n : agree cb hid pid -> outcome (new_table c hid pid al bc h n) (fun t h' => NewPost h hid pid al (Some f32_one) [] t h' /\ bucket_count_for bc = Some (bucket_count (f_b t))) (fun kd h' => kd = KAlloc /\ NewExn h kd h').
Proof.
  intros A. unfold new_table. eapply outcome_bind; [eapply outcome_weaken; [apply (new_barray_ok c al bc h n)|intros a s' X; exact X|]|].
  - cbn beta. intros kd h' (-> & R & ->). split; [reflexivity|]. split; [exact R|]. split; [reflexivity|lia].
  - cbn beta. intros b h' n1 (-> & O & B & BC & _ & _ & C). cbn [outcome ret]. split; [|exact BC]. exists []. split; [|split; [reflexivity|split; [constructor|split; [lia|split; [apply MLok_recalc|repeat split]]]]].
    constructor; cbn [fst snd length]; [|reflexivity|constructor]. apply fresh_tab; auto. vm_compute. discriminate.
Qed.
Lemma destroy_ok r s l n E : SI r s l -> outcome (destroy_table s n) (fun _ s' => s' = no_buckets s l) E.
Proof.
  intros I. unfold destroy_table. rewrite <- (bind_ret_r delete_buckets). apply (delete_buckets_ok c r s l); [exact I|]. intros n'. reflexivity.
Qed.
Lemma construct_then_ok (mk : M heap table) (body : M St unit) h hid pid al mlf es n :
  outcome (mk h n) (fun t h' => NewPost h hid pid al mlf [] t h') (NewExn h) ->
  (forall t h' n', SI (live h) (t, h') [] -> f_hid t = hid -> f_pid t = pid -> outcome (body (t, h') n') (fun _ s' => CopyPost (live h) (t, h') [] es s') (CopyExn (live h) (t, h') [] es)) ->
  outcome (construct_then mk body h n) (NewPost h hid pid al mlf es) (NewExn h).
Proof.
  intros H1 H2. unfold construct_then. destruct (mk h n) as [t h1 n1|kd h1 n1|]; cbn [outcome] in *; [|exact H1|exact H1]. destruct H1 as (l & I & P & _ & Nx & ML & E1 & E2 & E3 & E4). assert (l = []) as -> by (destruct l; [reflexivity|apply Permutation_sym, Permutation_nil in P; discriminate]).
  specialize (H2 t h1 n1 I E1 E2). destruct (body (t, h1) n1) as [u s2 n2|kd s2 n2|]; cbn [outcome] in *; [| |exact H2].
  - destruct H2 as (xs & l' & E & F & I' & P' & Fr'). rewrite app_nil_r in P'. pose proof Fr' as ((F1 & F2 & F3 & F4) & F5 & F6). cbn [fst snd] in *. exists l'. rewrite <- surjective_pairing. split; [exact I'|]. split; [rewrite P'; exact E|]. split; [|split; [lia|split; [apply (Fr_ok (t, h1) s2 Fr' ML)|repeat split; congruence]]].
    rewrite P'. eapply Forall_impl; [|exact F]. cbn beta. intros a La. lia.
  - destruct H2 as (R & e1 & e2 & _ & xs & l' & E & F & I' & P' & ((F1 & F2 & F3 & F4) & F5 & F6)). cbn [fst snd] in *. pose proof (destroy_ok (live h) s2 l' n2 (fun _ _ => False) I') as D. destruct (destroy_table s2 n2) as [u s3 n3| |]; cbn [outcome] in *; [|destruct D|destruct D]. subst s3.
    split; [exact R|]. cbn [no_buckets snd live next]. pose proof (si_live _ _ _ _ I') as SL. split; lia.
Qed.
Lemma copy_construct_ok h (x : table) lx al n : TInv x lx -> outcome (copy_construct c x al h n) (NewPost h (f_hid x) (f_pid x) al (f_mlf x) (map nd_kv lx)) (NewExn h).
Proof.
  intros T. unfold copy_construct. apply construct_then_ok.
  - eapply outcome_bind; [eapply outcome_weaken; [apply (new_barray_ok c al (f_size x) h n)|intros a s' X; exact X|]|].
    + cbn beta. intros kd h' (-> & R & ->). split; [exact R|]. split; [reflexivity|lia].
    + cbn beta. intros b h' n1 (-> & O & B & BC & _ & _ & C). cbn [outcome ret]. exists []. split; [|split; [reflexivity|split; [constructor|split; [lia|split; [apply MLok_recalc|repeat split]]]]].
      constructor; cbn [fst snd length]; [|reflexivity|constructor]. apply fresh_tab; auto; [apply (ci_agree _ _ _ (ti_c _ _ _ T))|apply (ci_mlf _ _ _ (ti_c _ _ _ T))].
  - intros t h' n' I E1 E2. destruct (N.ltb_spec 0 (f_size x)) as [L|L]; [apply copy_buckets_ok; auto|]. cbn [outcome ret]. assert (lx = []) as -> by (destruct lx; [reflexivity|rewrite (ti_size _ _ _ T) in L; cbn in L; lia]). apply copy_nil. exact I.
Qed.

(** *** copy assignment *)
Lemma TInv_recalc_mlf t l z : TInv t l -> match z with None => True | Some m => (min_mlf <= m)%Z end -> TInv (recalc (set_mlf z t)) l.
Proof.
  intros [[C1 C2 C3 C4 C5 C6 C7 C8 C9] Sz Rm] M. constructor; [|exact Sz|exact Rm]. constructor; cbn [recalc set_ml set_mlf f_b f_al f_pid f_hid f_ml f_mlf]; auto. intros E. unfold bucket_count. rewrite E. reflexivity.
Qed.
Lemma TInv_set_hp t h p : TInv t [] -> agree cb h p -> TInv (set_hp h p t) [].
Proof.
  intros T A. pose proof T as T0. destruct T as [[C1 C2 C3 C4 C5 C6 C7 C8 C9] Sz Rm]. assert (forall q, chainat (f_b t) q = []) as C. { intros q. destruct (chainat (f_b t) q) as [|y r0] eqn:E; [reflexivity|]. exfalso. apply (in_CInv c t [] y q (ti_c _ _ _ T0)). rewrite E. left. reflexivity. }
  constructor; [|exact Sz|exact Rm]. constructor; cbn [set_hp f_b f_al f_pid f_hid f_ml f_mlf]; auto; [intros q; rewrite C; apply keysok_nil|intros q x; rewrite C; intros []].
Qed.
(** the destination of an assignment from [es]: the old contents or a part of them, or a part of the new ones *)
Definition AsgPost (r : nat) (s : St) (x : table) (al : N) (es : list (K * V)) (s' : St) : Prop :=
  exists l', SI r s' l' /\ Permutation (map nd_kv l') es /\ Forall (fun y => next (snd s) <= nd_id y) l' /\ next (snd s) <= next (snd s') /\
    f_hid (fst s') = f_hid x /\ f_pid (fst s') = f_pid x /\ f_al (fst s') = al /\ f_mlf (fst s') = f_mlf x.
Definition AsgExn (r : nat) (s : St) (l : list node) (x : table) (es : list (K * V)) (kd : kind) (s' : St) : Prop :=
  raised kd /\ next (snd s) <= next (snd s') /\
  ((exists l' lost, SI r s' l' /\ Permutation l (lost ++ l') /\ (kd <> KHash -> lost = []) /\ f_hid (fst s') = f_hid (fst s) /\ f_pid (fst s') = f_pid (fst s) /\ f_al (fst s') = f_al (fst s)) \/
   (exists f1 f2 : list (K * V), es = f1 ++ f2 /\ AsgPost r s x (f_al (fst s')) f1 s' /\ ((pocca cb = true /\ f_al (fst s') = f_al x) \/ f_al (fst s') = f_al (fst s)))).
Lemma assign_noprop_ok r s l (x : table) lx n : SI r s l -> TInv x lx ->
  outcome (assign_noprop c x s n) (fun _ s' => AsgPost r s x (f_al (fst s)) (map nd_kv lx) s' /\ MLok (fst s')) (fun kd s' => AsgExn r s l x (map nd_kv lx) kd s' /\ MLok (fst s')).
Proof.
  intros I T. destruct s as [t h]. pose proof (si_t _ _ _ _ I) as Tt. cbn [fst] in Tt. unfold assign_noprop. rewrite mod_t_eq.
  set (t1 := recalc (set_mlf (f_mlf x) t)). assert (SI r (t1, h) l) as I1. { destruct I as [_ I2 I3]. constructor; [apply TInv_recalc_mlf; [exact Tt|apply (ci_mlf _ _ _ (ti_c _ _ _ T))]|exact I2|exact I3]. }
  assert (MLok t1) as ML1 by apply MLok_recalc. assert (SameT t t1 \/ True) as _ by auto.
  assert (f_hid t1 = f_hid t /\ f_pid t1 = f_pid t /\ f_al t1 = f_al t /\ f_mlf t1 = f_mlf x) as (T1a & T1b & T1c & T1d) by (repeat split). pose proof (si_t _ _ _ _ I1) as Tt1. cbn [fst] in Tt1. clearbody t1.
  (* reserve_for_insert *)
  assert (outcome (reserve_for_insert c (f_size x) (t1, h) n) (fun _ s' => exists l1, SI r s' l1 /\ Permutation l l1 /\ Fr (t1, h) s') (fun kd s' => AsgExn r (t, h) l x (map nd_kv lx) kd s' /\ MLok (fst s'))) as RFI.
  { destruct (N.eq_dec (f_size x) 0) as [E0|E0].
    - unfold reserve_for_insert. rewrite E0, get_t_eq. destruct (N.ltb_spec (f_ml t1) 0) as [X|_]; [lia|]. cbn [outcome ret]. exists l. split; [exact I1|]. split; [reflexivity|apply Fr_refl].
    - pose proof (si_live _ _ _ _ I1) as SL. cbn [snd] in SL. eapply outcome_weaken; [apply (reserve_for_insert_ok c t1 h l (f_size x) n Tt1)| |]; [lia|lia|rewrite (ti_size _ _ _ T); pose proof (ti_room _ _ _ T); lia| |].
      + cbn beta. intros _ s' (Rh & _). destruct (Rehashed_SI c r t1 h l s' I1 Rh) as (l1 & A & B & C). eauto.
      + cbn beta. intros kd s' (X & _). destruct (RehashExn_SI c r t1 h l kd s' I1 X) as (R & [[-> ->]|(-> & l' & lost & I' & P & F)]).
        * split; [|exact ML1]. split; [exact R|]. split; [cbn; lia|]. left. exists l, []. split; [exact I1|]. split; [reflexivity|]. split; [reflexivity|]. repeat split; assumption.
        * split; [|apply (Fr_ok (t1, h) s' F ML1)]. destruct F as ((F1 & F2 & F3 & F4) & F5 & F6). cbn [fst snd] in *. split; [exact R|]. split; [exact F6|]. left. exists l', lost. split; [exact I'|]. split; [exact P|]. split; [congruence|]. cbn [fst]; split; [congruence|]; split; congruence. }
  eapply outcome_bind; [exact RFI|]. cbn beta. intros _ s1 n1 (l1 & I2 & P1 & F1). pose proof (Fr_ok _ _ F1 ML1) as ML2.
  eapply outcome_bind; [apply (clear_ok c r s1 l1 n1 _ I2)|]. cbn beta. intros _ [t2 h2] n2 (I3 & SB). rewrite mod_t_eq. pose proof (SameB_Fr _ _ SB) as F2. pose proof (Fr_trans _ _ _ F1 F2) as F12. pose proof (Fr_ok _ _ F2 ML2) as ML3. cbn [fst] in ML3.
  set (t3 := set_hp (f_hid x) (f_pid x) t2). assert (SI r (t3, h2) []) as I4. { destruct I3 as [J1 J2 J3]. constructor; [apply TInv_set_hp; [exact J1|apply (ci_agree _ _ _ (ti_c _ _ _ T))]|exact J2|exact J3]. }
  destruct F12 as ((G1 & G2 & G3 & G4) & _ & G6). cbn [fst snd] in *. assert (MLok t3) as ML4 by exact ML3.
  assert (forall es s', CopyPost r (t3, h2) [] es s' -> AsgPost r (t, h) x (f_al (fst s')) es s' /\ MLok (fst s') /\ f_al (fst s') = f_al t /\ next h <= next (snd s')) as FIN.
  { intros es s' (xs & l' & E & F & I' & P' & Fr'). rewrite app_nil_r in P'. pose proof (Fr_ok _ _ Fr' ML4) as ML5. destruct Fr' as ((H1 & H2 & H3 & H4) & H5 & H6). cbn [fst snd t3 set_hp f_hid f_pid f_al f_mlf] in *. split; [|split; [exact ML5|split; [congruence|lia]]].
    exists l'. split; [exact I'|]. split; [rewrite P'; exact E|]. split; [rewrite P'; eapply Forall_impl; [|exact F]; cbn beta; cbn [snd]; intros a La; lia|]. cbn [fst snd]. split; [lia|]. repeat split; try congruence. }
  eapply outcome_weaken; [apply (copy_buckets_ok r (t3, h2) x lx n2 I4 T); reflexivity| |].
  - cbn beta. intros [] s' Q. destruct (FIN _ s' Q) as (A & B & C & D). cbn [fst] in *. rewrite C in A. auto.
  - cbn beta. intros kd s' (R & e1 & e2 & E & Q). destruct (FIN _ s' Q) as (A & B & C & D). split; [|exact B]. split; [exact R|]. cbn [snd fst]. split; [exact D|]. right. exists e1, e2. split; [exact E|]. auto.
Qed.
(** releasing the buckets uses neither the hash function nor the equality predicate *)
Section Hp.
Variables (hh pp : N).
Definition hps (s : St) : St := (set_hp hh pp (fst s), snd s).
Definition hpr {A} (r : R St A) : R St A := match r with Ret a s n => Ret a (hps s) n | Exn k s n => Exn k (hps s) n | Undef => Undef end.
Definition Com {A} (m : M St A) : Prop := forall s n, m (hps s) n = hpr (m s n).
Lemma com_bind {A B} (m : M St A) (f : A -> M St B) : Com m -> (forall a, Com (f a)) -> Com (bind m f).
Proof. intros H1 H2 s n. unfold bind. rewrite H1. destruct (m s n) as [a s' n'|k s' n'|]; cbn [hpr]; [apply H2|reflexivity|reflexivity]. Qed.
Lemma com_ret {A} (a : A) : Com (ret a). Proof. intros s n. reflexivity. Qed.
Lemma com_undef {A} : Com (@undef St A). Proof. intros s n. reflexivity. Qed.
Lemma com_opt {A} (o : option A) : Com (of_option o). Proof. destruct o; [apply com_ret|apply com_undef]. Qed.
Lemma com_get {A} (f : table -> M St A) : (forall t, f (set_hp hh pp t) = f t) -> (forall t, Com (f t)) -> Com (bind get_t f).
Proof. intros H1 H2 [t h] n. unfold hps. cbn [fst snd]. rewrite !get_t_eq, H1. apply (H2 t (t, h)). Qed.
Lemma com_mod (g : table -> table) : (forall t, g (set_hp hh pp t) = set_hp hh pp (g t)) -> Com (mod_t g).
Proof. intros H [t h] n. unfold mod_t, modify. cbn [hps fst snd hpr]. rewrite H. reflexivity. Qed.
Lemma com_on_b f : Com (on_b f).
Proof. unfold on_b. apply com_get; [reflexivity|]. intros t. apply com_bind; [apply com_opt|]. intros b. apply com_mod. reflexivity. Qed.
Lemma com_delete x : Com (delete_node x).
Proof. intros [t h] n. unfold delete_node. rewrite !bind_get. cbn [hps fst snd set_hp f_al]. destruct (_ && _)%bool; reflexivity. Qed.
Lemma com_delete_from fuel : forall pos, Com (delete_from fuel pos).
Proof.
  induction fuel as [|fuel IH]; intros pos; cbn [delete_from]; [apply com_undef|]. destruct (e_eqb pos e_end); [apply com_ret|].
  apply com_get; [reflexivity|]. intros t. apply com_bind; [apply com_opt|]. intros x. apply com_bind; [apply com_opt|]. intros nx. apply com_bind; [apply com_on_b|]. intros _. apply com_bind; [apply com_delete|]. intros _. apply com_bind; [apply com_mod; reflexivity|]. intros _. apply IH.
Qed.
Lemma com_delete_buckets : Com delete_buckets.
Proof.
  unfold delete_buckets. apply com_get; [reflexivity|]. intros t. apply com_bind; [apply com_opt|]. intros it. apply com_bind; [apply com_delete_from|]. intros _. apply com_get; [reflexivity|]. intros t'. apply com_bind; [apply com_opt|]. intros _. apply com_mod. reflexivity.
Qed.
End Hp.
(** what the allocators have to satisfy for the maximum load to be right after a copy assignment *)
Definition same_arena (t x : table) : Prop := pocca cb = false \/ f_al t = f_al x.
Lemma copy_assign_ok r s l (x : table) lx n : SI r s l -> TInv x lx -> same_arena (fst s) x \/ lx <> [] \/ f_ml (fst s) = 0%N ->
  outcome (copy_assign c x s n) (fun _ s' => AsgPost r s x (if pocca cb then f_al x else f_al (fst s)) (map nd_kv lx) s' /\ (same_arena (fst s) x -> MLok (fst s')))
    (fun kd s' => AsgExn r s l x (map nd_kv lx) kd s' /\ (same_arena (fst s) x -> MLok (fst s) -> MLok (fst s'))).
Proof.
  intros I T Pre. destruct s as [t h]. pose proof (si_t _ _ _ _ I) as Tt. cbn [fst] in *. unfold copy_assign. rewrite get_t_eq.
  assert (forall P, (pocca cb = true -> f_al t = f_al x) -> outcome (assign_noprop c x (t, h) n) (fun _ s' => AsgPost r (t, h) x (if pocca cb then f_al x else f_al t) (map nd_kv lx) s' /\ (P -> MLok (fst s')))
    (fun kd s' => AsgExn r (t, h) l x (map nd_kv lx) kd s' /\ (P -> MLok t -> MLok (fst s')))) as NP.
  { intros P E. eapply outcome_weaken; [apply (assign_noprop_ok r (t, h) l x lx n I T)| |].
    - cbn beta. intros [] s' (A & B). split; [|auto]. cbn [fst] in A. destruct (pocca cb); [rewrite <- E by reflexivity; exact A|exact A].
    - cbn beta. intros kd s' (A & B). auto. }
  destruct (pocca cb) eqn:PC; [|apply NP; discriminate]. destruct (N.eqb_spec (f_al t) (f_al x)) as [EA|EA]; [apply NP; auto|]. clear NP.
  assert (same_arena t x -> False) as NS by (intros [X|X]; [congruence|contradiction]).
  eapply outcome_bind; [eapply outcome_weaken; [apply (new_barray_ok c (f_al x) (f_size x) (t, h) n)|intros a s' X; exact X|]|].
  { cbn beta. intros kd s' (-> & R & ->). split; [|auto]. split; [exact R|]. split; [lia|]. left. exists l, []. split; [exact I|]. split; [reflexivity|]. repeat split. }
  cbn beta. intros nb s' n1 (-> & O & B & BC & Nz & Nz' & Ch). rewrite mod_t_eq.
  set (t0 := set_hp (f_hid x) (f_pid x) t).
  pose proof (com_delete_buckets (f_hid x) (f_pid x) (t, h) n1) as DB. unfold hps in DB at 1. cbn [fst snd] in DB. fold t0 in DB. unfold bind at 1. rewrite DB. clear DB.
  pose proof (destroy_ok r (t, h) l n1 (fun _ _ => False) I) as DO. unfold destroy_table in DO. destruct (delete_buckets (t, h) n1) as [u s1 n2| |]; cbn [outcome] in DO; [|destruct DO|destruct DO]. subst s1. unfold hpr, hps, no_buckets. cbn [fst snd]. do 2 rewrite mod_t_eq.
  set (h1 := Hp (live h - length l) (next h)). match goal with |- outcome (bind _ _ (?a, h1) _) _ _ => set (t1 := a) end.
  assert (SI r (t1, h1) []) as I1.
  { constructor; cbn [fst snd length]; [|pose proof (si_live _ _ _ _ I) as SL; unfold h1; cbn [live snd] in *; lia|constructor]. constructor; [|reflexivity|reflexivity]. unfold t1. constructor; cbn [set_mlf set_b set_al set_hp set_size f_b f_al f_pid f_hid f_ml f_mlf]; auto.
    - constructor.
    - intros q. rewrite Ch. apply keysok_nil.
    - intros q y. rewrite Ch. intros [].
    - intros Bz. destruct (N.eq_dec (f_size x) 0) as [E0|E0]; [|specialize (Nz' E0); lia]. destruct Pre as [X|[X|X]]; [destruct (NS X)| |exact X]. exfalso. apply X. rewrite (ti_size _ _ _ T) in E0. destruct lx; [reflexivity|cbn in E0; lia].
    - apply (ci_mlf _ _ _ (ti_c _ _ _ T)).
    - apply (ci_agree _ _ _ (ti_c _ _ _ T)). }
  assert (f_hid t1 = f_hid x /\ f_pid t1 = f_pid x /\ f_al t1 = f_al x /\ f_mlf t1 = f_mlf x) as (T1 & T2 & T3 & T4) by (repeat split). assert (next h1 = next h) as Nx by reflexivity. pose proof (si_t _ _ _ _ I1) as Tt1. cbn [fst] in Tt1. clearbody t1 h1.
  assert (forall es s', CopyPost r (t1, h1) [] es s' -> AsgPost r (t, h) x (f_al x) es s') as FIN.
  { intros es s' (xs & l' & E & F & I' & P' & Fr'). rewrite app_nil_r in P'. destruct Fr' as ((H1 & H2 & H3 & H4) & H5 & H6). cbn [fst snd] in *. exists l'. split; [exact I'|]. split; [rewrite P'; exact E|]. split; [rewrite P'; eapply Forall_impl; [|exact F]; cbn beta; cbn [snd]; intros a La; lia|]. cbn [fst snd]. split; [lia|]. repeat split; congruence. }
  assert (forall es kd s', es = map nd_kv lx -> CopyExn r (t1, h1) [] es kd s' -> AsgExn r (t, h) l x es kd s' /\ (same_arena t x -> MLok t -> MLok (fst s'))) as FINX.
  { intros es kd s' Ees (R & e1 & e2 & E & Q). split; [|intros X; destruct (NS X)]. apply FIN in Q. pose proof Q as (l' & _ & _ & _ & Nx' & _ & _ & Ea & _). split; [exact R|]. split; [exact Nx'|]. right. exists e1, e2. split; [exact E|]. split; [rewrite Ea; exact Q|left; split; [exact PC|exact Ea]]. }
  eapply outcome_bind; [eapply outcome_weaken; [apply (reserve_ok c t1 h1 [] (f_size x) n2 Tt1 ltac:(cbn; lia))|intros a s' X; exact X|]|].
  { cbn beta. intros kd s' X. apply FINX; [reflexivity|]. destruct (RehashExn_SI c r t1 h1 [] kd s' I1 X) as (R & [[-> ->]|(-> & l' & lost & I' & P & F)]).
    - apply copy_exn_kept; [exact R|apply Kept_refl|exact I1].
    - split; [exact R|]. exists [], (map nd_kv lx). split; [reflexivity|]. exists [], l'. split; [reflexivity|]. split; [constructor|]. split; [exact I'|]. split; [|exact F]. apply Permutation_nil in P. apply app_eq_nil in P as [_ ->]. reflexivity. }
  cbn beta. intros _ s1 n3 (Rh & _). destruct (Rehashed_SI c r t1 h1 [] s1 I1 Rh) as (l1 & I2 & P & F). apply Permutation_nil in P. subst l1. pose proof F as ((_ & Fp & _) & _). cbn [fst] in Fp.
  assert (CopyPost r (t1, h1) [] [] s1) as C0. { exists [], []. split; [reflexivity|]. split; [constructor|]. split; [exact I2|]. split; [reflexivity|exact F]. }
  destruct (N.ltb_spec 0 (f_size x)) as [L|L].
  - eapply outcome_weaken; [apply (copy_buckets_ok r s1 x lx n3 I2 T); congruence| |].
    + cbn beta. intros [] s2 Q. split; [|intros X; destruct (NS X)]. apply FIN. apply (copy_seq r (t1, h1) [] [] s1 []); assumption.
    + cbn beta. intros kd s2 (R & e1 & e2 & E & Q). apply FINX; [reflexivity|]. split; [exact R|]. exists e1, e2. split; [exact E|]. apply (copy_seq r (t1, h1) [] [] s1 [] e1); assumption.
  - cbn [outcome ret]. split; [|intros X; destruct (NS X)]. apply FIN. assert (lx = []) as -> by (destruct lx; [reflexivity|rewrite (ti_size _ _ _ T) in L; cbn in L; lia]). exact C0.
Qed.
End Copy.
