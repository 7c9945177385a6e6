(** C20: saving and loading open-addressing containers and concurrent containers.

    [reachable c t]: t is a container of some program (Properties_Foa.v). [contents c t]: what iteration visits. SerialSpec.v defines archives (a number of
    elements and the elements that can be read), what [saved] and [loaded] mean for each way load may end, and [interrupted].
    [same_key c t x y]: the keys of two elements are equivalent for t. [size_ok c m]: an array for m elements is within the address space. *)
From Coq Require Import NArith Bool List Arith Lia Permutation.
From Verif Require Import SizeModel GroupModel FoaModel FoaBase FoaArr FoaInv FoaIterModel FoaSpec FoaWorld FoaRun FoaApi FoaProps FoaProps2 FoaExamples SerialSpec SerialModel SerialFacts FoaSerial.
From Verif Require Import ConcSpec ConcModel ConcInv ConcSys ConcProps ConcConv ConcExec ConcWrap ConcSerial.
From Verif Require Properties_Conc.
Import ListNotations.
Local Open Scope N_scope.

Definition same_key {K V} (c : Cfg K V) (t : table K V) (x y : K * V) : bool := keqf c (pid t) (fst x) (fst y).
(** the announced number of elements can be asked for *)
Definition reasonable {K V} (c : Cfg K V) (a : archive (K * V)) : Prop := size_ok c (ceil_div_mlf (count a)).

(** saving: the number of elements and every element once, in the order of iteration; it cannot throw *)
Theorem C20_save :
  forall (K V : Type) (c : Cfg K V), good_cfg c -> forall (t : table K V) n, reachable c t ->
  exists a, m_save c t tt n = Ret a tt n /\ saved (contents c t) a /\ items a = contents c t.
Proof.
  intros K V c HC t n R. pose proof (rinv c HC t R) as H. rewrite (save_ok c t tt n H), (contents_eq c t H). eexists. split; [reflexivity|]. cbn. split; [split; [apply (i_sz _ _ H)|reflexivity]|reflexivity].
Qed.
Print Assumptions C20_save.

(** loading any archive, whatever it contains, into a container with any contents. The previous contents are gone. *)
Theorem C20_load :
  forall (K V : Type) (c : Cfg K V), good_cfg c -> forall (t : table K V) a n, reachable c t -> reasonable c a ->
  match m_load c a t n with
  | Ret r t' _ => reachable c t' /\ loaded (same_key c t) a (fst r) (contents c t') /\ hid t' = hid t /\ pid t' = pid t /\ aid t' = aid t
  | Exn k t' _ => reachable c t' /\ interrupted (same_key c t) a (contents c t') /\ (k = KAlloc \/ exists j, throws c k j = true)
  | Undef => False
  end.
Proof.
  intros K V c HC t a n R Hs. pose proof (rinv c HC t R) as H. pose proof (load_ok c HC t a n H Hs) as X. pose proof (reach_load c HC t a n R Hs) as Y.
  destruct (m_load c a t n) as [r t' n'|k t' n'|]; cbn [FoaBase.outcome] in X; [| |exact X].
  - destruct X as (I & [D1 D2 D3] & L & _). rewrite (contents_eq c t' I). auto.
  - destruct X as (I & _ & Rk & L). rewrite (contents_eq c t' I). auto.
Qed.
Print Assumptions C20_load.
(** iterators saved in the archive after the container: the position recorded when the i-th element was loaded is where that element still is when
    loading is complete (no rehashing in between) *)
Theorem C20_tracked_positions :
  forall (K V : Type) (c : Cfg K V), good_cfg c -> forall (t : table K V) a n tracked t' n', reachable c t -> reasonable c a -> m_load c a t n = Ret (Loaded, tracked) t' n' ->
  Forall2 (fun l e => stored t' (slot_index (fst l) (snd l)) e) tracked (firstn (N.to_nat (count a)) (items a)).
Proof.
  intros K V c HC t a n tr t' n' R Hs E. pose proof (load_ok c HC t a n (rinv c HC t R) Hs) as X. rewrite E in X. cbn [FoaBase.outcome] in X. destruct X as (_ & _ & _ & F). apply F. reflexivity.
Qed.
Print Assumptions C20_tracked_positions.
(** what was saved is loaded: with equivalent predicates, the loaded container compares equal to the saved one (for every reflexive comparison of elements),
    although hash functions, capacities and orders may differ *)
Theorem C20_round_trip :
  forall (K V : Type) (c : Cfg K V), good_cfg c -> forall (x t : table K V) a n m (eeq : K * V -> K * V -> bool), reachable c x -> reachable c t ->
  (forall k k', keqf c (pid x) k k' = keqf c (pid t) k k') -> (forall e, eeq e e = true) -> m_save c x tt n = Ret a tt n -> reasonable c a ->
  match m_load c a t n with
  | Ret r t' _ => fst r = Loaded /\ Permutation (contents c t') (contents c x) /\ sz t' = sz x /\
      match equal_tables c eeq x t' tt m with Ret b _ _ => b = true | Exn k _ _ => k = KHash \/ k = KEq | Undef => False end
  | Exn k _ _ => k = KAlloc \/ exists j, throws c k j = true
  | Undef => False
  end.
Proof.
  intros K V c HC x t a n m eeq Rx R Ep Re Es Hs. pose proof (C20_load K V c HC t a n R Hs) as L. destruct (C20_save K V c HC x n Rx) as (a' & Es' & Sv & Ei). rewrite Es in Es'. injection Es' as <-.
  destruct (m_load c a t n) as [r t' n'|k t' n'|]; [|apply L|exact L]. destruct L as (R' & L & _ & Epid & _).
  pose proof (rinv c HC x Rx) as Hx. pose proof (rinv c HC t R) as Ht. destruct (size_exact c HC x Rx) as [Sx Ux]. destruct (size_exact c HC t' R') as [St _].
  assert (distinct (same_key c t) (items a)) as D.
  { rewrite Ei. unfold distinct, same_key. eapply ForallOrdPairs_ind with (P := fun l => ForallOrdPairs _ l); [constructor| |exact Ux]. intros e l F _ IH. constructor; [|exact IH]. eapply Forall_impl; [|exact F]. cbn beta. intros e' Hf. rewrite <- Ep. exact Hf. }
  assert (forall e e', same_key c t e e' = same_key c t e' e) as Sy. { intros e e'. destruct (inv_equiv c t Ht) as (_ & S & _). apply S. }
  destruct (loaded_all (same_key c t) Sy a (fst r) (contents c x) Sv D _ L) as [-> P]. split; [reflexivity|]. split; [exact P|]. split; [rewrite St, Sx, (Permutation_length P); reflexivity|].
  pose proof (equal_post c HC eeq x t' m Rx R') as Q. rewrite Epid in Q. specialize (Q Ep). destruct (equal_tables c eeq x t' tt m) as [b s m'|k s m'|]; [|exact Q|exact Q]. apply Q.
  exists (contents c x). split; [exact P|]. clear - Re Ht. pose proof (inv_equiv c t Ht) as (Rf & _). induction (contents c x) as [|e l IH]; constructor; [split; [apply Rf|apply Re]|exact IH].
Qed.
Print Assumptions C20_round_trip.

(** *** the concurrent containers: save and load have exclusive access, so no other thread is inside the container *)
Section Concurrent.
Context {K V : Type} (c : Cfg K V).
Hypothesis HC : good_cfg c.
Notation run := (runs_with c counters_fit).
Notation holds := Properties_Conc.holds.
Notation stored := Properties_Conc.stored.

Lemma stored_elems (s : @Sh K V) : stored s = elems (arr (tb s)).
Proof. reflexivity. Qed.
Theorem C20_concurrent_save : forall n es C d s k, run n es C -> holds C d s -> existsb (inside d) (th C) = false ->
  exists a k', c_save (tb s) tt k = Ret a tt k' /\ saved (stored s) a.
Proof.
  intros n es C d s k R Hb Hi. pose proof (idle_inv c HC n es C d s R (Properties_Conc.holds_box C d s Hb) Hi) as H. destruct (c_save_ok c (tb s) k H) as (k' & E). rewrite E. do 2 eexists. split; [reflexivity|].
  rewrite stored_elems. split; [apply (i_sz _ _ H)|reflexivity].
Qed.
(** afterwards the container is one of a run (to which all theorems about concurrent containers apply) in which nothing else has changed; [u]: some thread not
    executing an operation *)
Theorem C20_concurrent_load : forall n es C d s a k u, run n es C -> holds C d s -> existsb (inside d) (th C) = false -> nth_error (th C) u = Some Idle -> reasonable c a ->
  let again (t' : table K V) := exists es' C' s', run n (es ++ es') C' /\ holds C' d s' /\ tb s' = t' /\ th C' = th C /\ forall d', d' <> d -> nth_error (boxes C') d' = nth_error (boxes C) d' in
  match c_load c a (tb s) k with
  | Ret r t' _ => again t' /\ loaded (same_key c (tb s)) a r (stored (MkSh t' [])) /\ hid t' = hid (tb s) /\ pid t' = pid (tb s) /\ aid t' = aid (tb s)
  | Exn kd t' _ => again t' /\ interrupted (same_key c (tb s)) a (stored (MkSh t' [])) /\ (kd = KAlloc \/ exists j, throws c kd j = true)
  | Undef => False
  end.
Proof.
  intros n es C d s a k u R Hb Hi Hu Hs again. apply Properties_Conc.holds_box in Hb. pose proof (idle_inv c HC n es C d s R Hb Hi) as H. pose proof (c_load_ok c HC (tb s) a k H Hs) as X.
  pose proof (becomes_load c HC n es C u d s a k R Hb Hu Hi Hs) as Y. destruct (c_load c a (tb s) k) as [r t' k'|kd t' k'|]; cbn [FoaBase.outcome] in X; [| |exact X].
  - destruct X as (_ & [D1 D2 D3] & L). split; [exact Y|]. auto.
  - destruct X as (_ & _ & Rk & L). split; [exact Y|]. auto.
Qed.
(** the same archive gives the same elements, whether it is loaded into a concurrent or into a non-concurrent container *)
Theorem C20_concurrent_and_plain_agree : forall n es C d s a k, run n es C -> holds C d s -> existsb (inside d) (th C) = false -> reasonable c a ->
  c_load c a (tb s) k = match m_load c a (tb s) k with Ret r t' k' => Ret (fst r) t' k' | Exn kd t' k' => Exn kd t' k' | Undef => Undef end.
Proof. intros n es C d s a k R Hb Hi Hs. apply Properties_Conc.holds_box in Hb. apply (c_load_eq c HC); [eapply (idle_inv c HC); eassumption|exact Hs]. Qed.
Theorem C20_concurrent_round_trip : forall n es C d s d' s' a k k' u, run n es C -> holds C d s -> existsb (inside d) (th C) = false -> holds C d' s' -> existsb (inside d') (th C) = false ->
  nth_error (th C) u = Some Idle -> (forall x y, keqf c (pid (tb s)) x y = keqf c (pid (tb s')) x y) -> c_save (tb s) tt k = Ret a tt k' -> reasonable c a ->
  match c_load c a (tb s') k with
  | Ret r t' _ => r = Loaded /\ Permutation (stored (MkSh t' [])) (stored s) /\ sz t' = sz (tb s)
  | Exn kd _ _ => kd = KAlloc \/ exists j, throws c kd j = true
  | Undef => False
  end.
Proof.
  intros n es C d s d' s' a k k' u R Hb Hi Hb' Hi' Hu Ep Es Hs. pose proof (C20_concurrent_load n es C d' s' a k u R Hb' Hi' Hu Hs) as X. cbv zeta in X.
  pose proof (idle_inv c HC n es C d s R (Properties_Conc.holds_box C d s Hb) Hi) as H. pose proof (idle_inv c HC n es C d' s' R (Properties_Conc.holds_box C d' s' Hb') Hi') as H'.
  destruct (c_save_ok c (tb s) k H) as (k2 & E). rewrite Es in E. injection E as -> _. pose proof (c_load_ok c HC (tb s') _ k H' Hs) as Y.
  destruct (c_load c _ (tb s') k) as [r t' k3|kd t' k3|]; cbn [FoaBase.outcome] in Y; [|apply X|exact Y]. destruct Y as (I' & _ & _). destruct X as (_ & L & _).
  assert (forall e e', same_key c (tb s') e e' = same_key c (tb s') e' e) as Sy. { intros e e'. destruct (inv_equiv c (tb s') H') as (_ & S & _). apply S. }
  assert (distinct (same_key c (tb s')) (elems (arr (tb s)))) as D.
  { unfold distinct, same_key. eapply ForallOrdPairs_ind with (P := fun l => ForallOrdPairs _ l); [constructor| |exact (i_uniq _ _ H)]. intros e l F _ IH. constructor; [|exact IH]. eapply Forall_impl; [|exact F]. cbn beta. intros e' Hf. rewrite <- Ep. exact Hf. }
  destruct (loaded_all (same_key c (tb s')) Sy (Archive (sz (tb s)) (elems (arr (tb s)))) r (stored s) (conj (i_sz _ _ H) (Permutation_refl _)) D _ L) as [-> P]. split; [reflexivity|]. split; [exact P|].
  rewrite (i_sz _ _ I'), (i_sz _ _ H). f_equal. apply (Permutation_length P).
Qed.
End Concurrent.

(** the number of elements of an archive is passed to reserve unchecked: a number near 2^64 is undefined behaviour (conversion of a float that is too big
    to std::size_t), so that [reasonable] cannot be dropped *)
Theorem C20_load_any_count_refuted :
  ~ (forall (K V : Type) (c : Cfg K V), good_cfg c -> forall (t : table K V) a n, reachable c t -> count a < 2 ^ 64 -> m_load c a t n <> Undef).
Proof.
  intros H. refine (H N N (ecfg nothrow false) (ecfg_good _ _) (tab_of nothrow false [New 0 0 0 0] 0) (Archive (2 ^ 64 - 1) []) O _ _ _).
  - apply tab_reachable. vm_compute. reflexivity.
  - vm_compute. reflexivity.
  - vm_compute. reflexivity.
Qed.
Print Assumptions C20_load_any_count_refuted.

(** examples: a good archive, one with a repeated key, one that is too short; a target with other contents *)
Definition t_old : table N N := tab_of nothrow false (New 0 0 0 0 :: ins 0 (seq 0 20)) 0.
Definition good_archive : archive (N * N) := Archive 3 [(7, 1); (100, 2); (3, 3)].
Definition repeated_archive : archive (N * N) := Archive 3 [(7, 1); (100, 2); (7, 3)].
Definition short_archive : archive (N * N) := Archive 30 [(7, 1); (100, 2)].
Definition loads_to (t : table N N) (a : archive (N * N)) (r : load_result) (l : list (N * N)) : Prop :=
  match m_load (ecfg nothrow false) a t O with
  | Ret p t' _ => fst p = r /\ Permutation (contents (ecfg nothrow false) t') l
  | _ => False end.
Definition ends (t : table N N) (a : archive (N * N)) : option load_result := match m_load (ecfg nothrow false) a t O with Ret p _ _ => Some (fst p) | _ => None end.
Lemma ends_loads t a r : reachable (ecfg nothrow false) t -> reasonable (ecfg nothrow false) a -> ends t a = Some r ->
  exists l, loads_to t a r l /\ loaded (same_key (ecfg nothrow false) t) a r l.
Proof.
  intros R Hs E. pose proof (C20_load N N _ (ecfg_good _ _) t a O R Hs) as L. unfold loads_to, ends in *. destruct (m_load (ecfg nothrow false) a t O) as [p t' n'|k t' n'|]; [|discriminate E|discriminate E].
  injection E as <-. destruct L as (_ & L & _). exists (contents (ecfg nothrow false) t'). auto.
Qed.
Lemma loads_perm t a r l l' : loads_to t a r l -> Permutation l l' -> loads_to t a r l'.
Proof.
  intros A P. unfold loads_to in *. destruct (m_load (ecfg nothrow false) a t O) as [p t' n'|k t' n'|]; [|destruct A|destruct A]. destruct A as [A B]. split; [exact A|]. rewrite B. exact P.
Qed.
Lemma good_case t : reachable (ecfg nothrow false) t -> reasonable (ecfg nothrow false) good_archive -> ends t good_archive = Some Loaded -> loads_to t good_archive Loaded (items good_archive).
Proof. intros R S E. destruct (ends_loads _ _ _ R S E) as (l & A & _ & _ & P). exact (loads_perm _ _ _ _ _ A P). Qed.
Lemma short_case t : reachable (ecfg nothrow false) t -> reasonable (ecfg nothrow false) short_archive -> ends t short_archive = Some ReadFailed -> loads_to t short_archive ReadFailed (items short_archive).
Proof. intros R S E. destruct (ends_loads _ _ _ R S E) as (l & A & _ & _ & P). exact (loads_perm _ _ _ _ _ A P). Qed.
Lemma repeated_case t : reachable (ecfg nothrow false) t -> reasonable (ecfg nothrow false) repeated_archive -> ends t repeated_archive = Some BadArchive -> loads_to t repeated_archive BadArchive [(7, 1); (100, 2)].
Proof.
  intros R S E0. destruct (ends_loads _ _ _ R S E0) as (l & A & l1 & e & l2 & E & L1 & D & Ex & P). refine (loads_perm _ _ _ _ _ A _). rewrite P.
  unfold repeated_archive in E, L1. cbn [items count] in E, L1. destruct l1 as [|x1 l1]; cbn [app] in E.
  { injection E as E1 E2. rewrite <- E1 in Ex. discriminate Ex. }
  injection E as E1 E. destruct l1 as [|x2 l1]; cbn [app] in E.
  { injection E as E2 E3. rewrite <- E1, <- E2 in Ex. discriminate Ex. }
  injection E as E2 E. destruct l1 as [|x3 l1]; [rewrite <- E1, <- E2; reflexivity|]. exfalso. cbn [length] in L1. change (N.to_nat 3) with 3%nat in L1. clear - L1. lia.
Qed.
Lemma ends_good : ends t_old good_archive = Some Loaded. Proof. vm_compute. reflexivity. Qed.
Lemma ends_repeated : ends t_old repeated_archive = Some BadArchive. Proof. vm_compute. reflexivity. Qed.
Lemma ends_short : ends t_old short_archive = Some ReadFailed. Proof. vm_compute. reflexivity. Qed.
Lemma reasonable_archives : reasonable (ecfg nothrow false) good_archive /\ reasonable (ecfg nothrow false) repeated_archive /\ reasonable (ecfg nothrow false) short_archive.
Proof. vm_compute. auto. Qed.
Lemma t_old_size : length (contents (ecfg nothrow false) t_old) = 20%nat. Proof. vm_compute. reflexivity. Qed.
Lemma t_old_reachable : reachable (ecfg nothrow false) t_old.
Proof. apply tab_reachable. vm_compute. reflexivity. Qed.
Example C20_cases : reachable (ecfg nothrow false) t_old /\ length (contents (ecfg nothrow false) t_old) = 20%nat /\
  reasonable (ecfg nothrow false) good_archive /\ reasonable (ecfg nothrow false) repeated_archive /\ reasonable (ecfg nothrow false) short_archive /\
  loads_to t_old good_archive Loaded (items good_archive) /\ loads_to t_old repeated_archive BadArchive [(7, 1); (100, 2)] /\ loads_to t_old short_archive ReadFailed (items short_archive).
Proof.
  destruct reasonable_archives as (S1 & S2 & S3). pose proof t_old_reachable as R.
  exact (conj R (conj t_old_size (conj S1 (conj S2 (conj S3 (conj (good_case _ R S1 ends_good) (conj (repeated_case _ R S2 ends_repeated) (short_case _ R S3 ends_short)))))))).
Qed.
(** a concurrent container with the keys 3 and 4, saved and loaded; no thread is inside *)
Example C20_concurrent_case : exists es s, runs_with wcfg counters_fit 3 es (snd Properties_Conc.plain) /\ Properties_Conc.holds (snd Properties_Conc.plain) 0 s /\ existsb (inside 0) (th (snd Properties_Conc.plain)) = false /\
  nth_error (th (snd Properties_Conc.plain)) 1 = Some Idle /\ reasonable wcfg good_archive /\
  match c_save (tb s) tt O with Ret a _ _ => count a = 2 /\ items a = [(3, 8); (4, 9)] | _ => False end /\
  match c_load wcfg good_archive (tb s) O with Ret r t' _ => r = Loaded /\ sz t' = 3 | _ => False end.
Proof.
  do 2 eexists. split; [eapply (played nothrow false 3 (fst Properties_Conc.plain)); vm_compute; reflexivity|]. split; [vm_compute; reflexivity|]. split; [vm_compute; reflexivity|]. split; [vm_compute; reflexivity|].
  split; [vm_compute; auto|]. split; vm_compute; auto.
Qed.
Definition all_theorems := (@C20_concurrent_save, @C20_concurrent_load, @C20_concurrent_and_plain_agree, @C20_concurrent_round_trip).
Print Assumptions all_theorems.
Print Assumptions C20_concurrent_save.
Print Assumptions C20_concurrent_load.
Print Assumptions C20_concurrent_and_plain_agree.
Print Assumptions C20_concurrent_round_trip.
