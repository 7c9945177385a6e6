(** C59. Heterogeneous lookup: member functions that take a value of another type Q when hash function and predicate are transparent.

    Reading guide. As in Properties_Foa.v and Properties_Fca.v: [c] fixes the container type; [reachable c t] / [in_program c t h]: t is a container of
    some program (h its heap); [contents c t] / [elems t]: its elements in iteration order. [qhash h q]: what the hash object h returns for q;
    [qeq p q k] and [qeqr p k q]: what the predicate object p returns for (q, key) and (key, q). *)
From Coq Require Import NArith ZArith Bool List Arith Lia Permutation.
From Verif Require Import FoaModel FoaBase FoaArr FoaInv FoaSpec FoaWorld FoaRun FoaProps FoaExamples FoaHet.
From Verif Require FcaModel FcaTab FcaSpec FcaWorld FcaApi FcaProps FcaProps2 FcaExamples FcaHet.
Import ListNotations.
Local Open Scope N_scope.

(** *** open addressing *)
(** what the documentation asks of q: it hashes like the keys it is equal to *)
Definition hashes_like_its_keys {K V Q} (c : Cfg K V) (qhash : N -> Q -> N) (qeq : N -> Q -> K -> bool) (t : table K V) (q : Q) : Prop :=
  forall k, qeq (pid t) q k = true -> qhash (hid t) q = hashf c (hid t) k.
(** q behaves exactly like the key k *)
Definition behaves_like {K V Q} (c : Cfg K V) (qhash : N -> Q -> N) (qeq : N -> Q -> K -> bool) (t : table K V) (q : Q) (k : K) : Prop :=
  qhash (hid t) q = hashf c (hid t) k /\ forall k', qeq (pid t) q k' = keqf c (pid t) k k'.

(** find returns an element equal to q if there is one, otherwise end(); the container does not change; only the hash function and the predicate throw *)
Theorem C59_find_returns_a_matching_element :
  forall (K V Q : Type) (c : Cfg K V) (qhash : N -> Q -> N) (qeq : N -> Q -> K -> bool), good_cfg c -> forall t q n, reachable c t ->
  hashes_like_its_keys c qhash qeq t q ->
  match m_het_find c qhash qeq q t n with
  | Ret (Some e) t' _ => t' = t /\ In e (contents c t) /\ qeq (pid t) q (fst e) = true
  | Ret None t' _ => t' = t /\ forall e, In e (contents c t) -> qeq (pid t) q (fst e) = false
  | Exn k t' _ => t' = t /\ (k = KHash \/ k = KEq) /\ exists j, throws c k j = true
  | Undef => False
  end.
Proof.
  intros K V Q c qh qe HC t q n R HQ. pose proof (reachable_inv c HC t R) as H. rewrite (contents_eq c t H). pose proof (het_find_elem_ok c qh qe t q n H HQ) as X.
  destruct (m_het_find c qh qe q t n) as [[e|] t' n'|k t' n'|]; exact X.
Qed.
Print Assumptions C59_find_returns_a_matching_element.
(** at, count, contains follow *)
Theorem C59_at_count_contains_agree_with_find :
  forall (K V Q : Type) (c : Cfg K V) (qhash : N -> Q -> N) (qeq : N -> Q -> K -> bool) t q n,
  match m_het_find c qhash qeq q t n with
  | Ret r t' n' =>
      m_het_at c qhash qeq q t n = Ret (option_map snd r) t' n' /\
      m_het_count c qhash qeq q t n = Ret (match r with Some _ => 1 | None => 0 end) t' n' /\
      m_het_contains c qhash qeq q t n = Ret (match r with Some _ => true | None => false end) t' n'
  | Exn k t' n' => m_het_at c qhash qeq q t n = Exn k t' n' /\ m_het_count c qhash qeq q t n = Exn k t' n' /\ m_het_contains c qhash qeq q t n = Exn k t' n'
  | Undef => True
  end.
Proof. intros K V Q c qh qe t q n. unfold m_het_at, m_het_count, m_het_contains, bind. destruct (m_het_find c qh qe q t n); cbn [ret]; auto. Qed.
Print Assumptions C59_at_count_contains_agree_with_find.
(** erase removes one element equal to q if there is one; all others stay where they are; otherwise nothing changes *)
Theorem C59_erase_removes_one_matching_element :
  forall (K V Q : Type) (c : Cfg K V) (qhash : N -> Q -> N) (qeq : N -> Q -> K -> bool), good_cfg c -> forall t q n, reachable c t ->
  hashes_like_its_keys c qhash qeq t q ->
  match m_het_erase c qhash qeq q t n with
  | Ret r t' _ =>
      (r = 0 /\ t' = t /\ forall e, In e (contents c t) -> qeq (pid t) q (fst e) = false) \/
      (r = 1 /\ exists i e, stored t i e /\ qeq (pid t) q (fst e) = true /\ Permutation (contents c t) (e :: contents c t') /\
         (forall j x, stored t' j x <-> stored t j x /\ j <> i) /\ sz t' + 1 = sz t /\ capacity (arr t') = capacity (arr t))
  | Exn k t' _ => t' = t /\ (k = KHash \/ k = KEq) /\ exists j, throws c k j = true
  | Undef => False
  end.
Proof.
  intros K V Q c qh qe HC t q n R HQ. pose proof (reachable_inv c HC t R) as H. rewrite (contents_eq c t H). pose proof (het_erase_ok c qh qe t q n H HQ) as X.
  destruct (m_het_erase c qh qe q t n) as [r t' n'|k t' n'|]; [|exact X|exact X]. destruct X as [X|(-> & i & e & S & E & I & P & _ & Cp & F)]; [left; exact X|right].
  split; [reflexivity|]. exists i, e. rewrite (contents_eq c t' I). repeat (split; [assumption|]). split; [|exact Cp]. rewrite (i_sz _ _ H), (i_sz _ _ I), (Permutation_length P). cbn [length]. lia.
Qed.
Print Assumptions C59_erase_removes_one_matching_element.
(** with a value that behaves like some key, lookup and erasure are exactly those with that key: histories of programs that use them are those of C01 *)
Theorem C59_a_value_like_a_key_acts_as_the_key :
  forall (K V Q : Type) (c : Cfg K V) (qhash : N -> Q -> N) (qeq : N -> Q -> K -> bool) t q k n, behaves_like c qhash qeq t q k ->
  m_het_find c qhash qeq q t n = m_find c k t n /\ m_het_erase c qhash qeq q t n = m_erase c k t n.
Proof. intros K V Q c qh qe t q k n (A & B). split; [apply stands_m_find; assumption|apply stands_erase; assumption]. Qed.
Print Assumptions C59_a_value_like_a_key_acts_as_the_key.
(** insertions: if q behaves like the key made from it, try_emplace, insert_or_assign and operator[] do what they do with that key *)
Theorem C59_insertions_act_as_with_the_converted_key :
  forall (K V Q : Type) (c : Cfg K V) (qhash : N -> Q -> N) (qeq : N -> Q -> K -> bool) (conv : Q -> K) t q v n, behaves_like c qhash qeq t q (conv q) ->
  m_het_try_emplace c qhash qeq conv q v t n = m_insert c (conv q, v) t n /\
  m_het_insert_or_assign c qhash qeq conv q v t n = m_insert_or_assign c (conv q) v t n /\
  m_het_index c qhash qeq conv v q t n = m_index c v (conv q) t n.
Proof.
  intros K V Q c qh qe conv t q v n (A & B). split; [apply stands_try_emplace; assumption|]. split; [apply stands_insert_or_assign; assumption|apply stands_index; assumption].
Qed.
Print Assumptions C59_insertions_act_as_with_the_converted_key.
(** examples. Q = nat, a number to be compared with keys of type N, in a container of more than 50 elements; and a query equal to all even (odd) keys, in a
    container whose hash function is constant *)
Definition nat_hash (h : N) (q : nat) : N := hashf (ecfg nothrow true) h (N.of_nat q).
Definition nat_eq (p : N) (q : nat) (k : N) : bool := keqf (ecfg nothrow true) p (N.of_nat q) k.
Example C59_example :
  reachable (ecfg nothrow true) t_big /\ (forall q, hashes_like_its_keys (ecfg nothrow true) nat_hash nat_eq t_big q) /\
  (forall q, behaves_like (ecfg nothrow true) nat_hash nat_eq t_big q (N.of_nat q)) /\ 50 < sz t_big /\
  (match m_het_find (ecfg nothrow true) nat_hash nat_eq 5%nat t_big 0%nat with Ret (Some e) _ _ => fst e = 5 | _ => False end) /\
  (match m_het_erase (ecfg nothrow true) nat_hash nat_eq 5%nat t_big 0%nat with Ret r t' _ => r = 1 /\ sz t' + 1 = sz t_big | _ => False end) /\
  (match m_het_find (ecfg nothrow true) nat_hash nat_eq 7%nat t_big 0%nat with Ret None _ _ => True | _ => False end).
Proof.
  split; [apply t_big_reachable|]. split; [intros q k E; unfold nat_eq in E; apply N.eqb_eq in E; subst k; reflexivity|]. split; [intros q; split; [|intros k]; reflexivity|].
  vm_compute. auto.
Qed.
Definition parity_hash (h : N) (q : bool) : N := if h =? 0 then 1 else 0.
Definition parity_eq (p : N) (q : bool) (k : N) : bool := Bool.eqb (N.odd k) q.
Example C59_example_many_keys :
  reachable (ecfg nothrow true) t_drift /\ (forall q, hashes_like_its_keys (ecfg nothrow true) parity_hash parity_eq t_drift q) /\
  (match m_het_erase (ecfg nothrow true) parity_hash parity_eq true t_drift 0%nat with Ret r t' _ => r = 1 /\ sz t_drift = 15 /\ sz t' = 14 | _ => False end).
Proof.
  split; [apply t_drift_reachable|]. split; [intros q k _; vm_compute; reflexivity|]. vm_compute. auto.
Qed.

(** *** closed addressing *)
(** q hashes like the keys it is equal to, is equal to all keys equivalent to one of them and to no other, in either order of the arguments *)
Definition fits {K V Q} (c : FcaModel.FCfg K V) (qhash : N -> Q -> N) (qeq : N -> Q -> K -> bool) (qeqr : N -> K -> Q -> bool) (t : FcaModel.table K V) (q : Q) : Prop :=
  let b := FcaModel.base c in let h := FcaModel.f_hid t in let p := FcaModel.f_pid t in
  (forall k, qeq p q k = true -> qhash h q = hashf b h k) /\ (forall k, qeq p q k = true -> forall k', qeq p q k' = keqf b p k k') /\ (forall k, qeqr p k q = qeq p q k).
(** find: the first element equal to q, if any *)
Theorem C59_fca_find :
  forall (K V Q : Type) (c : FcaModel.FCfg K V) (qhash : N -> Q -> N) (qeq : N -> Q -> K -> bool) t h q n, FcaProps.in_program c t h ->
  (forall k, qeq (FcaModel.f_pid t) q k = true -> qhash (FcaModel.f_hid t) q = hashf (FcaModel.base c) (FcaModel.f_hid t) k) ->
  match FcaHet.m_het_find c qhash qeq q (t, h) n with
  | Ret r s' _ => s' = (t, h) /\ r = List.find (fun x => qeq (FcaModel.f_pid t) q (FcaSpec.key x)) (FcaProps.elems t)
  | Exn k s' _ => s' = (t, h) /\ (k = KHash \/ k = KEq) /\ exists j, throws (FcaModel.base c) k j = true
  | Undef => False
  end.
Proof.
  intros K V Q c qh qe t h q n P HQ. destruct (FcaProps.prog_si c t h P) as (r & SI). pose proof (FcaProps.prog_inv c t h P) as T. rewrite (FcaProps.elems_inv c t _ T).
  apply (FcaHet.het_find_user c qh qe t h (FcaWorld.contents t) q n r); assumption.
Qed.
Print Assumptions C59_fca_find.
Theorem C59_fca_at_and_contains :
  forall (K V Q : Type) (c : FcaModel.FCfg K V) (qhash : N -> Q -> N) (qeq : N -> Q -> K -> bool) t h q n, FcaProps.in_program c t h ->
  (forall k, qeq (FcaModel.f_pid t) q k = true -> qhash (FcaModel.f_hid t) q = hashf (FcaModel.base c) (FcaModel.f_hid t) k) ->
  match FcaHet.m_het_at c qhash qeq q (t, h) n with
  | Ret r s' _ => s' = (t, h) /\ r = option_map (fun x => snd (snd x)) (List.find (fun x => qeq (FcaModel.f_pid t) q (FcaSpec.key x)) (FcaProps.elems t))
  | Exn k s' _ => s' = (t, h) /\ (k = KHash \/ k = KEq) /\ exists j, throws (FcaModel.base c) k j = true
  | Undef => False
  end /\
  match FcaHet.m_het_contains c qhash qeq q (t, h) n with
  | Ret r s' _ => s' = (t, h) /\ r = existsb (fun x => qeq (FcaModel.f_pid t) q (FcaSpec.key x)) (FcaProps.elems t)
  | Exn k s' _ => s' = (t, h) /\ (k = KHash \/ k = KEq) /\ exists j, throws (FcaModel.base c) k j = true
  | Undef => False
  end.
Proof.
  intros K V Q c qh qe t h q n P HQ. split.
  - pose proof (C59_fca_find K V Q c qh qe t h q n P HQ) as X. unfold FcaHet.m_het_at, bind. destruct (FcaHet.m_het_find c qh qe q (t, h) n); cbn [ret]; [destruct X as [-> ->]; auto|exact X|exact X].
  - pose proof (FcaProps.prog_inv c t h P) as T. rewrite (FcaProps.elems_inv c t _ T). apply (FcaHet.het_contains_user c qh qe t h (FcaWorld.contents t) q n); assumption.
Qed.
Print Assumptions C59_fca_at_and_contains.
(** count and equal_range: all elements equal to q, in iteration order *)
Theorem C59_fca_count_and_equal_range :
  forall (K V Q : Type) (c : FcaModel.FCfg K V) (qhash : N -> Q -> N) (qeq : N -> Q -> K -> bool) (qeqr : N -> K -> Q -> bool) t h q n, FcaProps.in_program c t h ->
  fits c qhash qeq qeqr t q ->
  match FcaHet.m_het_count c qhash qeq q (t, h) n with
  | Ret m s' _ => s' = (t, h) /\ m = N.of_nat (length (filter (fun x => qeq (FcaModel.f_pid t) q (FcaSpec.key x)) (FcaProps.elems t)))
  | Exn k s' _ => s' = (t, h) /\ (k = KHash \/ k = KEq) /\ exists j, throws (FcaModel.base c) k j = true
  | Undef => False
  end /\
  match FcaHet.m_het_equal_range c qhash qeq q (t, h) n with
  | Ret l s' _ => s' = (t, h) /\ l = filter (fun x => qeq (FcaModel.f_pid t) q (FcaSpec.key x)) (FcaProps.elems t)
  | Exn k s' _ => s' = (t, h) /\ (k = KHash \/ k = KEq) /\ exists j, throws (FcaModel.base c) k j = true
  | Undef => False
  end.
Proof.
  intros K V Q c qh qe qr t h q n P F. pose proof (FcaProps.prog_inv c t h P) as T. rewrite (FcaProps.elems_inv c t _ T). split; [eapply FcaHet.het_count_user; eassumption|eapply FcaHet.het_range_user; eassumption].
Qed.
Print Assumptions C59_fca_count_and_equal_range.
(** erase: removes exactly the elements equal to q (with equivalent keys and a throwing predicate, perhaps only some of them) and stays a container of a program *)
Theorem C59_fca_erase :
  forall (K V Q : Type) (c : FcaModel.FCfg K V) (qhash : N -> Q -> N) (qeq : N -> Q -> K -> bool) (qeqr : N -> K -> Q -> bool) t h q n, FcaProps.in_program c t h ->
  fits c qhash qeq qeqr t q ->
  let eq_q := fun x => qeq (FcaModel.f_pid t) q (FcaSpec.key x) in
  match FcaHet.m_het_erase c qhash qeq qeqr q (t, h) n with
  | Ret m s' _ => FcaProps.in_program c (fst s') (snd s') /\ m = N.of_nat (length (filter eq_q (FcaProps.elems t))) /\
      FcaProps.elems (fst s') = filter (fun x => negb (eq_q x)) (FcaProps.elems t)
  | Exn k s' _ => FcaProps.in_program c (fst s') (snd s') /\ (exists j, throws (FcaModel.base c) k j = true) /\
      (FcaProps.elems (fst s') = FcaProps.elems t \/
       FcaModel.multi c = true /\ exists gone, Permutation (FcaProps.elems t) (gone ++ FcaProps.elems (fst s')) /\ forallb eq_q gone = true)
  | Undef => False
  end.
Proof.
  intros K V Q c qh qe qr t h q n P F eq_q. exact (FcaHet.het_erase_user c qh qe qr t h q n P F).
Qed.
Print Assumptions C59_fca_erase.
(** insertion and extraction *)
Theorem C59_fca_insertion_and_extraction_act_as_with_the_key :
  forall (K V Q : Type) (c : FcaModel.FCfg K V) (qhash : N -> Q -> N) (qeq : N -> Q -> K -> bool) (qeqr : N -> K -> Q -> bool) (conv : Q -> K) t h q v n,
  FcaProps.in_program c t h ->
  fits c qhash qeq qeqr t q -> qeq (FcaModel.f_pid t) q (conv q) = true ->
  FcaHet.het_try_emplace c qhash qeq conv q v (t, h) n = FcaModel.emplace_unique c true KConstruct (conv q, v) (t, h) n /\
  FcaHet.het_insert_or_assign c qhash qeq conv q v (t, h) n = FcaModel.insert_or_assign_unique c (conv q) v (t, h) n /\
  FcaHet.het_extract_key c qhash qeq q (t, h) n = FcaModel.extract_key c (conv q) (t, h) n.
Proof.
  intros K V Q c qh qe qr conv t h q v n P F E. pose proof (FcaHet.fits_stands c qh qe qr t _ q (conv q) (FcaProps.prog_inv c t h P) F E) as S.
  split; [eapply FcaHet.stands_try_emplace; exact S|]. split; [eapply FcaHet.stands_insert_or_assign; exact S|eapply FcaHet.stands_extract; exact S].
Qed.
Print Assumptions C59_fca_insertion_and_extraction_act_as_with_the_key.
Example C59_fca_example :
  let c := FcaExamples.ecfg FcaExamples.nothrow true false in let t := fst FcaExamples.s_m in let h := snd FcaExamples.s_m in
  let qh := fun hs (q : nat) => hashf (FcaModel.base c) hs (N.of_nat q) in let qe := fun (p : N) (q : nat) k => N.eqb (N.of_nat q) k in let qr := fun (p : N) k (q : nat) => N.eqb k (N.of_nat q) in
  FcaProps.in_program c t h /\ (forall q, fits c qh qe qr t q) /\
  (match FcaHet.m_het_count c qh qe 1%nat (t, h) 0%nat with Ret m _ _ => m = 8 | _ => False end) /\
  (match FcaHet.m_het_erase c qh qe qr 1%nat (t, h) 0%nat with Ret m s' _ => m = 8 /\ (length (FcaProps.elems (fst s')) + 8 = length (FcaProps.elems t))%nat | _ => False end) /\
  (match FcaHet.m_het_erase c qh qe qr 77%nat (t, h) 0%nat with Ret m s' _ => m = 0 | _ => False end).
Proof.
  cbv zeta. split; [apply FcaProps2.arena_program; apply FcaExamples.s_m_ok|]. split.
  { intros q. split; [|split].
    - intros k E. apply N.eqb_eq in E. subst k. reflexivity.
    - intros k E k'. apply N.eqb_eq in E. subst k. reflexivity.
    - intros k. apply N.eqb_sym. }
  vm_compute. auto.
Qed.
