(** Heterogeneous lookup in the open-addressing containers: the member templates that take, instead of a key, a value of another type for which the
    hash function and the predicate are transparent. The code is that of the ordinary operations (core.hpp l.1706-1755 find is itself a
    template over the type of its argument); only the calls of hash function and predicate differ. *)
From Coq Require Import NArith Bool List Arith Lia ZifyBool ZifyNat ZifyN Permutation.
From Verif Require Import SizeModel SizeProofs GroupModel GroupSpec FoaModel FoaGroup FoaBase FoaFind FoaInv FoaRehash FoaOps FoaApi FoaIter FoaSpec FoaWorld FoaRun FoaProps.
Import ListNotations.
Local Open Scope m_scope.
Local Open Scope N_scope.

Section Het.
Context {K V Q : Type} (c : Cfg K V).
Notation arrays := (arrays K V).
Notation table := (table K V).
(** the hash function and the predicate on the other type *)
Context (qhashf : N -> Q -> N) (qeqf : N -> Q -> K -> bool).

Definition het_hash (h : N) (q : Q) : N := qhashf h q mod 2 ^ 64.
(** core.hpp l.1719-1755 [find(x,pos0,hash)] *)
Fixpoint het_find_in_group {St} (p : N) (a : arrays) (q : Q) (g : nat) (ns : list nat) : M St (option nat) :=
  match ns with
  | [] => ret None
  | n :: r =>
      e <- read_element a (slot_index g n) ;;
      tick c KEq ;;;
      if qeqf p q (fst e) then ret (Some n) else het_find_in_group p a q g r
  end.
Fixpoint het_find_loop {St} (fuel : nat) (p : N) (a : arrays) (q : Q) (hash : N) (pb : prober) : M St (option (nat * nat)) :=
  match fuel with
  | O => undef
  | S fuel' =>
      let g := N.to_nat (pb_pos pb) in
      match get_group a g with
      | None => undef
      | Some b =>
          let mask := b_match b hash in
          r <- (if mask =? 0 then ret None else het_find_in_group p a q g (mask_loop 16 mask)) ;;
          match r with
          | Some n => ret (Some (g, n))
          | None =>
              if b_is_not_overflowed b hash then ret None
              else let '(pb', more) := pb_next pb (a_mask a) in
                   if more then het_find_loop fuel' p a q hash pb' else ret None
          end
      end
  end.
Definition het_find_at {St} (t : table) (q : Q) (pos0 hash : N) : M St (option (nat * nat)) :=
  het_find_loop (S (length (a_groups (arr t)))) (pid t) (arr t) q hash (pb_init pos0).
(** core.hpp l.1706-1711 [find(x)] *)
Definition het_find {St} (t : table) (q : Q) : M St (option (nat * nat)) :=
  hash <- (tick c KHash ;;; ret (het_hash (hid t) q)) ;;
  het_find_at t q (position hash (a_gsi (arr t))) hash.
(** unordered_flat_map.hpp l.626-643 [find]; count (607-613), contains (649-657), at (553-580) and equal_range (683-717) are made of it as for keys *)
Definition m_het_find (q : Q) : M table (option (K * V)) :=
  t <- get ;;
  loc <- het_find t q ;;
  match loc with
  | None => ret None
  | Some (g, n) => e <- read_element (arr t) (slot_index g n) ;; ret (Some e)
  end.
Definition m_het_at (q : Q) : M table (option V) := r <- m_het_find q ;; ret (option_map snd r).
Definition m_het_count (q : Q) : M table N := r <- m_het_find q ;; ret (match r with Some _ => 1 | None => 0 end).
Definition m_het_contains (q : Q) : M table bool := r <- m_het_find q ;; ret (match r with Some _ => true | None => false end).
(** table.hpp l.485-496 [erase(x)], unordered_flat_map.hpp l.493-500 *)
Definition m_het_erase (q : Q) : M table N :=
  t <- get ;;
  loc <- het_find t q ;;
  match loc with
  | None => ret 0
  | Some (g, n) => erase_at g n ;;; ret 1
  end.
(** table.hpp l.629-655 [emplace_impl] called by try_emplace(k,args...) (l.442-448): the element is made of [conv q], the key constructed from q, and v *)
Definition m_het_try_emplace (conv : Q -> K) (q : Q) (v : V) : M table ((nat * nat) * bool) :=
  t <- get ;;
  hash <- (tick c KHash ;;; ret (het_hash (hid t) q)) ;;
  let pos0 := position hash (a_gsi (arr t)) in
  loc <- het_find_at t q pos0 hash ;;
  match loc with
  | Some l => ret (l, false)
  | None =>
      if sz t <? ml t then
        l <- unchecked_emplace_at c KConstruct pos0 hash (conv q, v) ;; ret (l, true)
      else
        l <- unchecked_emplace_with_rehash c KConstruct hash (conv q, v) ;; ret (l, true)
  end.
(** unordered_flat_map.hpp l.367-380 [insert_or_assign(K&&,M&&)] *)
Definition m_het_insert_or_assign (conv : Q -> K) (q : Q) (v : V) : M table bool :=
  r <- m_het_try_emplace conv q v ;;
  let '((g, n), b) := r in
  if b : bool then ret true
  else
    t <- get ;;
    e <- read_element (arr t) (slot_index g n) ;;
    tick c KConstruct ;;;
    on_arr (put_cell (slot_index g n) (Live (fst e, v))) ;;;
    ret false.
(** l.592-600 [operator[](K&&)] *)
Definition m_het_index (conv : Q -> K) (dv : V) (q : Q) : M table V :=
  r <- m_het_try_emplace conv q dv ;;
  t <- get ;;
  e <- read_element (arr t) (slot_index (fst (fst r)) (snd (fst r))) ;;
  ret (snd e).

(** *** proofs *)
Definition het_compat (h p : N) (q : Q) : Prop := forall k, qeqf p q k = true -> qhashf h q = hashf c h k.

Lemma het_find_in_group_ok {St} p (a : arrays) q g k : Shape k a -> forall ns (s : St) n,
  (forall m, In m ns -> exists e, nth_error (cells a) (slot_index g m) = Some (Live e)) ->
  outcome (het_find_in_group p a q g ns s n)
    (fun r s' => s' = s /\ match r with
       | Some m => In m ns /\ exists e, nth_error (cells a) (slot_index g m) = Some (Live e) /\ qeqf p q (fst e) = true
       | None => forall m e, In m ns -> nth_error (cells a) (slot_index g m) = Some (Live e) -> qeqf p q (fst e) = false
       end)
    (fun kd s' => kd = KEq /\ s' = s /\ raised c KEq).
Proof.
  intros HS. induction ns as [|m ns IH]; intros s n H.
  - cbn. split; [reflexivity|]. intros m e [].
  - cbn [het_find_in_group]. destruct (H m (or_introl eq_refl)) as [e He].
    unfold read_element. rewrite (get_cell_eq k) by exact HS. rewrite He. rewrite bind_ret.
    apply (tick_bind c); [|intros Hr; auto]. intros n'.
    destruct (qeqf p q (fst e)) eqn:Ek.
    + cbn. split; [reflexivity|]. split; [now left|]. exists e. auto.
    + eapply outcome_weaken; [apply IH; intros m' Hm'; apply H; now right| |auto].
      intros r s' [-> Hr]. split; [reflexivity|]. destruct r as [m'|].
      * destruct Hr as [Hin Hr]. split; [now right|exact Hr].
      * intros m' e' [<-|Hin] He'; [congruence|eauto].
Qed.

Definition het_found (p : N) (a : arrays) (q : Q) (r : option (nat * nat)) : Prop :=
  match r with
  | Some (g, m) => (m < 15)%nat /\ exists e, nth_error (cells a) (slot_index g m) = Some (Live e) /\ qeqf p q (fst e) = true
  | None => forall e, In e (elems a) -> qeqf p q (fst e) = false
  end.

Lemma het_find_loop_ok {St} h p k (a : arrays) q : het_compat h p q -> GoodA c h k a ->
  let hash := het_hash h q in let pos0 := position hash (64 - k) in
  forall fuel j (s : St) n, N.of_nat j < 2 ^ k -> (N.to_nat (2 ^ k) < j + fuel)%nat ->
  (forall j' i e, (j' < j)%nat -> nth_error (cells a) i = Some (Live e) ->
      probe_pos k pos0 j' = N.of_nat (i / 15) -> qeqf p q (fst e) = false) ->
  outcome (het_find_loop fuel p a q hash (pstate k pos0 j) s n)
    (fun r s' => s' = s /\ het_found p a q r) (fun kd s' => kd = KEq /\ s' = s /\ raised c KEq).
Proof.
  intros Hc [HS HG] hash pos0. pose proof (sh_k _ _ HS) as Hk.
  induction fuel as [|fuel IH]; intros j s n Hj Hf Hbefore; [lia|].
  cbn [het_find_loop]. set (g := N.to_nat (pb_pos (pstate k pos0 j))).
  assert (g < N.to_nat (2 ^ k))%nat as Hg by apply pstate_group.
  rewrite (shape_get_group k) by assumption.
  pose proof (shape_grp_len _ _ _ HS Hg) as Lg.
  destruct (match_bits (grp a g) hash Lg) as [Mb _].
  assert (forall m, In m (tag_bits (N.eqb (low_class hash)) (grp a g)) -> (m < 15)%nat /\
            exists e, nth_error (cells a) (slot_index g m) = Some (Live e)) as Htag.
  { intros m Hm. unfold tag_bits in Hm. apply filter_In in Hm as [Hm1 Hm2]. apply in_seq in Hm1.
    apply N.eqb_eq in Hm2. assert (m < 15)%nat as Hm15 by lia. split; [exact Hm15|].
    pose proof (low_class_ge2 hash) as L2.
    assert (ctrl a (slot_index g m) = low_class hash) as Ec.
    { unfold ctrl. rewrite slot_div, slot_mod by exact Hm15. congruence. }
    assert (slot_index g m < length (cells a))%nat as Hlt.
    { destruct (Nat.lt_ge_cases (slot_index g m) (length (cells a))) as [|Ge]; [assumption|exfalso].
      assert (slot_index g m = length (cells a)) as Es.
      { rewrite (sh_cells _ _ HS) in *. unfold slot_index in *. lia. }
      rewrite Es, (sh_sent _ _ HS) in Ec. lia. }
    destruct (nth_error (cells a) (slot_index g m)) as [x|] eqn:Ex; [|apply nth_error_None in Ex; lia].
    pose proof (HG _ _ Ex) as Sx. destruct x as [| |e]; cbn [slot_ok] in Sx; [lia|destruct Sx|]. eauto. }
  (* elements of this group equivalent to the q are matched *)
  assert (forall i e, nth_error (cells a) i = Some (Live e) -> (i / 15)%nat = g -> qeqf p q (fst e) = true ->
            In (i mod 15)%nat (tag_bits (N.eqb (low_class hash)) (grp a g))) as Hall.
  { intros i e Hi Eg Ek. unfold tag_bits. apply filter_In. split; [apply in_seq; pose proof (mod15 i); lia|].
    pose proof (HG _ _ Hi) as [Ec _]. unfold ctrl in Ec. rewrite Eg in Ec. rewrite Ec.
    assert (hash_of c h (fst e) = hash) as ->.
    { unfold hash, hash_of, het_hash. rewrite (Hc (fst e)) by exact Ek. reflexivity. }
    apply N.eqb_refl. }
  assert (outcome ((if b_match (grp a g) hash =? 0 then ret None
                   else het_find_in_group p a q g (mask_loop 16 (b_match (grp a g) hash))) s n)
    (fun r s' => s' = s /\ match r with
       | Some m => (m < 15)%nat /\ exists e, nth_error (cells a) (slot_index g m) = Some (Live e) /\ qeqf p q (fst e) = true
       | None => forall i e, nth_error (cells a) i = Some (Live e) -> (i / 15)%nat = g -> qeqf p q (fst e) = false
       end) (fun kd s' => kd = KEq /\ s' = s /\ raised c KEq)) as Hgroup.
  { rewrite (mask_loop_nil (b_match (grp a g) hash)), Mb.
    destruct (tag_bits (N.eqb (low_class hash)) (grp a g)) as [|m0 ns] eqn:Et.
    - cbn. split; [reflexivity|]. intros i e Hi Eg. destruct (qeqf p q (fst e)) eqn:Ek; [|reflexivity].
      exfalso. rewrite <- Et in Hall. specialize (Hall i e Hi Eg Ek). rewrite Et in Hall. destruct Hall.
    - rewrite <- Et in *. eapply outcome_weaken.
      + apply (het_find_in_group_ok p a q g k HS). intros m Hm. apply Htag. exact Hm.
      + intros r s' [-> Hr]. split; [reflexivity|]. destruct r as [m|].
        * destruct Hr as [Hin Hr]. split; [apply Htag; exact Hin|exact Hr].
        * intros i e Hi Eg. destruct (qeqf p q (fst e)) eqn:Ek; [|reflexivity].
          rewrite <- Ek. apply (Hr (i mod 15)%nat e); [eauto|]. rewrite <- Eg, slot_of. exact Hi.
      + auto. }
  eapply outcome_bind; [exact Hgroup|]. clear Hgroup.
  intros r s' n' [-> Hr]. destruct r as [m|]; [cbn; auto|].
  assert (forall j' i e, (j' < S j)%nat -> nth_error (cells a) i = Some (Live e) ->
      probe_pos k pos0 j' = N.of_nat (i / 15) -> qeqf p q (fst e) = false) as Hbefore'.
  { intros j' i e Hj' Hi Ep. destruct (Nat.eq_dec j' j) as [->|]; [|apply (Hbefore j' i e); auto; lia].
    apply (Hr i e Hi). unfold g. cbn [pstate pb_pos]. rewrite Ep. lia. }
  (* an equivalent element lies further on its probe path *)
  assert (forall i e, nth_error (cells a) i = Some (Live e) -> qeqf p q (fst e) = true ->
    exists j1, (j < j1)%nat /\ N.of_nat j1 < 2 ^ k /\
      N.testbit (ovf a (N.to_nat (probe_pos k pos0 j))) (hash mod 8) = true) as Hfar.
  { intros i e Hi Ek. pose proof (HG _ _ Hi) as [_ (j1 & Hj1 & Ep & Hov)].
    assert (hash_of c h (fst e) = hash) as Eh.
    { unfold hash, hash_of, het_hash. rewrite (Hc (fst e)) by exact Ek. reflexivity. }
    rewrite Eh in *. fold pos0 in Ep, Hov.
    destruct (Nat.lt_ge_cases j j1) as [Lt|Ge].
    - exists j1. repeat split; auto.
    - exfalso. rewrite (Hbefore' j1 i e) in Ek; [discriminate|lia|exact Hi|exact Ep]. }
  rewrite not_overflowed_bit. fold (ovf a g).
  destruct (N.testbit (ovf a g) (hash mod 8)) eqn:Eov; cbn [negb].
  - rewrite (sh_mask _ _ HS), pstate_next by (lia || exact Hj).
    destruct (N.ltb_spec (N.of_nat (S j)) (2 ^ k)) as [Lt|Ge].
    + apply IH; [exact Lt|lia|exact Hbefore'].
    + cbn. split; [reflexivity|]. intros e He. apply in_elems in He as [i Hi].
      destruct (qeqf p q (fst e)) eqn:Ek; [|reflexivity].
      destruct (Hfar i e Hi Ek) as (j1 & ? & ? & _). lia.
  - cbn. split; [reflexivity|]. intros e He. apply in_elems in He as [i Hi].
    destruct (qeqf p q (fst e)) eqn:Ek; [|reflexivity].
    destruct (Hfar i e Hi Ek) as (j1 & _ & _ & Hb).
    change (N.to_nat (probe_pos k pos0 j)) with g in Hb. congruence.
Qed.

Lemma het_dummy_find {St} al p q hash fuel pos0 (s : St) n : pos0 < 2 -> (0 < fuel)%nat ->
  het_find_loop fuel p (dummy_arrays al) q hash (pb_init pos0) s n = Ret None s n.
Proof.
  intros Hp Hf. destruct fuel as [|fuel]; [lia|]. cbn [het_find_loop].
  assert (get_group (@dummy_arrays K V al) (N.to_nat (pb_pos (pb_init pos0))) = Some b_dummy) as ->.
  { assert (pos0 = 0 \/ pos0 = 1) as [-> | ->] by lia; reflexivity. }
  assert (b_match b_dummy hash =? 0 = true) as ->.
  { rewrite mask_loop_nil. destruct (match_bits b_dummy hash eq_refl) as [-> _].
    pose proof (low_class_ge2 hash). unfold tag_bits.
    rewrite GroupProofs.filter_none; [reflexivity|]. intros x Hx. apply in_seq in Hx.
    apply N.eqb_neq. do 15 (destruct x as [|x]; [cbn; lia|]). lia. }
  rewrite bind_ret. rewrite not_overflowed_bit. change (nth 15 b_dummy 0) with 0. rewrite N.bits_0. reflexivity.
Qed.


Lemma het_hash_lt h q : het_hash h q < 2 ^ 64. Proof. apply N.mod_lt. discriminate. Qed.
Lemma het_find_at_ok {St} t q (s : St) n : Inv c t -> het_compat (hid t) (pid t) q ->
  let hash := het_hash (hid t) q in
  outcome (het_find_at t q (position hash (a_gsi (arr t))) hash s n)
    (fun r s' => s' = s /\ het_found (pid t) (arr t) q r) (fun kd s' => kd = KEq /\ s' = s /\ raised c KEq).
Proof.
  intros H HQ hash. unfold het_find_at. pose proof (het_hash_lt (hid t) q) as Hh. fold hash in Hh.
  destruct (i_arr _ _ H) as [E | (k & HG & _)].
  - rewrite E. cbn [a_gsi dummy_arrays].
    rewrite het_dummy_find; [|apply (position_lt hash 1); [exact Hh|lia]|lia].
    cbn. split; [reflexivity|]. intros e [].
  - pose proof HG as [HS _]. rewrite (sh_gsi _ _ HS), (sh_groups _ _ HS). pose proof (sh_k _ _ HS) as Hk.
    pose proof (het_find_loop_ok (St:=St) (hid t) (pid t) k (arr t) q HQ HG (S (N.to_nat (2 ^ k))) 0 s n) as L.
    unfold pb_init. unfold pstate in L. rewrite probe_pos_0 in L by (apply position_lt; [exact Hh|lia]).
    apply L.
    + pose proof (pow2_pos k). lia.
    + lia.
    + intros j' i e C. lia.
Qed.
Lemma het_find_ok {St} t q (s : St) n : Inv c t -> het_compat (hid t) (pid t) q ->
  outcome (het_find t q s n)
    (fun r s' => s' = s /\ het_found (pid t) (arr t) q r) (fun kd s' => s' = s /\ (kd = KHash \/ kd = KEq) /\ raised c kd).
Proof.
  intros H HQ. unfold het_find. rewrite bind_bind. apply (tick_bind c); [|intros R; auto].
  intros n'. rewrite bind_ret. eapply outcome_weaken; [apply het_find_at_ok; assumption|auto|].
  intros kd s' (-> & -> & R). auto.
Qed.

Lemma het_find_elem_ok (t : table) q n : Inv c t -> het_compat (hid t) (pid t) q ->
  outcome (m_het_find q t n)
    (fun r t' => t' = t /\ match r with Some e => In e (elems (arr t)) /\ qeqf (pid t) q (fst e) = true | None => forall e, In e (elems (arr t)) -> qeqf (pid t) q (fst e) = false end)
    (fun kd t' => t' = t /\ (kd = KHash \/ kd = KEq) /\ raised c kd).
Proof.
  intros H HQ. unfold m_het_find. rewrite bind_get. eapply outcome_bind; [apply (het_find_ok t q t n H HQ)|].
  intros loc s n' [-> F]. destruct loc as [[g m]|]; cbn [het_found] in F.
  - destruct F as (_ & e & He & Hk). unfold bind. change (read_element (arr t) (slot_index g m) t n') with (read_at t (g, m) t n').
    rewrite (read_cell c t (g, m) e t n' H He). cbn [ret outcome]. split; [reflexivity|]. split; [|exact Hk]. apply in_elems. eauto.
  - cbn [ret outcome]. auto.
Qed.
Lemma het_erase_ok (t : table) q n : Inv c t -> het_compat (hid t) (pid t) q ->
  outcome (m_het_erase q t n)
    (fun r t' => (r = 0 /\ t' = t /\ forall e, In e (elems (arr t)) -> qeqf (pid t) q (fst e) = false) \/
       (r = 1 /\ exists i e, stored t i e /\ qeqf (pid t) q (fst e) = true /\ Inv c t' /\ Permutation (elems (arr t)) (e :: elems (arr t')) /\ Ids t t' /\
          capacity (arr t') = capacity (arr t) /\ forall j x, stored t' j x <-> stored t j x /\ j <> i))
    (fun kd t' => t' = t /\ (kd = KHash \/ kd = KEq) /\ raised c kd).
Proof.
  intros H HQ. unfold m_het_erase. rewrite bind_get. eapply outcome_bind; [apply (het_find_ok t q t n H HQ)|].
  intros loc s n1 [-> F]. destruct loc as [[g m]|]; cbn [het_found] in F.
  - destruct F as (L15 & e & He & Hk). pose proof (erase_ok c t (slot_index g m) e n1 H He) as Y.
    rewrite slot_div, slot_mod in Y by exact L15. eapply outcome_bind; [eapply outcome_weaken; [exact Y|intros u t' Z; exact Z|intros kd t' []]|].
    intros u t' n2 (Id & I & P & Ec & Ecap). cbn [ret outcome]. right. split; [reflexivity|].
    exists (slot_index g m), e. split; [exact He|]. split; [exact Hk|]. split; [exact I|]. split; [exact P|]. split; [apply Id|]. split; [exact Ecap|].
    intros j x. assert (slot_index g m < length (cells (arr t)))%nat as Ls by (apply nth_error_Some; congruence).
    apply (erased_stored t t' (slot_index g m) Ec Ls j x).
  - cbn [ret outcome]. left. auto.
Qed.

(** *** a value that stands for a key: everything is as with the key *)
Section Stands.
Variables (h p : N) (q : Q) (k0 : K).
Hypothesis Hh : qhashf h q = hashf c h k0.
Hypothesis He : forall k, qeqf p q k = keqf c p k0 k.
Lemma stands_group {St} a g ns (s : St) n : het_find_in_group p a q g ns s n = find_in_group c p a k0 g ns s n.
Proof.
  revert s n. induction ns as [|m ns IH]; intros s n; [reflexivity|]. cbn [het_find_in_group find_in_group]. unfold bind.
  destruct (read_element a (slot_index g m) s n) as [e s1 n1|? ? ?|]; try reflexivity.
  destruct (tick c KEq s1 n1) as [u s2 n2|? ? ?|]; try reflexivity. rewrite He. destruct (keqf c p k0 (fst e)); [reflexivity|apply IH].
Qed.
Lemma stands_loop {St} fuel a hash pb (s : St) n : het_find_loop fuel p a q hash pb s n = find_loop c fuel p a k0 hash pb s n.
Proof.
  revert pb s n. induction fuel as [|f IH]; intros pb s n; [reflexivity|]. cbn [het_find_loop find_loop].
  destruct (get_group a (N.to_nat (pb_pos pb))) as [b|]; [|reflexivity]. unfold bind.
  assert ((if b_match b hash =? 0 then ret None else het_find_in_group p a q (N.to_nat (pb_pos pb)) (mask_loop 16 (b_match b hash))) s n =
          (if b_match b hash =? 0 then ret None else find_in_group c p a k0 (N.to_nat (pb_pos pb)) (mask_loop 16 (b_match b hash))) s n) as ->.
  { destruct (b_match b hash =? 0); [reflexivity|apply stands_group]. }
  match goal with |- match ?X with _ => _ end = _ => destruct X as [r s1 n1|? ? ?|]; try reflexivity end.
  destruct r; [reflexivity|]. destruct (b_is_not_overflowed b hash); [reflexivity|]. destruct (pb_next pb (a_mask a)) as [pb' more]. destruct more; [apply IH|reflexivity].
Qed.
Lemma stands_hash : het_hash h q = hash_of c h k0.
Proof. unfold het_hash, hash_of. now rewrite Hh. Qed.
End Stands.
Section Stands2.
Variables (t : table) (q : Q) (k0 : K).
Hypothesis Hh : qhashf (hid t) q = hashf c (hid t) k0.
Hypothesis He : forall k, qeqf (pid t) q k = keqf c (pid t) k0 k.
Lemma stands_find {St} (s : St) n : het_find t q s n = find c t k0 s n.
Proof.
  unfold het_find, find, hash_for. rewrite !bind_bind. unfold bind. destruct (tick c KHash s n) as [u s1 n1|? ? ?|]; try reflexivity.
  cbn [ret]. rewrite (stands_hash _ _ _ Hh). unfold het_find_at, find_at. apply stands_loop. exact He.
Qed.
Lemma stands_m_find n : m_het_find q t n = m_find c k0 t n.
Proof. unfold m_het_find, m_find. rewrite !bind_get. unfold bind. rewrite stands_find. reflexivity. Qed.
Lemma stands_erase n : m_het_erase q t n = m_erase c k0 t n.
Proof. unfold m_het_erase, m_erase. rewrite !bind_get. unfold bind. rewrite stands_find. reflexivity. Qed.
End Stands2.
Lemma bind_same {St A B} (m m' : M St A) (f : A -> M St B) s n : m s n = m' s n -> bind m f s n = bind m' f s n.
Proof. intros E. unfold bind. now rewrite E. Qed.
Lemma stands_try_emplace (conv : Q -> K) t q v n : qhashf (hid t) q = hashf c (hid t) (conv q) -> (forall k, qeqf (pid t) q k = keqf c (pid t) (conv q) k) ->
  m_het_try_emplace conv q v t n = m_insert c (conv q, v) t n.
Proof.
  intros Hh He. unfold m_het_try_emplace, m_insert, emplace_impl, hash_for. rewrite !bind_get, !bind_bind. cbn [fst].
  assert (forall (A B : Type) (m : M table A) (f g : A -> M table B) n, (forall a s n', f a s n' = g a s n') -> bind m f t n = bind m g t n) as BX.
  { intros A B m f g n0 E. unfold bind. destruct (m t n0); [apply E|reflexivity|reflexivity]. }
  apply BX. intros u s1 n1. rewrite !bind_ret. rewrite (stands_hash _ _ _ Hh). unfold het_find_at, find_at.
  apply bind_same. apply (stands_loop (pid t) q (conv q) He).
Qed.
Lemma stands_insert_or_assign (conv : Q -> K) t q v n : qhashf (hid t) q = hashf c (hid t) (conv q) -> (forall k, qeqf (pid t) q k = keqf c (pid t) (conv q) k) ->
  m_het_insert_or_assign conv q v t n = m_insert_or_assign c (conv q) v t n.
Proof. intros Hh He. unfold m_het_insert_or_assign, m_insert_or_assign. apply bind_same. exact (stands_try_emplace conv t q v n Hh He). Qed.
Lemma stands_index (conv : Q -> K) t q dv n : qhashf (hid t) q = hashf c (hid t) (conv q) -> (forall k, qeqf (pid t) q k = keqf c (pid t) (conv q) k) ->
  m_het_index conv dv q t n = m_index c dv (conv q) t n.
Proof. intros Hh He. unfold m_het_index, m_index. apply bind_same. exact (stands_try_emplace conv t q dv n Hh He). Qed.
End Het.
