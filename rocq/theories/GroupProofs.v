(** All three metadata layouts implement the layout-free specification. *)
From Coq Require Import NArith Bool List Arith Lia ZifyBool ZifyNat ZifyN.
From Verif Require Import GroupModel GroupSpec GroupRun.
Import ListNotations.
Local Open Scope N_scope.

(** ** generic *)
Lemma upd_length l i x : length (upd l i x) = length l.
Proof.
  unfold upd. revert i; induction l as [|a l IH]; intros [|i]; cbn; auto.
Qed.
Lemma set_nth_length {A} (l : list A) i x : length (set_nth l i x) = length l.
Proof.
  unfold set_nth. revert i; induction l as [|a l IH]; intros [|i]; cbn; auto.
Qed.
Lemma set_nth_nth {A} (l : list A) i j x d : (i < length l)%nat ->
  nth j (set_nth l i x) d = if Nat.eqb i j then x else nth j l d.
Proof.
  unfold set_nth. revert i j; induction l as [|a l IH]; intros [|i] [|j] H; cbn in *; try lia; auto.
  rewrite IH by lia. reflexivity.
Qed.
Lemma upd_set_nth l i x : upd l i x = set_nth l i x.
Proof. reflexivity. Qed.
Lemma set_nth_map {A B} (f : A -> B) l i x : map f (set_nth l i x) = set_nth (map f l) i (f x).
Proof.
  unfold set_nth. revert i; induction l as [|a l IH]; intros [|i]; cbn; auto.
  f_equal. apply IH.
Qed.
Lemma set_nth_app_l {A} (l r : list A) i x : (i < length l)%nat ->
  set_nth (l ++ r) i x = set_nth l i x ++ r.
Proof.
  unfold set_nth. revert i; induction l as [|a l IH]; intros [|i] H; cbn in *; try lia; auto.
  f_equal. apply IH. lia.
Qed.

Lemma nth_map_lt {A B} (f : A -> B) l i d d' : (i < length l)%nat -> nth i (map f l) d = f (nth i l d').
Proof. intros H. rewrite (nth_indep _ d (f d')) by (rewrite map_length; exact H). apply map_nth. Qed.

Lemma bits_where_mask f l : bits_where f l = mask_of (map f l).
Proof. induction l as [|s l IH]; cbn; [reflexivity|]. rewrite IH. destruct (f s); reflexivity. Qed.

Lemma mask_of_testbit l i : N.testbit (mask_of l) (N.of_nat i) = nth i l false.
Proof.
  revert i; induction l as [|b l IH]; intros i.
  - cbn [mask_of]. rewrite N.bits_0. destruct i; reflexivity.
  - cbn [mask_of]. rewrite N.add_comm. destruct i as [|i].
    + cbn [nth]. change (N.of_nat 0) with 0. destruct b; cbn [N.b2n].
      * apply N.testbit_odd_0.
      * rewrite N.add_0_r. apply N.testbit_even_0.
    + rewrite Nat2N.inj_succ. destruct b; cbn [N.b2n].
      * rewrite N.testbit_odd_succ by lia. apply IH.
      * rewrite N.add_0_r, N.testbit_even_succ by lia. apply IH.
Qed.

Lemma bits_inj_nat x y : (forall i, N.testbit x (N.of_nat i) = N.testbit y (N.of_nat i)) -> x = y.
Proof.
  intros H. apply N.bits_inj. intros n. specialize (H (N.to_nat n)).
  rewrite N2Nat.id in H. exact H.
Qed.

Lemma testbit_7fff i : N.testbit 0x7FFF (N.of_nat i) = (i <? 15)%nat.
Proof.
  change 0x7FFF with (N.ones 15).
  destruct (Nat.ltb_spec i 15).
  - apply N.ones_spec_low; lia.
  - apply N.ones_spec_high; lia.
Qed.

Lemma mask15 l x : length l = 15%nat ->
  N.land (mask_of (l ++ [x])) 0x7FFF = mask_of l.
Proof.
  intros H. apply bits_inj_nat. intros i.
  rewrite N.land_spec, testbit_7fff, !mask_of_testbit.
  destruct (Nat.ltb_spec i 15).
  - rewrite app_nth1 by lia. apply andb_true_r.
  - rewrite andb_false_r, nth_overflow by lia. reflexivity.
Qed.

(** ** finite facts on bytes *)
Lemma byte_forall (P : N -> bool) :
  forallb P (map N.of_nat (seq 0 256)) = true -> forall b, b < 256 -> P b = true.
Proof.
  intros H b Hb. rewrite forallb_forall in H. apply H.
  apply in_map_iff. exists (N.to_nat b). split; [lia|]. apply in_seq. lia.
Qed.

Lemma mod256 h : h mod 256 < 256.
Proof. apply N.mod_lt; lia. Qed.
Lemma mod256_mod256 h : (h mod 256) mod 256 = h mod 256.
Proof. apply N.mod_mod; lia. Qed.
Lemma mod256_mod8 h : (h mod 256) mod 8 = h mod 8.
Proof.
  change 256 with (8 * 32). rewrite N.mod_mul_r by lia.
  rewrite N.mul_comm, N.mod_add by lia. apply N.mod_mod; lia.
Qed.

Lemma reduced_facts h :
  reduced_hash h = low_class h /\ reduced_hash_sse2 h = low_class h /\
  2 <= low_class h < 256 /\ low_class h mod 8 = h mod 8 /\
  set1_epi32 (match_word h) = repeat (low_class h) 16.
Proof.
  assert (forall b, b < 256 ->
    ((nth (N.to_nat b) reduced_table 0 =? low_class b) &&
     (nth (N.to_nat b) match_word_table 0 mod 256 =? low_class b) &&
     (2 <=? low_class b) && (low_class b <? 256) && (low_class b mod 8 =? b mod 8) &&
     forallb (fun '(x, y) => x =? y)
       (combine (set1_epi32 (nth (N.to_nat b) match_word_table 0)) (repeat (low_class b) 16)))%bool = true) as F.
  { apply (byte_forall (fun b => _)). vm_compute. reflexivity. }
  specialize (F (h mod 256) (mod256 h)).
  assert (low_class (h mod 256) = low_class h) as E.
  { unfold low_class. rewrite mod256_mod256. reflexivity. }
  rewrite E, mod256_mod8 in F.
  unfold reduced_hash, reduced_hash_sse2, match_word.
  repeat rewrite andb_true_iff in F. destruct F as (((((F1 & F2) & F3) & F4) & F5) & F6).
  repeat split; try lia.
  assert (forall l l' : list N, length l = length l' ->
    forallb (fun '(x, y) => x =? y) (combine l l') = true -> l = l') as G.
  { clear. induction l as [|a l IH]; intros [|b l'] HL H; cbn in *; try congruence; auto.
    apply andb_true_iff in H as [H1 H2]. f_equal; [lia|]. apply IH; [congruence|exact H2]. }
  apply G; [reflexivity|exact F6].
Qed.

(** ** encoding of a slot as a byte *)
Definition code (s : slot) : N :=
  match s with Empty => 0 | Sentinel => 1 | Full h => low_class h end.

Lemma code_lt s : code s < 256.
Proof. destruct s; cbn; try lia. apply reduced_facts. Qed.
Lemma code_0 s : (code s =? 0) = match s with Empty => true | _ => false end.
Proof. destruct s as [| |h]; cbn [code]; try reflexivity. pose proof (reduced_facts h). lia. Qed.
Lemma code_1 s : (code s =? 1) = match s with Sentinel => true | _ => false end.
Proof. destruct s as [| |h]; cbn [code]; try reflexivity. pose proof (reduced_facts h). lia. Qed.
Lemma code_h s h : (code s =? low_class h) = match s with Full h' => low_class h =? low_class h' | _ => false end.
Proof. destruct s as [| |h']; cbn [code]; pose proof (reduced_facts h); lia. Qed.

Record Wf (s : ginfo) : Prop := {
  wf_len : length (slots s) = 15%nat;
  wf_sent : forall p, nth p (slots s) Empty = Sentinel -> p = 14%nat;
  wf_marks : forall m, In m (marks s) -> m < 8 }.

Lemma spec_op_wf s o : Wf s -> op_ok o -> Wf (spec_op s o).
Proof.
  intros [L S M] Hok. destruct o as [|p h| |p|h]; cbn [spec_op op_ok] in *.
  - split; cbn; [reflexivity| |tauto].
    intros p. do 15 (destruct p as [|p]; [discriminate|]). destruct p; discriminate.
  - split; cbn [slots marks]; [rewrite set_nth_length; exact L| |exact M].
    intros q. rewrite set_nth_nth by lia. destruct (Nat.eqb_spec p q); [discriminate|apply S].
  - split; cbn [slots marks]; [rewrite set_nth_length; exact L| |exact M].
    intros q. rewrite set_nth_nth by lia. destruct (Nat.eqb_spec 14 q); [lia|apply S].
  - split; cbn [slots marks]; [rewrite set_nth_length; exact L| |exact M].
    intros q. rewrite set_nth_nth by lia. destruct (Nat.eqb_spec p q); [discriminate|apply S].
  - split; cbn [slots marks]; [exact L|exact S|].
    intros m [<-|H]; [apply N.mod_lt; lia|auto].
Qed.
Lemma spec_init_wf : Wf spec_init.
Proof.
  split; cbn; [reflexivity| |tauto].
  intros p. do 15 (destruct p as [|p]; [discriminate|]). destruct p; discriminate.
Qed.

(** ** byte layouts *)
Definition marked (s : ginfo) (j : N) : bool := existsb (N.eqb j) (marks s).

Definition Rb (s : ginfo) (g : bytes16) : Prop :=
  exists ov, g = map code (slots s) ++ [ov] /\ forall j, j < 8 -> N.testbit ov j = marked s j.

Lemma nth_slots s ov p : Wf s -> (p < 15)%nat ->
  nth p (map code (slots s) ++ [ov]) 0 = code (nth p (slots s) Empty).
Proof.
  intros W H. rewrite app_nth1 by (rewrite map_length, (wf_len s W); lia).
  change 0 with (code Empty). apply map_nth.
Qed.
Lemma nth_ov s ov : Wf s -> nth 15 (map code (slots s) ++ [ov]) 0 = ov.
Proof.
  intros W. rewrite app_nth2 by (rewrite map_length, (wf_len s W); lia).
  rewrite map_length, (wf_len s W). reflexivity.
Qed.
Lemma set_slot s ov p x : Wf s -> (p < 15)%nat ->
  upd (map code (slots s) ++ [ov]) p (code x) = map code (set_nth (slots s) p x) ++ [ov].
Proof.
  intros W H. rewrite upd_set_nth, set_nth_app_l by (rewrite map_length, (wf_len s W); lia).
  rewrite <- set_nth_map. reflexivity.
Qed.
Lemma set_ov s ov x : Wf s -> upd (map code (slots s) ++ [ov]) 15 x = map code (slots s) ++ [x].
Proof.
  intros W. unfold upd.
  assert (length (map code (slots s)) = 15%nat) as L by (rewrite map_length; apply W).
  rewrite firstn_app, skipn_app, L. rewrite firstn_all2, skipn_all2 by lia. cbn.
  rewrite app_nil_r. reflexivity.
Qed.

Lemma hmod8 h : h mod 8 < 8.
Proof. apply N.mod_lt; lia. Qed.

Lemma shift_table_nth j : j < 8 -> nth (N.to_nat j) shift_table 0 = 2 ^ j /\ N.shiftl 1 j mod 256 = 2 ^ j.
Proof.
  intros H. assert (In j (map N.of_nat (seq 0 8))) as I.
  { apply in_map_iff. exists (N.to_nat j). split; [lia|]. apply in_seq; lia. }
  cbn in I. repeat (destruct I as [<-|I]; [split; reflexivity|]). destruct I.
Qed.

Lemma land_pow2 x j : (N.land x (2 ^ j) =? 0) = negb (N.testbit x j).
Proof.
  destruct (N.testbit x j) eqn:T; cbn [negb].
  - apply N.eqb_neq. intros E. assert (N.testbit (N.land x (2 ^ j)) j = false) as F by (rewrite E; apply N.bits_0).
    rewrite N.land_spec, T, N.pow2_bits_true in F. discriminate.
  - apply N.eqb_eq. apply N.bits_inj. intros i. rewrite N.land_spec, N.bits_0, N.pow2_bits_eqb.
    destruct (N.eqb_spec j i); [subst; rewrite T; reflexivity|apply andb_false_r].
Qed.

Lemma Rb_not_overflowed s g h : Wf s -> Rb s g -> b_is_not_overflowed g h = negb (marked s (h mod 8)).
Proof.
  intros W (ov & -> & B). unfold b_is_not_overflowed. rewrite (nth_ov s ov W).
  destruct (shift_table_nth (h mod 8) (hmod8 h)) as [-> _]. rewrite land_pow2, B; auto using hmod8.
Qed.

Lemma Rb_op_code s g o (f : N -> N) : (forall h, f h = low_class h) -> Wf s -> Rb s g -> op_ok o ->
  Rb (spec_op s o)
     (match o with
      | GInit => b_initialize | GSet p h => upd g p (f h) | GSentinel => b_set_sentinel g
      | GReset p => b_reset g p | GMark h => b_mark_overflow g h end).
Proof.
  intros Hf W (ov & -> & B) Hok. destruct o as [|p h| |p|h]; cbn [spec_op op_ok] in *.
  - exists 0. split; [reflexivity|]. intros j Hj. rewrite N.bits_0. reflexivity.
  - exists ov. split; [|exact B]. rewrite Hf. change (low_class h) with (code (Full h)).
    cbn [slots]. apply set_slot; assumption.
  - exists ov. split; [|exact B]. unfold b_set_sentinel. change 1 with (code Sentinel).
    cbn [slots]. apply set_slot; [assumption|lia].
  - exists ov. split; [|exact B]. unfold b_reset. change 0 with (code Empty).
    cbn [slots]. apply set_slot; [assumption|lia].
  - unfold b_mark_overflow. rewrite (nth_ov s ov W).
    destruct (shift_table_nth (h mod 8) (hmod8 h)) as [_ ->].
    exists (N.lor ov (2 ^ (h mod 8))). split; [cbn [slots]; apply set_ov; assumption|].
    intros j Hj. rewrite N.lor_spec, (B j Hj), N.pow2_bits_eqb.
    unfold marked. cbn [marks existsb]. rewrite (N.eqb_sym j). apply orb_comm.
Qed.

Lemma cmpeq_repeat l x n : (length l <= n)%nat -> cmpeq_epi8 l (repeat x n) = map (fun y => y =? x) l.
Proof.
  unfold cmpeq_epi8. revert n; induction l as [|a l IH]; intros n H; [reflexivity|].
  destruct n as [|n]; [cbn in H; lia|]. cbn. f_equal. apply IH. cbn in H. lia.
Qed.

Lemma map_slots_mask (P : N -> bool) s ov : Wf s ->
  N.land (mask_of (map P (map code (slots s) ++ [ov]))) 0x7FFF = mask_of (map (fun x => P (code x)) (slots s)).
Proof.
  intros W. rewrite map_app, map_map. cbn [map]. apply mask15. rewrite map_length. apply W.
Qed.

Lemma map_ext_mask (f g : slot -> bool) l : (forall x, f x = g x) -> mask_of (map f l) = mask_of (map g l).
Proof. intros H. f_equal. apply map_ext. exact H. Qed.

Lemma lnot32_mask l : length l = 15%nat ->
  N.land (N.lnot (mask_of l) 32) 0x7FFF = mask_of (map negb l).
Proof.
  intros L. apply bits_inj_nat. intros i. rewrite N.land_spec, testbit_7fff, mask_of_testbit.
  destruct (Nat.ltb_spec i 15).
  - rewrite N.lnot_spec_low by lia. rewrite mask_of_testbit, andb_true_r.
    rewrite (nth_indep (map negb l) false (negb false)) by (rewrite map_length; lia).
    rewrite map_nth. reflexivity.
  - rewrite andb_false_r, nth_overflow by (rewrite map_length; lia). reflexivity.
Qed.

Lemma bnum_inj a b : a = b -> bnum a = bnum b. Proof. congruence. Qed.

Lemma maybe_b s g p : Wf s -> Rb s g -> query_ok s (QMaybeCausedOverflow p) ->
  bnum (b_maybe_caused_overflow g p) = spec_answer s (QMaybeCausedOverflow p).
Proof.
  intros W R [h Hh]. unfold b_maybe_caused_overflow. rewrite (Rb_not_overflowed s g _ W R).
  assert (p < 15)%nat as Hp.
  { rewrite <- (wf_len s W). apply nth_error_Some. congruence. }
  destruct R as (ov & -> & B). rewrite nth_slots by assumption.
  pose proof (nth_error_nth _ _ Empty Hh) as E. cbn [spec_answer]. rewrite E. cbn [code].
  rewrite negb_involutive. apply bnum_inj. unfold marked.
  pose proof (reduced_facts h) as (_ & _ & _ & -> & _). reflexivity.
Qed.

Lemma sse2_ok s g q : Wf s -> Rb s g -> query_ok s q -> sse2_answer g q = spec_answer s q.
Proof.
  intros W R Q. destruct q as [h| | |p|p|h|p]; cbn [sse2_answer query_ok] in *.
  - destruct R as (ov & -> & B). unfold b_match.
    pose proof (reduced_facts h) as (_ & _ & _ & _ & ->).
    rewrite cmpeq_repeat by (rewrite app_length, map_length, (wf_len s W); cbn; lia).
    rewrite map_slots_mask by assumption. cbn [spec_answer]. rewrite bits_where_mask.
    apply map_ext_mask. intros x. apply code_h.
  - destruct R as (ov & -> & B). unfold b_match_available.
    rewrite cmpeq_repeat by (rewrite app_length, map_length, (wf_len s W); cbn; lia).
    rewrite map_slots_mask by assumption. cbn [spec_answer]. rewrite bits_where_mask.
    apply map_ext_mask. intros x. apply code_0.
  - destruct R as (ov & -> & B). unfold b_match_occupied, b_match_available.
    rewrite cmpeq_repeat by (rewrite app_length, map_length, (wf_len s W); cbn; lia).
    rewrite map_slots_mask by assumption.
    rewrite lnot32_mask by (rewrite map_length; apply W).
    cbn [spec_answer]. rewrite bits_where_mask, map_map.
    apply map_ext_mask. intros x. rewrite code_0. destruct x; reflexivity.
  - destruct R as (ov & -> & B). unfold b_is_occupied. rewrite nth_slots by assumption.
    rewrite code_0. cbn [spec_answer]. destruct (nth p (slots s) Empty); reflexivity.
  - destruct R as (ov & -> & B). unfold b_is_sentinel. rewrite nth_slots by assumption.
    rewrite code_1. reflexivity.
  - rewrite (Rb_not_overflowed s g h W R). reflexivity.
  - apply maybe_b; assumption.
Qed.

Lemma neon_movemask_ok l : length l = 16%nat -> neon_movemask (map ff l) = mask_of l.
Proof.
  intros L. do 16 (destruct l as [|? l]; [discriminate|]). destruct l; [|discriminate]. clear L.
  assert (forall c b, c < 256 -> N.land c (ff b) = c * N.b2n b) as E.
  { intros c [|] H; cbn [ff N.b2n]; [|rewrite N.land_0_r; lia].
    change 255 with (N.ones 8). rewrite N.land_ones, N.mod_small by exact H. lia. }
  unfold neon_movemask, neon_md. cbn [map combine firstn skipn fold_right mask_of].
  rewrite !E by lia. lia.
Qed.

Lemma neon_ok s g q : Wf s -> Rb s g -> query_ok s q -> neon_answer g q = spec_answer s q.
Proof.
  intros W R Q.
  assert (forall P ov, N.land (neon_movemask (map (fun x => ff (P x)) (map code (slots s) ++ [ov]))) 0x7FFF
          = mask_of (map (fun x => P (code x)) (slots s))) as K.
  { intros P ov. rewrite <- (map_map P ff).
    rewrite neon_movemask_ok by (rewrite map_length, app_length, map_length, (wf_len s W); reflexivity).
    apply map_slots_mask. assumption. }
  destruct q as [h| | |p|p|h|p]; cbn [neon_answer query_ok] in *.
  - destruct R as (ov & -> & B). unfold bn_match. rewrite K. cbn [spec_answer]. rewrite bits_where_mask.
    apply map_ext_mask. intros x. pose proof (reduced_facts h) as (-> & _). apply code_h.
  - destruct R as (ov & -> & B). unfold bn_match_available. rewrite K. cbn [spec_answer].
    rewrite bits_where_mask. apply map_ext_mask. intros x. apply code_0.
  - destruct R as (ov & -> & B). unfold bn_match_occupied. rewrite K. cbn [spec_answer].
    rewrite bits_where_mask. apply map_ext_mask. intros x.
    replace (0 <? code x) with (negb (code x =? 0)) by lia. rewrite code_0. destruct x; reflexivity.
  - destruct R as (ov & -> & B). unfold b_is_occupied. rewrite nth_slots by assumption.
    rewrite code_0. cbn [spec_answer]. destruct (nth p (slots s) Empty); reflexivity.
  - destruct R as (ov & -> & B). unfold bn_is_sentinel. rewrite nth_slots by (assumption || lia).
    rewrite code_1. cbn [spec_answer]. apply bnum_inj.
    destruct (Nat.eqb_spec p 14) as [->|Ne]; [reflexivity|]. cbn.
    destruct (nth p (slots s) Empty) eqn:E; try reflexivity. elim Ne. eapply wf_sent; eauto.
  - rewrite (Rb_not_overflowed s g h W R). reflexivity.
  - apply maybe_b; assumption.
Qed.

(** ** interleaved layout *)
Definition idx (j : N) (p : nat) : N := 16 * j + N.of_nat p.

Record Ri (s : ginfo) (g : words) : Prop := {
  ri_w0 : w0 g < 2 ^ 64; ri_w1 : w1 g < 2 ^ 64;
  ri_lo : forall p j, (p < 15)%nat -> j < 4 ->
     N.testbit (w0 g) (idx j p) = N.testbit (code (nth p (slots s) Empty)) j;
  ri_hi : forall p j, (p < 15)%nat -> j < 4 ->
     N.testbit (w1 g) (idx j p) = N.testbit (code (nth p (slots s) Empty)) (j + 4);
  ri_ov0 : forall j, j < 4 -> N.testbit (w0 g) (idx j 15) = marked s j;
  ri_ov1 : forall j, j < 4 -> N.testbit (w1 g) (idx j 15) = marked s (j + 4) }.

Definition bits64 : list N := map N.of_nat (seq 0 64).
Lemma in_range n m : m < N.of_nat n -> In m (map N.of_nat (seq 0 n)).
Proof. intros H. apply in_map_iff. exists (N.to_nat m). split; [lia|]. apply in_seq; lia. Qed.

(** finite facts on the mask tables of set_impl *)
Lemma set_tables n p i : n < 16 -> (p < 16)%nat -> i < 64 ->
  N.testbit (N.shiftl (nth (N.to_nat n) set_mask 0) (N.of_nat p) mod 2 ^ 64) i
    = ((i mod 16 =? N.of_nat p) && N.testbit n (i / 16))%bool /\
  N.testbit (N.shiftl (nth (N.to_nat n) set_imask 0) (N.of_nat p) mod 2 ^ 64) i
    = ((i mod 16 =? N.of_nat p) && negb (N.testbit n (i / 16)))%bool.
Proof.
  intros Hn Hp Hi.
  assert (forallb (fun n => forallb (fun p => forallb (fun i =>
     Bool.eqb (N.testbit (N.shiftl (nth (N.to_nat n) set_mask 0) (N.of_nat p) mod 2 ^ 64) i)
       ((i mod 16 =? N.of_nat p) && N.testbit n (i / 16))%bool &&
     Bool.eqb (N.testbit (N.shiftl (nth (N.to_nat n) set_imask 0) (N.of_nat p) mod 2 ^ 64) i)
       ((i mod 16 =? N.of_nat p) && negb (N.testbit n (i / 16)))%bool)
     (map N.of_nat (seq 0 64))) (seq 0 16)) (map N.of_nat (seq 0 16)) = true) as F
    by (vm_compute; reflexivity).
  rewrite forallb_forall in F. specialize (F n (in_range 16 n ltac:(lia))).
  rewrite forallb_forall in F. specialize (F p ltac:(apply in_seq; lia)).
  rewrite forallb_forall in F. specialize (F i (in_range 64 i ltac:(lia))).
  apply andb_true_iff in F as [F1 F2]. split; apply Bool.eqb_prop; assumption.
Qed.

Lemma lt64_bits x : x < 2 ^ 64 <-> forall i, 64 <= i -> N.testbit x i = false.
Proof.
  split.
  - intros H i Hi. rewrite <- (N.mod_small x (2 ^ 64)) by exact H. apply N.mod_pow2_bits_high. exact Hi.
  - intros H. assert (x mod 2 ^ 64 = x) as E.
    { apply N.bits_inj. intros i. destruct (N.lt_ge_cases i 64) as [L|G].
      - apply N.mod_pow2_bits_low. exact L.
      - rewrite N.mod_pow2_bits_high by exact G. symmetry. apply H. exact G. }
    rewrite <- E. apply N.mod_lt. apply N.pow_nonzero. lia.
Qed.

Lemma set_word_bits x p n i : x < 2 ^ 64 -> n < 16 -> (p < 16)%nat -> i < 64 ->
  N.testbit (i_set_word x p n) i = if i mod 16 =? N.of_nat p then N.testbit n (i / 16) else N.testbit x i.
Proof.
  intros Hx Hn Hp Hi. unfold i_set_word, not64.
  destruct (set_tables n p i Hn Hp Hi) as [T1 T2].
  rewrite N.land_spec, N.lor_spec, N.lnot_spec_low by lia. rewrite T1, T2.
  destruct (i mod 16 =? N.of_nat p); cbn [andb]; destruct (N.testbit n (i / 16)), (N.testbit x i); reflexivity.
Qed.
Lemma set_word_lt x p n : x < 2 ^ 64 -> i_set_word x p n < 2 ^ 64.
Proof.
  intros Hx. apply lt64_bits. intros i Hi. unfold i_set_word.
  rewrite N.land_spec, N.lor_spec. rewrite (proj1 (lt64_bits x) Hx i Hi).
  rewrite N.mod_pow2_bits_high by exact Hi. reflexivity.
Qed.

Lemma idx_div j p : (p < 16)%nat -> idx j p / 16 = j /\ idx j p mod 16 = N.of_nat p.
Proof.
  intros H. unfold idx. rewrite (N.mul_comm 16 j), N.add_comm. split.
  - rewrite N.div_add by lia. rewrite N.div_small by lia. lia.
  - rewrite N.mod_add by lia. apply N.mod_small. lia.
Qed.
Lemma idx_lt j p : (p < 16)%nat -> j < 4 -> idx j p < 64.
Proof. unfold idx. lia. Qed.

Lemma nibbles c : c < 256 -> N.land c 0xF < 16 /\ N.shiftr c 4 < 16 /\
  (forall j, j < 4 -> N.testbit (N.land c 0xF) j = N.testbit c j) /\
  (forall j, N.testbit (N.shiftr c 4) j = N.testbit c (j + 4)).
Proof.
  intros H. change 0xF with (N.ones 4). repeat split.
  - rewrite N.land_ones. apply N.mod_lt. lia.
  - rewrite N.shiftr_div_pow2. change (2 ^ 4) with 16. apply N.div_lt_upper_bound; lia.
  - intros j Hj. rewrite N.land_spec, N.ones_spec_low by lia. apply andb_true_r.
  - intros j. apply N.shiftr_spec. lia.
Qed.

Lemma Ri_set s g p x : Wf s -> Ri s g -> (p < 15)%nat ->
  Ri {| slots := set_nth (slots s) p x; marks := marks s |} (i_set_impl g p (code x)).
Proof.
  intros W R Hp. destruct R as [A0 A1 Lo Hi O0 O1].
  destruct (nibbles (code x) (code_lt x)) as (N0 & N1 & B0 & B1).
  assert (forall q j, (q < 16)%nat -> (idx j q mod 16 =? N.of_nat p) = Nat.eqb q p) as IM.
  { intros q j Hq. destruct (idx_div j q Hq) as [_ ->]. lia. }
  unfold i_set_impl. split; cbn [w0 w1 slots marks].
  - apply set_word_lt; assumption.
  - apply set_word_lt; assumption.
  - intros q j Hq Hj. rewrite set_word_bits by (try assumption; try lia; apply idx_lt; lia).
    rewrite IM by lia. destruct (idx_div j q ltac:(lia)) as [-> _].
    rewrite set_nth_nth by (rewrite (wf_len s W); lia). rewrite (Nat.eqb_sym p q).
    destruct (Nat.eqb q p); [apply B0; assumption|apply Lo; assumption].
  - intros q j Hq Hj. rewrite set_word_bits by (try assumption; try lia; apply idx_lt; lia).
    rewrite IM by lia. destruct (idx_div j q ltac:(lia)) as [-> _].
    rewrite set_nth_nth by (rewrite (wf_len s W); lia). rewrite (Nat.eqb_sym p q).
    destruct (Nat.eqb q p); [apply B1|apply Hi; assumption].
  - intros j Hj. rewrite set_word_bits by (try assumption; try lia; apply idx_lt; lia).
    rewrite IM by lia. replace (Nat.eqb 15 p) with false by lia. apply O0. assumption.
  - intros j Hj. rewrite set_word_bits by (try assumption; try lia; apply idx_lt; lia).
    rewrite IM by lia. replace (Nat.eqb 15 p) with false by lia. apply O1. assumption.
Qed.

Lemma lane_bit_pow j : j < 4 -> N.shiftl 0x8000 (16 * j) = 2 ^ idx j 15.
Proof.
  intros H. rewrite N.shiftl_mul_pow2. change 0x8000 with (2 ^ 15). rewrite <- N.pow_add_r.
  f_equal. unfold idx. lia.
Qed.

Lemma lor_pow2_lt x j : x < 2 ^ 64 -> j < 64 -> N.lor x (2 ^ j) < 2 ^ 64.
Proof.
  intros Hx Hj. apply lt64_bits. intros i Hi. rewrite N.lor_spec, (proj1 (lt64_bits x) Hx i Hi).
  rewrite N.pow2_bits_eqb. lia.
Qed.

Lemma Ri_op s g o : Wf s -> Ri s g -> op_ok o -> Ri (spec_op s o) (inter_op g o).
Proof.
  intros W R Hok. destruct o as [|p h| |p|h]; cbn [spec_op inter_op op_ok] in *.
  - split; cbn [w0 w1 i_initialize]; try lia; intros.
    all: rewrite ?N.bits_0; try reflexivity.
    all: cbn [spec_init slots]; rewrite nth_repeat; cbn [code]; rewrite ?N.bits_0; reflexivity.
  - unfold i_set. pose proof (reduced_facts h) as (-> & _).
    apply (Ri_set s g p (Full h)); assumption.
  - apply (Ri_set s g 14 Sentinel); auto; lia.
  - apply (Ri_set s g p Empty); assumption.
  - destruct R as [A0 A1 Lo Hi O0 O1]. pose proof (hmod8 h) as M. set (i := h mod 8) in *.
    assert (forall j, j < 8 -> marked {| slots := slots s; marks := i :: marks s |} j = (j =? i) || marked s j)%bool as MK
      by reflexivity.
    assert (forall j q j', (q < 15)%nat -> (idx j 15 =? idx j' q) = false) as D1.
    { intros j q j' Hq. apply N.eqb_neq. unfold idx. lia. }
    assert (forall j j', (idx j 15 =? idx j' 15) = (j =? j')) as D2 by (intros; unfold idx; lia).
    unfold i_mark_overflow. fold i. destruct (N.ltb_spec i 4) as [L|G]; cbn [w0 w1].
    + rewrite lane_bit_pow by assumption. split; cbn [w0 w1 slots]; auto.
      * apply lor_pow2_lt; [assumption|apply idx_lt; lia].
      * intros q j Hq Hj. rewrite N.lor_spec, N.pow2_bits_eqb, D1, orb_false_r by assumption. auto.
      * intros j Hj. rewrite N.lor_spec, N.pow2_bits_eqb, D2, MK, O0 by lia.
        rewrite (N.eqb_sym i). apply orb_comm.
      * intros j Hj. rewrite MK, O1 by lia. replace (j + 4 =? i) with false by lia. reflexivity.
    + rewrite lane_bit_pow by lia. split; cbn [w0 w1 slots]; auto.
      * apply lor_pow2_lt; [assumption|apply idx_lt; lia].
      * intros q j Hq Hj. rewrite N.lor_spec, N.pow2_bits_eqb, D1, orb_false_r by assumption. auto.
      * intros j Hj. rewrite MK, O0 by lia. replace (j =? i) with false by lia. reflexivity.
      * intros j Hj. rewrite N.lor_spec, N.pow2_bits_eqb, D2, MK, O1 by lia.
        replace (i - 4 =? j) with (j + 4 =? i) by lia. apply orb_comm.
Qed.

(** extraction of the four lanes of a 64-bit word *)
Lemma fold_and_bits x i : (i < 15)%nat ->
  N.testbit (N.land (N.land (u32 (N.land x (N.shiftr x 32))) (N.shiftr (u32 (N.land x (N.shiftr x 32))) 16)) 0x7FFF) (N.of_nat i)
  = (N.testbit x (idx 0 i) && N.testbit x (idx 1 i) && N.testbit x (idx 2 i) && N.testbit x (idx 3 i))%bool.
Proof.
  intros H. rewrite N.land_spec, testbit_7fff. replace (i <? 15)%nat with true by lia.
  rewrite andb_true_r, N.land_spec, N.shiftr_spec by lia. unfold u32.
  rewrite !N.mod_pow2_bits_low by lia. rewrite !N.land_spec, !N.shiftr_spec by lia.
  unfold idx. replace (16 * 0 + N.of_nat i) with (N.of_nat i) by lia.
  replace (16 * 1 + N.of_nat i) with (N.of_nat i + 16) by lia.
  replace (16 * 2 + N.of_nat i) with (N.of_nat i + 32) by lia.
  replace (16 * 3 + N.of_nat i) with (N.of_nat i + 16 + 32) by lia.
  destruct (N.testbit x (N.of_nat i)), (N.testbit x (N.of_nat i + 16)),
    (N.testbit x (N.of_nat i + 32)), (N.testbit x (N.of_nat i + 16 + 32)); reflexivity.
Qed.
Lemma fold_or_bits x i : (i < 15)%nat ->
  N.testbit (N.land (N.lor (u32 (N.lor x (N.shiftr x 32))) (N.shiftr (u32 (N.lor x (N.shiftr x 32))) 16)) 0x7FFF) (N.of_nat i)
  = (N.testbit x (idx 0 i) || N.testbit x (idx 1 i) || N.testbit x (idx 2 i) || N.testbit x (idx 3 i))%bool.
Proof.
  intros H. rewrite N.land_spec, testbit_7fff. replace (i <? 15)%nat with true by lia.
  rewrite andb_true_r, N.lor_spec, N.shiftr_spec by lia. unfold u32.
  rewrite !N.mod_pow2_bits_low by lia. rewrite !N.lor_spec, !N.shiftr_spec by lia.
  unfold idx. replace (16 * 0 + N.of_nat i) with (N.of_nat i) by lia.
  replace (16 * 1 + N.of_nat i) with (N.of_nat i + 16) by lia.
  replace (16 * 2 + N.of_nat i) with (N.of_nat i + 32) by lia.
  replace (16 * 3 + N.of_nat i) with (N.of_nat i + 16 + 32) by lia.
  destruct (N.testbit x (N.of_nat i)), (N.testbit x (N.of_nat i + 16)),
    (N.testbit x (N.of_nat i + 32)), (N.testbit x (N.of_nat i + 16 + 32)); reflexivity.
Qed.

Lemma mask15_inj x l : length l = 15%nat ->
  (forall i, (i < 15)%nat -> N.testbit (N.land x 0x7FFF) (N.of_nat i) = nth i l false) ->
  N.land x 0x7FFF = mask_of l.
Proof.
  intros L H. apply bits_inj_nat. intros i. rewrite mask_of_testbit.
  destruct (Nat.lt_ge_cases i 15); [apply H; assumption|].
  rewrite N.land_spec, testbit_7fff. replace (i <? 15)%nat with false by lia.
  rewrite andb_false_r, nth_overflow by lia. reflexivity.
Qed.

(** a byte is determined by its 8 bits *)
Lemma byte_eqb a b : a < 256 -> b < 256 ->
  (a =? b) = (Bool.eqb (N.testbit a 0) (N.testbit b 0) && Bool.eqb (N.testbit a 1) (N.testbit b 1) &&
              Bool.eqb (N.testbit a 2) (N.testbit b 2) && Bool.eqb (N.testbit a 3) (N.testbit b 3) &&
              Bool.eqb (N.testbit a 4) (N.testbit b 4) && Bool.eqb (N.testbit a 5) (N.testbit b 5) &&
              Bool.eqb (N.testbit a 6) (N.testbit b 6) && Bool.eqb (N.testbit a 7) (N.testbit b 7))%bool.
Proof.
  intros Ha Hb. destruct (N.eqb_spec a b) as [->|Ne].
  - rewrite !Bool.eqb_reflx. reflexivity.
  - symmetry. apply not_true_is_false. intros C. apply Ne.
    repeat rewrite andb_true_iff in C. rewrite !Bool.eqb_true_iff in C.
    apply N.bits_inj. intros i. destruct (N.lt_ge_cases i 8) as [L|G].
    + assert (In i (map N.of_nat (seq 0 8))) as I by (apply in_range; clear - L; lia). cbn in I.
      repeat (destruct I as [<-|I]; [apply C|]). destruct I.
    + rewrite <- (N.mod_small a (2 ^ 8)), <- (N.mod_small b (2 ^ 8)) by assumption.
      rewrite !N.mod_pow2_bits_high by exact G. reflexivity.
Qed.

Lemma match_mask_bits n j p : n < 16 -> j < 4 -> (p < 15)%nat ->
  N.testbit (nth (N.to_nat n) match_mask 0) (idx j p) = N.testbit n j.
Proof.
  intros Hn Hj Hp.
  assert (forallb (fun n => forallb (fun j => forallb (fun p =>
     Bool.eqb (N.testbit (nth (N.to_nat n) match_mask 0) (idx j p)) (N.testbit n j))
     (seq 0 15)) (map N.of_nat (seq 0 4))) (map N.of_nat (seq 0 16)) = true) as F
    by (vm_compute; reflexivity).
  rewrite forallb_forall in F. specialize (F n (in_range 16 n ltac:(lia))).
  rewrite forallb_forall in F. specialize (F j (in_range 4 j ltac:(lia))).
  rewrite forallb_forall in F. specialize (F p ltac:(apply in_seq; lia)).
  apply Bool.eqb_prop. exact F.
Qed.

Lemma i_match_impl_ok s g n : Wf s -> Ri s g -> n < 256 ->
  i_match_impl g n = mask_of (map (fun x => code x =? n) (slots s)).
Proof.
  intros W R Hn. destruct R as [A0 A1 Lo Hi O0 O1].
  destruct (nibbles n Hn) as (N0 & N1 & B0 & B1).
  unfold i_match_impl. apply mask15_inj; [rewrite map_length; apply W|].
  intros i Hlt. rewrite fold_and_bits by assumption.
  rewrite (nth_indep _ false ((fun x => code x =? n) Empty)) by (rewrite map_length, (wf_len s W); lia).
  rewrite (map_nth (fun x => code x =? n)).
  rewrite byte_eqb by (assumption || apply code_lt).
  unfold not64. rewrite !N.lnot_spec_low by (apply idx_lt; lia).
  rewrite !N.lor_spec, !N.lxor_spec. rewrite !match_mask_bits by (assumption || lia).
  rewrite !Lo, !Hi by (assumption || lia). rewrite !B0, !B1 by lia.
  change (0 + 4) with 4. change (1 + 4) with 5. change (2 + 4) with 6. change (3 + 4) with 7.
  set (c := code (nth i (slots s) Empty)).
  assert (forall a b, negb (xorb a b) = Bool.eqb a b) as NX by (intros [|] [|]; reflexivity).
  rewrite !negb_orb, !NX.
  generalize (Bool.eqb (N.testbit c 0) (N.testbit n 0)), (Bool.eqb (N.testbit c 1) (N.testbit n 1)),
    (Bool.eqb (N.testbit c 2) (N.testbit n 2)), (Bool.eqb (N.testbit c 3) (N.testbit n 3)),
    (Bool.eqb (N.testbit c 4) (N.testbit n 4)), (Bool.eqb (N.testbit c 5) (N.testbit n 5)),
    (Bool.eqb (N.testbit c 6) (N.testbit n 6)), (Bool.eqb (N.testbit c 7) (N.testbit n 7)).
  intros [|] [|] [|] [|] [|] [|] [|] [|]; reflexivity.
Qed.

Lemma code_zero_bits s g i : Ri s g -> (i < 15)%nat ->
  (code (nth i (slots s) Empty) =? 0) =
  negb (N.testbit (N.lor (w0 g) (w1 g)) (idx 0 i) || N.testbit (N.lor (w0 g) (w1 g)) (idx 1 i) ||
        N.testbit (N.lor (w0 g) (w1 g)) (idx 2 i) || N.testbit (N.lor (w0 g) (w1 g)) (idx 3 i)).
Proof.
  intros [A0 A1 Lo Hi O0 O1] H. rewrite byte_eqb by (lia || apply code_lt).
  rewrite !N.lor_spec, !Lo, !Hi by (assumption || lia). rewrite !N.bits_0.
  change (0 + 4) with 4. change (1 + 4) with 5. change (2 + 4) with 6. change (3 + 4) with 7.
  set (c := code _).
  destruct (N.testbit c 0), (N.testbit c 1), (N.testbit c 2), (N.testbit c 3), (N.testbit c 4),
    (N.testbit c 5), (N.testbit c 6), (N.testbit c 7); reflexivity.
Qed.

Lemma lane16_bit g j : j < 8 -> w0 g < 2 ^ 64 -> w1 g < 2 ^ 64 ->
  (N.land (lane16 g j) 0x8000 =? 0) =
  negb (if j <? 4 then N.testbit (w0 g) (idx j 15) else N.testbit (w1 g) (idx (j - 4) 15)).
Proof.
  intros Hj H0 H1. change 0x8000 with (2 ^ 15). rewrite land_pow2. f_equal. unfold lane16.
  destruct (j <? 4); rewrite N.mod_pow2_bits_low, N.shiftr_spec by lia; f_equal; unfold idx; lia.
Qed.

Lemma Ri_not_overflowed s g h : Ri s g -> i_is_not_overflowed g h = negb (marked s (h mod 8)).
Proof.
  intros [A0 A1 Lo Hi O0 O1]. unfold i_is_not_overflowed. pose proof (hmod8 h) as M.
  rewrite lane16_bit by assumption. f_equal.
  destruct (N.ltb_spec (h mod 8) 4); [apply O0; assumption|].
  rewrite O1 by lia. f_equal. lia.
Qed.

Lemma mod8_bits a b : N.testbit a 0 = N.testbit b 0 -> N.testbit a 1 = N.testbit b 1 ->
  N.testbit a 2 = N.testbit b 2 -> a mod 8 = b mod 8.
Proof.
  intros H0 H1 H2. change 8 with (2 ^ 3). apply N.bits_inj. intros i.
  destruct (N.lt_ge_cases i 3) as [L|G].
  - rewrite !N.mod_pow2_bits_low by exact L. pose proof (in_range 3 i ltac:(lia)) as I. cbn in I.
    repeat (destruct I as [<-|I]; [assumption|]). destruct I.
  - rewrite !N.mod_pow2_bits_high by exact G. reflexivity.
Qed.

Lemma shl_1111 p i : (p < 15)%nat -> i < 64 ->
  N.testbit (N.shiftl 0x0001000100010001 (N.of_nat p) mod 2 ^ 64) i = (i mod 16 =? N.of_nat p).
Proof.
  intros Hp Hi. destruct (set_tables 15 p i ltac:(lia) ltac:(lia) Hi) as [T _].
  change (nth (N.to_nat 15) set_mask 0) with 0x0001000100010001 in T. rewrite T.
  assert (N.testbit 15 (i / 16) = true) as ->; [|apply andb_true_r].
  assert (i / 16 < 4) by (apply N.div_lt_upper_bound; lia).
  change 15 with (N.ones 4). apply N.ones_spec_low. assumption.
Qed.

Lemma inter_ok s g q : Wf s -> Ri s g -> query_ok s q -> inter_answer g q = spec_answer s q.
Proof.
  intros W R Q. destruct q as [h| | |p|p|h|p]; cbn [inter_answer query_ok] in *.
  - unfold i_match. pose proof (reduced_facts h) as (-> & _ & Lt & _).
    rewrite (i_match_impl_ok s g _ W R) by lia. cbn [spec_answer]. rewrite bits_where_mask.
    apply map_ext_mask. intros x. apply code_h.
  - cbn [spec_answer]. rewrite bits_where_mask. unfold i_match_available. apply mask15_inj; [rewrite map_length; apply W|].
    intros i Hi. rewrite fold_and_bits by assumption.
    unfold not64. rewrite !N.lnot_spec_low by (apply idx_lt; lia).
    rewrite (nth_map_lt _ _ i false Empty) by (rewrite (wf_len s W); lia).
    rewrite <- code_0, (code_zero_bits s g i R Hi).
    rewrite !negb_orb. reflexivity.
  - cbn [spec_answer]. rewrite bits_where_mask. unfold i_match_occupied. apply mask15_inj; [rewrite map_length; apply W|].
    intros i Hi. rewrite fold_or_bits by assumption.
    rewrite (nth_map_lt _ _ i false Empty) by (rewrite (wf_len s W); lia).
    pose proof (code_zero_bits s g i R Hi) as Z. rewrite code_0 in Z.
    apply (f_equal negb) in Z. rewrite negb_involutive in Z. rewrite <- Z.
    destruct (nth i (slots s) Empty); reflexivity.
  - unfold i_is_occupied. cbn [spec_answer]. apply bnum_inj.
    pose proof (code_zero_bits s g p R Q) as Z. rewrite code_0 in Z.
    set (x := N.lor (w0 g) (w1 g)) in *.
    assert ((N.land x (N.shiftl 0x0001000100010001 (N.of_nat p) mod 2 ^ 64) =? 0) =
            negb (N.testbit x (idx 0 p) || N.testbit x (idx 1 p) || N.testbit x (idx 2 p) || N.testbit x (idx 3 p))) as E.
    { set (mm := N.shiftl _ _ mod _).
      assert (forall j, j < 4 -> N.testbit mm (idx j p) = true) as T.
      { intros j Hj. unfold mm. rewrite shl_1111 by (try assumption; apply idx_lt; lia).
        destruct (idx_div j p ltac:(lia)) as [_ ->]. lia. }
      destruct (N.eqb_spec (N.land x mm) 0) as [E0|N0].
      - assert (forall j, j < 4 -> N.testbit x (idx j p) = false) as F.
        { intros j Hj. assert (N.testbit (N.land x mm) (idx j p) = false) as F by (rewrite E0; apply N.bits_0).
          rewrite N.land_spec, T, andb_true_r in F by assumption. exact F. }
        rewrite !F by lia. reflexivity.
      - symmetry. apply not_true_is_false. intros C. apply N0.
        apply negb_true_iff in C. apply orb_false_iff in C as [C C3]. apply orb_false_iff in C as [C C2].
        apply orb_false_iff in C as [C0 C1].
        apply N.bits_inj. intros i. rewrite N.bits_0, N.land_spec.
        destruct (N.lt_ge_cases i 64) as [L|G].
        + unfold mm. rewrite shl_1111 by assumption. destruct (N.eqb_spec (i mod 16) (N.of_nat p)) as [Em|]; [|apply andb_false_r].
          rewrite andb_true_r.
          assert (i = idx (i / 16) p) as Ei.
          { unfold idx. rewrite <- Em. apply N.div_mod. lia. }
          assert (i / 16 < 4) as Ld by (apply N.div_lt_upper_bound; lia).
          rewrite Ei. pose proof (in_range 4 (i / 16) ltac:(lia)) as I. cbn in I.
          destruct I as [<-|[<-|[<-|[<-|[]]]]]; assumption.
        + unfold mm. rewrite N.mod_pow2_bits_high by exact G. apply andb_false_r. }
    rewrite E, <- Z. destruct (nth p (slots s) Empty); reflexivity.
  - unfold i_is_sentinel. cbn [spec_answer]. apply bnum_inj.
    destruct (Nat.eqb_spec p 14) as [->|Ne]; cbn [andb].
    2:{ destruct (nth p (slots s) Empty) eqn:E; try reflexivity. elim Ne. eapply wf_sent; eauto. }
    rewrite <- code_1. rewrite (byte_eqb (code (nth 14 (slots s) Empty)) 1) by (lia || apply code_lt).
    destruct R as [A0 A1 Lo Hi O0 O1].
    pose proof (Lo 14%nat 0 Q eq_refl) as L0. pose proof (Lo 14%nat 1 Q eq_refl) as L1.
    pose proof (Lo 14%nat 2 Q eq_refl) as L2. pose proof (Lo 14%nat 3 Q eq_refl) as L3.
    pose proof (Hi 14%nat 0 Q eq_refl) as H0. pose proof (Hi 14%nat 1 Q eq_refl) as H1.
    pose proof (Hi 14%nat 2 Q eq_refl) as H2. pose proof (Hi 14%nat 3 Q eq_refl) as H3.
    change (0 + 4) with 4 in H0. change (1 + 4) with 5 in H1. change (2 + 4) with 6 in H2. change (3 + 4) with 7 in H3.
    rewrite <- L0, <- L1, <- L2, <- L3, <- H0, <- H1, <- H2, <- H3.
    change (N.testbit 1 0) with true. change (N.testbit 1 1) with false.
    change (N.testbit 1 2) with false. change (N.testbit 1 3) with false.
    change (N.testbit 1 4) with false. change (N.testbit 1 5) with false.
    change (N.testbit 1 6) with false. change (N.testbit 1 7) with false.
    clear L0 L1 L2 L3 H0 H1 H2 H3.
    assert (forall w, N.land w 0x4000400040004000 =
       N.b2n (N.testbit w (idx 0 14)) * 2 ^ 14 + N.b2n (N.testbit w (idx 1 14)) * 2 ^ 30
       + N.b2n (N.testbit w (idx 2 14)) * 2 ^ 46 + N.b2n (N.testbit w (idx 3 14)) * 2 ^ 62) as L4.
    { intros w.
      assert (0x4000400040004000 = N.lor (N.lor (2 ^ 14) (2 ^ 30)) (N.lor (2 ^ 46) (2 ^ 62))) as -> by reflexivity.
      rewrite !N.land_lor_distr_r.
      assert (forall j, N.land w (2 ^ j) = N.b2n (N.testbit w j) * 2 ^ j) as P.
      { intros j. apply N.bits_inj. intros i. rewrite N.land_spec, N.pow2_bits_eqb.
        destruct (N.eqb_spec j i) as [->|Nji].
        - rewrite andb_true_r. destruct (N.testbit w i) eqn:T; cbn [N.b2n].
          + rewrite N.mul_1_l. symmetry. apply N.pow2_bits_true.
          + rewrite N.mul_0_l. symmetry. apply N.bits_0.
        - rewrite andb_false_r. destruct (N.testbit w j); cbn [N.b2n].
          + rewrite N.mul_1_l. symmetry. apply N.pow2_bits_false. assumption.
          + rewrite N.mul_0_l. symmetry. apply N.bits_0. }
      rewrite !P. change (idx 0 14) with 14. change (idx 1 14) with 30. change (idx 2 14) with 46. change (idx 3 14) with 62.
      destruct (N.testbit w 14), (N.testbit w 30), (N.testbit w 46), (N.testbit w 62); reflexivity. }
    rewrite !L4.
    destruct (N.testbit (w0 g) (idx 0 14)), (N.testbit (w0 g) (idx 1 14)), (N.testbit (w0 g) (idx 2 14)), (N.testbit (w0 g) (idx 3 14)),
      (N.testbit (w1 g) (idx 0 14)), (N.testbit (w1 g) (idx 1 14)), (N.testbit (w1 g) (idx 2 14)), (N.testbit (w1 g) (idx 3 14)); reflexivity.
  - rewrite (Ri_not_overflowed s g h R). reflexivity.
  - destruct Q as [h Hh]. unfold i_maybe_caused_overflow. rewrite (Ri_not_overflowed s g _ R), negb_involutive.
    assert (p < 15)%nat as Hp.
    { rewrite <- (wf_len s W). apply nth_error_Some. congruence. }
    pose proof (nth_error_nth _ _ Empty Hh) as E. cbn [spec_answer]. rewrite E. apply bnum_inj.
    unfold marked. f_equal. f_equal.
    pose proof (reduced_facts h) as (_ & _ & _ & <- & _).
    destruct R as [A0 A1 Lo Hi O0 O1].
    pose proof (Lo p 0 Hp eq_refl) as L0. pose proof (Lo p 1 Hp eq_refl) as L1.
    pose proof (Lo p 2 Hp eq_refl) as L2. rewrite E in L0, L1, L2. cbn [code] in L0, L1, L2.
    assert (forall i, N.testbit (N.land (N.shiftr (w0 g) (N.of_nat p)) 0x000100010001) i =
      (N.testbit (w0 g) (i + N.of_nat p) && N.testbit 0x000100010001 i)%bool) as X.
    { intros i. rewrite N.land_spec, N.shiftr_spec by lia. reflexivity. }
    apply mod8_bits; unfold u32; rewrite N.mod_pow2_bits_low by lia;
      rewrite !N.lor_spec, !N.shiftr_spec by lia; rewrite !X.
    + rewrite <- L0. change (N.testbit 0x000100010001 0) with true.
      change (N.testbit 0x000100010001 (0 + 15)) with false. change (N.testbit 0x000100010001 (0 + 30)) with false.
      rewrite !andb_false_r, !orb_false_r, andb_true_r. reflexivity.
    + rewrite <- L1. change (N.testbit 0x000100010001 1) with false.
      change (N.testbit 0x000100010001 (1 + 15)) with true. change (N.testbit 0x000100010001 (1 + 30)) with false.
      rewrite !andb_false_r, !orb_false_r, andb_true_r. cbn [orb]. f_equal. 
    + rewrite <- L2. change (N.testbit 0x000100010001 2) with false.
      change (N.testbit 0x000100010001 (2 + 15)) with false. change (N.testbit 0x000100010001 (2 + 30)) with true.
      rewrite !andb_false_r, andb_true_r. cbn [orb]. f_equal.
Qed.

(** ** any history *)
Lemma runs_ok_gen ops : Forall op_ok ops -> forall s g g' w,
  Wf s -> Rb s g -> Rb s g' -> Ri s w ->
  Wf (fold_left spec_op ops s) /\ Rb (fold_left spec_op ops s) (fold_left sse2_op ops g)
  /\ Rb (fold_left spec_op ops s) (fold_left neon_op ops g')
  /\ Ri (fold_left spec_op ops s) (fold_left inter_op ops w).
Proof.
  induction ops as [|o ops IH]; intros HF s g g' w W B B' R; cbn [fold_left]; [tauto|].
  inversion HF as [|? ? Ho HF']; subst.
  apply IH; try assumption.
  - apply spec_op_wf; assumption.
  - pose proof (Rb_op_code s g o reduced_hash_sse2 (fun h => proj1 (proj2 (reduced_facts h))) W B Ho) as K.
    destruct o; exact K.
  - pose proof (Rb_op_code s g' o reduced_hash (fun h => proj1 (reduced_facts h)) W B' Ho) as K.
    destruct o; exact K.
  - apply Ri_op; assumption.
Qed.

Lemma runs_ok ops : Forall op_ok ops ->
  Wf (spec_run ops) /\ Rb (spec_run ops) (sse2_run ops) /\ Rb (spec_run ops) (neon_run ops)
  /\ Ri (spec_run ops) (inter_run ops).
Proof.
  intros HF.
  assert (Rb spec_init b_initialize) as B0.
  { exists 0. split; [reflexivity|]. intros j Hj. rewrite N.bits_0. reflexivity. }
  apply runs_ok_gen; auto using spec_init_wf.
  split; cbn [w0 w1 i_initialize]; try lia; intros.
  all: rewrite ?N.bits_0; try reflexivity.
  all: cbn [spec_init slots]; rewrite nth_repeat; cbn [code]; rewrite ?N.bits_0; reflexivity.
Qed.

Lemma layouts_agree ops q : Forall op_ok ops -> query_ok (spec_run ops) q ->
  sse2_answer (sse2_run ops) q = spec_answer (spec_run ops) q /\
  neon_answer (neon_run ops) q = spec_answer (spec_run ops) q /\
  inter_answer (inter_run ops) q = spec_answer (spec_run ops) q.
Proof.
  intros H Q. destruct (runs_ok ops H) as (W & B & B' & I).
  split; [apply sse2_ok; assumption|]. split; [apply neon_ok; assumption|apply inter_ok; assumption].
Qed.

(** The loop over a match mask enumerates its set bits in increasing order. *)
Lemma low_split m c : N.testbit m c = true -> (forall i, i < c -> N.testbit m i = false) ->
  forall i, N.testbit (N.land m (m - 1)) i = (N.testbit m i && negb (i =? c))%bool.
Proof.
  intros Hc Hlow i.
  assert (m = 2 ^ c + 2 ^ (c + 1) * (m / 2 ^ (c + 1))) as E.
  { assert (m mod 2 ^ (c + 1) = 2 ^ c) as Em.
    { apply N.bits_inj. intros j. rewrite N.pow2_bits_eqb.
      destruct (N.lt_ge_cases j (c + 1)) as [L|G].
      - rewrite N.mod_pow2_bits_low by exact L. destruct (N.eqb_spec c j) as [->|Ne]; [exact Hc|].
        apply Hlow. lia.
      - rewrite N.mod_pow2_bits_high by exact G. lia. }
    rewrite (N.div_mod m (2 ^ (c + 1))) at 1 by (apply N.pow_nonzero; lia). rewrite Em. lia. }
  set (q := m / 2 ^ (c + 1)) in *.
  assert (0 < 2 ^ c) as P by (apply N.neq_0_lt_0, N.pow_nonzero; lia).
  assert (m - 1 = N.ones c + q * 2 ^ (c + 1)) as E1.
  { rewrite N.ones_equiv, <- N.sub_1_r. lia. }
  rewrite N.land_spec. destruct (N.eqb_spec i c) as [->|Ne]; cbn [negb].
  - rewrite andb_false_r. rewrite E1.
    assert (N.testbit (N.ones c + q * 2 ^ (c + 1)) c = false) as ->; [|apply andb_false_r].
    rewrite <- (N.mod_pow2_bits_low _ (c + 1) c) by lia. rewrite N.mod_add by (apply N.pow_nonzero; lia).
    rewrite N.mod_pow2_bits_low by lia. apply N.ones_spec_high. lia.
  - rewrite andb_true_r. destruct (N.lt_ge_cases i c) as [L|G].
    { rewrite Hlow by exact L. reflexivity. }
    assert (N.testbit (m - 1) i = N.testbit m i) as ->; [|apply andb_diag].
    replace i with ((i - (c + 1)) + (c + 1)) by lia.
    rewrite <- !N.div_pow2_bits. fold q. f_equal. rewrite E1.
    rewrite N.div_add by (apply N.pow_nonzero; lia).
    rewrite N.div_small; [lia|]. rewrite N.ones_equiv. rewrite N.add_1_r, N.pow_succ_r'. lia.
Qed.

Lemma ctz_from_spec f : forall i x c, (i <= c)%nat -> (c < i + f)%nat -> N.testbit x (N.of_nat c) = true ->
  (forall j, (i <= j < c)%nat -> N.testbit x (N.of_nat j) = false) -> ctz_from f i x = c.
Proof.
  induction f as [|f IH]; intros i x c H1 H2 Hc Hl; [lia|]. cbn [ctz_from].
  destruct (Nat.eq_dec i c) as [->|Ne]; [rewrite Hc; reflexivity|].
  rewrite (Hl i) by lia. apply IH; try assumption; try lia. intros j Hj. apply Hl. lia.
Qed.

Lemma first_bit m n : (exists i, (i < n)%nat /\ N.testbit m (N.of_nat i) = true) ->
  exists c, (c < n)%nat /\ N.testbit m (N.of_nat c) = true /\ forall j, (j < c)%nat -> N.testbit m (N.of_nat j) = false.
Proof.
  induction n as [|n IH]; intros (i & Hi & Ti); [lia|].
  destruct (Bool.bool_dec (existsb (fun j => N.testbit m (N.of_nat j)) (seq 0 n)) true) as [E|E].
  - apply existsb_exists in E as (j & Hj & Tj). apply in_seq in Hj.
    destruct IH as (c & Hc & K); [exists j; split; [lia|exact Tj]|]. exists c. split; [lia|exact K].
  - apply not_true_is_false in E. exists n.
    assert (forall j, (j < n)%nat -> N.testbit m (N.of_nat j) = false) as Z.
    { intros j Hj. destruct (N.testbit m (N.of_nat j)) eqn:T; [|reflexivity].
      assert (existsb (fun j => N.testbit m (N.of_nat j)) (seq 0 n) = true); [|congruence].
      apply existsb_exists. exists j. split; [apply in_seq; lia|exact T]. }
    split; [lia|]. split; [|exact Z].
    destruct (Nat.eq_dec i n) as [->|]; [exact Ti|]. rewrite Z in Ti by lia. discriminate.
Qed.

Lemma filter_ext_in' {A} (f g : A -> bool) l : (forall x, In x l -> f x = g x) -> filter f l = filter g l.
Proof.
  induction l as [|a l IH]; intros H; [reflexivity|]. cbn. rewrite (H a) by (now left).
  rewrite IH by (intros; apply H; now right). reflexivity.
Qed.
Lemma filter_none {A} (f : A -> bool) l : (forall x, In x l -> f x = false) -> filter f l = [].
Proof.
  induction l as [|a l IH]; intros H; [reflexivity|]. cbn. rewrite (H a) by (now left).
  apply IH. intros; apply H; now right.
Qed.

Lemma mask_loop_gen fuel : forall m, m < 2 ^ 15 -> (length (mask_bits m) < fuel)%nat ->
  mask_loop fuel m = mask_bits m.
Proof.
  induction fuel as [|f IH]; intros m Hm Hl; [lia|]. cbn [mask_loop].
  destruct (N.eqb_spec m 0) as [->|N0].
  { unfold mask_bits. rewrite filter_none; [reflexivity|]. intros. apply N.bits_0. }
  destruct (first_bit m 15) as (c & Hc & Tc & Lc).
  { exists (N.to_nat (N.log2 m)). split.
    - assert (N.log2 m < 15) by (apply N.log2_lt_pow2; lia). lia.
    - rewrite N2Nat.id. apply N.bit_log2. exact N0. }
  assert (forall j, j < N.of_nat c -> N.testbit m j = false) as Lc'.
  { intros j Hj. rewrite <- (N2Nat.id j). apply Lc. lia. }
  pose proof (low_split m (N.of_nat c) Tc Lc') as LS.
  assert (countr_zero m = c) as ->.
  { unfold countr_zero. apply ctz_from_spec; try lia; auto. intros j Hj. apply Lc. lia. }
  assert (seq 0 15 = seq 0 c ++ c :: seq (S c) (14 - c)) as ES.
  { replace 15%nat with (c + S (14 - c))%nat at 1 by lia. rewrite seq_app. reflexivity. }
  assert (mask_bits m = c :: mask_bits (N.land m (m - 1))) as EB.
  { unfold mask_bits. rewrite ES, !filter_app. cbn [filter].
    rewrite (filter_none _ (seq 0 c)).
    2:{ intros j Hj. apply in_seq in Hj. apply Lc. lia. }
    rewrite (filter_none (fun i => N.testbit (N.land m (m - 1)) (N.of_nat i)) (seq 0 c)).
    2:{ intros j Hj. apply in_seq in Hj. rewrite LS, Lc by lia. reflexivity. }
    rewrite Tc, LS, Tc, N.eqb_refl. cbn. f_equal. apply filter_ext_in'.
    intros j Hj. apply in_seq in Hj. rewrite LS. replace (N.of_nat j =? N.of_nat c) with false by lia.
    cbn. rewrite andb_true_r. reflexivity. }
  rewrite EB in *. f_equal. apply IH; [|cbn [length] in Hl; clear - Hl; lia].
  assert (N.land m (m - 1) <= m); [|lia]. apply N.ldiff_le, N.bits_inj. intros j.
  rewrite N.ldiff_spec, LS, N.bits_0. destruct (N.testbit m j); cbn; [apply andb_false_r|reflexivity].
Qed.

Lemma mask_bits_len m : (length (mask_bits m) <= 15)%nat.
Proof.
  assert (forall (f : nat -> bool) l, (length (filter f l) <= length l)%nat) as F.
  { intros f l. induction l as [|a l IH]; [reflexivity|]. cbn. destruct (f a); cbn; lia. }
  unfold mask_bits. etransitivity; [apply F|]. rewrite seq_length. lia.
Qed.

Lemma mask_loop_bits m : m < 2 ^ 15 -> mask_loop 16 m = mask_bits m.
Proof. intros H. apply mask_loop_gen; [exact H|]. pose proof (mask_bits_len m). lia. Qed.
