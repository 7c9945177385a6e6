(** After reserve, insertions do not rehash. *)
From Coq Require Import NArith ZArith Bool List Arith Lia Permutation.
From Verif Require Import FloatModel FloatProofs FoaModel FoaBase FcaLinks FcaModel FcaIter FcaTab FcaSpec FcaWorld FcaApi FcaRun FcaRun4 FcaProps FcaProps2 FcaReserve FcaSerial.
Import ListNotations.
Local Open Scope N_scope.

Section R.
Context {K V : Type} (c : FCfg K V).
Notation table := (FcaModel.table K V).
Notation St := (table * heap)%type.
(** a sequence of insertions of single elements, none of which throws *)
Inductive insertions : St -> nat -> St -> nat -> Prop :=
| i_none s n : insertions s n s n
| i_one s n o v s1 n1 s2 n2 : pre1 c o (fst s) -> strong1 o -> exec1 c o s n = Ret v s1 n1 -> insertions s1 n1 s2 n2 -> insertions s n s2 n2.

Lemma ins_up w i s n s2 n2 : there w i -> insertions s n s2 n2 -> at_world c (no_new_arena c) w i s -> at_world c (no_new_arena c) w i s2 /\ f_size (fst s) <= f_size (fst s2) /\ bucket_count (f_b (fst s)) <= bucket_count (f_b (fst s2)) /\ f_mlf (fst s2) = f_mlf (fst s) /\ f_hid (fst s2) = f_hid (fst s).
Proof.
  intros T X. induction X as [s n|s n o v s1 n1 s2 n2 P So E X IH]; intros A; [repeat split; auto; lia|]. destruct s as [t h]. cbn [fst] in *.
  pose proof (step_at c _ (arena_on c) w i t h o n T A P) as Q. rewrite E in Q. destruct Q as (A1 & _ & _ & Eh). specialize (IH A1). destruct IH as (A2 & S2 & B2 & M2 & H2).
  pose proof (at_arena c w i _ T A) as Ar. destruct (insert_bc c t h o n v s1 n1 Ar P So E) as [Up _]. pose proof (at_program c _ w i _ T A) as H. destruct (insert_frame c t h o n v s1 n1 H P So E) as [Em Sz].
  split; [exact A2|]. split; [clear - S2 Sz; lia|]. split; [clear - Up B2; lia|]. split; congruence.
Qed.
Lemma ins_same w i s n s2 n2 k b : there w i -> insertions s n s2 n2 -> at_world c (no_new_arena c) w i s -> f_size (fst s2) <= k -> bucket_count_for (min_buckets k (f_mlf (fst s))) = Some b -> b <= bucket_count (f_b (fst s)) ->
  bucket_count (f_b (fst s2)) = bucket_count (f_b (fst s)).
Proof.
  intros T X. induction X as [s n|s n o v s1 n1 s2 n2 P So E X IH]; intros A L Eb Lb; [reflexivity|]. destruct s as [t h]. cbn [fst] in *.
  pose proof (step_at c _ (arena_on c) w i t h o n T A P) as Q. rewrite E in Q. destruct Q as (A1 & _ & _ & Eh). destruct (ins_up w i s1 n1 s2 n2 T X A1) as (_ & S2 & _).
  pose proof (at_arena c w i _ T A) as Ar. destruct (insert_bc c t h o n v s1 n1 Ar P So E) as [_ Bc]. pose proof (at_program c _ w i _ T A) as H. destruct (insert_frame c t h o n v s1 n1 H P So E) as [Em Sz].
  assert (bucket_count (f_b (fst s1)) = bucket_count (f_b t)) as B1. { destruct Sz as [[_ Sz]|Sz]; [exact Sz|]. apply (Bc k b); [clear - S2 L Sz; lia|exact Eb|exact Lb]. }
  rewrite <- B1. apply IH; [exact A1|exact L|rewrite Em; exact Eb|rewrite B1; exact Lb].
Qed.
Lemma reserve_insertions t h k n v s1 n1 s2 n2 : in_program_arena c t h -> exec1 c (Reserve k) (t, h) n = Ret v s1 n1 -> insertions s1 n1 s2 n2 -> f_size (fst s2) <= k ->
  in_program_arena c (fst s2) (snd s2) /\ bucket_count (f_b (fst s2)) = bucket_count (f_b (fst s1)) /\
  forall e j it, nth_it (fst s1) j = Some it -> nth_error (elems (fst s1)) j = Some e -> In e (elems (fst s2)) -> exists j', nth_it (fst s2) j' = Some it /\ nth_error (elems (fst s2)) j' = Some e.
Proof.
  intros (rs & w & i & R & S & <-) E X L. assert (there w i) as T by (exists t; exact S). pose proof (at_start c _ rs w i t R S) as A.
  pose proof (reserve_at c _ (arena_on c) w i t (hp w) k n T A) as Rv. assert (exists u, reserve c k (t, hp w) n = Ret u s1 n1) as (u & Er).
  { cbn [exec1] in E. unfold bind, ret in E. destruct (reserve c k (t, hp w) n) as [u s3 n3|? ? ?|]; [|discriminate|discriminate]. injection E as _ <- <-. eauto. }
  rewrite Er in Rv. destruct Rv as (A1 & _ & _ & _ & _ & Em & b & Eb & Lb). rewrite <- Em in Eb.
  pose proof (ins_same w i s1 n1 s2 n2 k b T X A1 L Eb Lb) as B. destruct (ins_up w i s1 n1 s2 n2 T X A1) as (A2 & _ & _ & _ & Eh). split; [apply (at_arena c w i _ T A2)|]. split; [exact B|].
  intros e j it A0 A3 I. apply (iterators_stay c (fst s1) (fst s2) (snd s1) (snd s2) e j it (at_program c _ w i _ T A1) (at_program c _ w i _ T A2) Eh B A0 A3 I).
Qed.
Lemma insertions_grow t h n s2 n2 : in_program_arena c t h -> insertions (t, h) n s2 n2 -> bucket_count (f_b t) <= bucket_count (f_b (fst s2)).
Proof.
  intros (rs & w & i & R & S & <-) X. assert (there w i) as T by (exists t; exact S). destruct (ins_up w i _ n s2 n2 T X (at_start c _ rs w i t R S)) as (_ & _ & B & _). exact B.
Qed.
End R.
