(** C25 for the insertion of ranges and initializer lists (reading guide: Properties_Fca.v). The multi containers reserve once for the whole range
    (implementation.hpp l.2570-2607, l.2746-2756), the unique ones grow element by element. *)
From Coq Require Import NArith ZArith Bool List Arith Lia.
From Verif Require Import FloatModel FoaModel FoaBase FcaModel FcaIter FcaTab FcaSpec FcaWorld FcaRehash FcaLoad FcaProps FcaProps2 FcaRangeLoad FcaExamples.
Import ListNotations.
Local Open Scope N_scope.

Theorem C25_load_after_range_insertion_exceeds_the_maximum_by_at_most_rounding :
  forall (K V : Type) (c : FCfg K V) t h fwd l n v s' n', in_program_arena c t h -> pre1 c (InsertRange fwd l) t -> exec1 c (InsertRange fwd l) (t, h) n = Ret v s' n' ->
  f_size (fst s') <= 2 ^ 30 ->
  f_mlf (fst s') = f_mlf t /\
  (f_size (fst s') = f_size t /\ bucket_count (f_b (fst s')) = bucket_count (f_b t) \/
   f_size t < f_size (fst s') /\
   match f_mlf (fst s') with None => True | Some m => (Z.of_N (f_size (fst s')) * (2 ^ 23 - 1) * f32_one <= 2 ^ 23 * (m * Z.of_N (bucket_count (f_b (fst s')))))%Z end).
Proof.
  intros K V c t h fwd l n v s' n' H P E L. destruct (range_load c fwd l (t, h) n v s' n' H P E L) as (Em & _ & D). split; [exact Em|].
  destruct D as [D|[Lt Q]]; [left; exact D|right; split; [exact Lt|]]. unfold Near in Q. destruct (f_mlf (fst s')); [rewrite Z.mul_assoc; exact Q|exact I].
Qed.
Print Assumptions C25_load_after_range_insertion_exceeds_the_maximum_by_at_most_rounding.
(** operator=(initializer_list) *)
Theorem C25_load_after_list_assignment_exceeds_the_maximum_by_at_most_rounding :
  forall (K V : Type) (c : FCfg K V) t h l n v s' n', in_program_arena c t h -> pre1 c (AssignList l) t -> exec1 c (AssignList l) (t, h) n = Ret v s' n' ->
  f_size (fst s') <= 2 ^ 30 ->
  match f_mlf (fst s') with None => True | Some m => (Z.of_N (f_size (fst s')) * (2 ^ 23 - 1) * f32_one <= 2 ^ 23 * (m * Z.of_N (bucket_count (f_b (fst s')))))%Z end.
Proof.
  intros K V c t h l n v s' n' H P E L. pose proof (assign_load c l (t, h) n v s' n' H P E L) as Q. unfold Near in Q. destruct (f_mlf (fst s')); [rewrite Z.mul_assoc; exact Q|exact I].
Qed.
Print Assumptions C25_load_after_list_assignment_exceeds_the_maximum_by_at_most_rounding.
(** with the default maximum of 1.0 the bound is exact below 2^23 elements *)
Theorem C25_default_load_factor_after_range_insertion :
  forall (K V : Type) (c : FCfg K V) t h o l n v s' n', in_program_arena c t h -> pre1 c o t -> exec1 c o (t, h) n = Ret v s' n' ->
  (exists fwd, o = InsertRange fwd l) /\ f_size t < f_size (fst s') \/ o = AssignList l ->
  f_mlf (fst s') = Some f32_one -> f_size (fst s') < 2 ^ 23 ->
  f_size (fst s') <= bucket_count (f_b (fst s')) /\ (load_factor (fst s') <= f32_one)%Z.
Proof.
  intros K V c t h o l n v s' n' H P E Ho Em L. apply default_load; auto. assert (f_size (fst s') <= 2 ^ 30) as L3 by (clear - L; lia). destruct Ho as [[(fwd & ->) Lt]| ->].
  - destruct (range_load c fwd l (t, h) n v s' n' H P E L3) as (_ & _ & [[Z _]|[_ Q]]); [|exact Q]. cbn [fst] in Z. clear - Z Lt. lia.
  - apply (assign_load c l (t, h) n v s' n' H P E L3).
Qed.
Print Assumptions C25_default_load_factor_after_range_insertion.
(** a multimap with 193 buckets and 17 elements: one range of 240 elements grows it once *)
Definition range240 : list (N * N) := map (fun i => (N.of_nat i, 7)) (seq 100 240).
Example C25_range_case : in_program_arena (ecfg nothrow true false) (fst s_m) (snd s_m) /\ pre1 (ecfg nothrow true false) (InsertRange true range240) (fst s_m) /\
  match exec1 (ecfg nothrow true false) (InsertRange true range240) s_m 0%nat with
  | Ret _ s' _ => (f_size (fst s_m) + 240 =? f_size (fst s')) && (bucket_count (f_b (fst s_m)) <? bucket_count (f_b (fst s'))) && (f_size (fst s') <? 2 ^ 23) &&
      match f_mlf (fst s') with Some m => Z.eqb m f32_one | None => false end
  | _ => false end = true.
Proof. split; [apply s_m_ok|]. split; [vm_compute; reflexivity|]. vm_compute. reflexivity. Qed.
