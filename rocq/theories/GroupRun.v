(** The three layouts as machines over the same operations and queries. *)
From Coq Require Import NArith Bool List Arith.
From Verif Require Import GroupModel GroupSpec.
Import ListNotations.
Local Open Scope N_scope.

Definition sse2_op (g : bytes16) (o : gop) : bytes16 :=
  match o with
  | GInit => b_initialize | GSet p h => b_set g p h | GSentinel => b_set_sentinel g
  | GReset p => b_reset g p | GMark h => b_mark_overflow g h
  end.
Definition sse2_answer (g : bytes16) (q : gquery) : N :=
  match q with
  | QMatch h => b_match g h | QAvailable => b_match_available g | QOccupied => b_match_occupied g
  | QIsOccupied p => bnum (b_is_occupied g p) | QIsSentinel p => bnum (b_is_sentinel g p)
  | QNotOverflowed h => bnum (b_is_not_overflowed g h)
  | QMaybeCausedOverflow p => bnum (b_maybe_caused_overflow g p)
  end.
Definition neon_op (g : bytes16) (o : gop) : bytes16 :=
  match o with
  | GInit => b_initialize | GSet p h => bn_set g p h | GSentinel => b_set_sentinel g
  | GReset p => b_reset g p | GMark h => b_mark_overflow g h
  end.
Definition neon_answer (g : bytes16) (q : gquery) : N :=
  match q with
  | QMatch h => bn_match g h | QAvailable => bn_match_available g | QOccupied => bn_match_occupied g
  | QIsOccupied p => bnum (b_is_occupied g p) | QIsSentinel p => bnum (bn_is_sentinel g p)
  | QNotOverflowed h => bnum (b_is_not_overflowed g h)
  | QMaybeCausedOverflow p => bnum (b_maybe_caused_overflow g p)
  end.
Definition inter_op (g : words) (o : gop) : words :=
  match o with
  | GInit => i_initialize | GSet p h => i_set g p h | GSentinel => i_set_sentinel g
  | GReset p => i_reset g p | GMark h => i_mark_overflow g h
  end.
Definition inter_answer (g : words) (q : gquery) : N :=
  match q with
  | QMatch h => i_match g h | QAvailable => i_match_available g | QOccupied => i_match_occupied g
  | QIsOccupied p => bnum (i_is_occupied g p) | QIsSentinel p => bnum (i_is_sentinel g p)
  | QNotOverflowed h => bnum (i_is_not_overflowed g h)
  | QMaybeCausedOverflow p => bnum (i_maybe_caused_overflow g p)
  end.

Definition sse2_run (ops : list gop) : bytes16 := fold_left sse2_op ops b_initialize.
Definition neon_run (ops : list gop) : bytes16 := fold_left neon_op ops b_initialize.
Definition inter_run (ops : list gop) : words := fold_left inter_op ops i_initialize.
