(** detail/foa/cumulative_stats.hpp, with doubles replaced by exact rationals (rounding, infinities and the square root of the deviation are not modelled). *)
From Coq Require Import NArith ZArith QArith List.
Import ListNotations.
Local Open Scope Q_scope.

(** l.32-37 *)
Record sequence_stats_data := { m : Q; m_prior : Q; s : Q }.
Definition data0 : sequence_stats_data := {| m := 0; m_prior := 0; s := 0 |}.
Definition Q_of (n : N) : Q := inject_Z (Z.of_N n).

(** l.39-57 welfords_algorithm *)
Definition welford (n : N) (x : Q) (d : sequence_stats_data) : sequence_stats_data :=
  let mp := m d in
  let m' := m d + (x - m d) / Q_of n in
  {| m_prior := mp; m := m'; s := s d + (if N.eqb n 1 then 0 else 1) * (x - mp) * (x - m') |}.

(** l.70-118 cumulative_stats<N> *)
Record cumulative_stats := { count : N; data : list sequence_stats_data }.
Definition reset (k : nat) : cumulative_stats := {| count := 0; data := repeat data0 k |}.
(** l.82-94; count is a std::size_t *)
Definition add (xs : list Q) (c : cumulative_stats) : cumulative_stats :=
  let n' := ((count c + 1) mod 2 ^ 64)%N in
  let c' := if N.eqb n' 0 then {| count := 1; data := data (reset (length (data c))) |} else {| count := n'; data := data c |} in
  {| count := count c'; data := map (fun p => welford (count c') (fst p) (snd p)) (combine xs (data c')) |}.
(** l.96-108: average and (biased) variance of sequence i *)
Definition average (c : cumulative_stats) (i : nat) : Q := m (nth i (data c) data0).
Definition variance (c : cumulative_stats) (i : nat) : Q := if N.eqb (count c) 0 then 0 else s (nth i (data c) data0) / Q_of (count c).
(** a fresh object after recording the samples xss, oldest first *)
Definition record (k : nat) (xss : list (list Q)) : cumulative_stats := fold_left (fun c xs => add xs c) xss (reset k).
