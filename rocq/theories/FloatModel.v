(** IEEE-754 binary floating point, only as much as boost::unordered uses:
    conversion of a [size_t] to [float]/[double], one division or
    multiplication, [ceil], and the truncating conversion back to [size_t]
    (detail/foa/core.hpp l.1521, 1567, 1826, 1835, 2010, 2132;
     detail/implementation.hpp recalculate_max_load/min_buckets/reserve).

    A non-negative float is represented by the integer [v] such that its value
    is [v / 2^b], where [2^-b] is the smallest positive subnormal
    (b = 149 for binary32, b = 1074 for binary64): every finite float of the
    format is such an integer.  Rounding is to nearest, ties to even (the C++
    default).  Simplification: no overflow to infinity inside [fround]; callers that can overflow
    test [f_inf] explicitly. *)
From Coq Require Import ZArith Lia.
Local Open Scope Z_scope.

(** Round-half-to-even of the rational num/den to an integer. *)
Definition rne (num den : Z) : Z :=
  let q := num / den in
  let r := num mod den in
  if 2 * r <? den then q
  else if den <? 2 * r then q + 1
  else if Z.even q then q else q + 1.

(** Nearest float (precision [p], smallest subnormal [2^-b]) to num/den. *)
Definition fround (p b num den : Z) : Z :=
  let X := num * 2 ^ b in
  let s := Z.max 0 (Z.log2 (X / den) - (p - 1)) in
  rne X (den * 2 ^ s) * 2 ^ s.

(** binary32 *)
Definition f32_of_int (n : Z) : Z := fround 24 149 n 1.
Definition f32_div (x y : Z) : Z := fround 24 149 x y.
Definition f32_mul (x y : Z) : Z := fround 24 149 (x * y) (2 ^ 149 * 2 ^ 149).
Definition f32_add (x y : Z) : Z := fround 24 149 (x + y) (2 ^ 149).
(** std::ceil then conversion to an integer type *)
Definition f32_ceil (x : Z) : Z := - ((- x) / 2 ^ 149).
(** (std::size_t) x : truncation *)
Definition f32_trunc (x : Z) : Z := x / 2 ^ 149.
(** +infinity threshold: values that round to 2^128 or more. *)
Definition f32_inf (x : Z) : bool := 2 ^ (128 + 149) <=? x.

(** binary64 *)
Definition f64_of_int (n : Z) : Z := fround 53 1074 n 1.
(** exact widening float -> double *)
Definition f64_of_f32 (x : Z) : Z := x * 2 ^ (1074 - 149).
Definition f64_mul (x y : Z) : Z := fround 53 1074 (x * y) (2 ^ 1074 * 2 ^ 1074).
Definition f64_trunc (x : Z) : Z := x / 2 ^ 1074.
Definition f64_ceil (x : Z) : Z := - ((- x) / 2 ^ 1074).
