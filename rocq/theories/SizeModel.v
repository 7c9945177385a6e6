(** Capacity arithmetic of the open-addressing containers
    (detail/foa/core.hpp). [std::size_t] is 64 bits. *)
From Coq Require Import ZArith NArith Bool List.
From Verif Require Import FloatModel.
Local Open Scope N_scope.

(** core.hpp l.222, 620: [group15::N] *)
Definition GN : N := 15.

(** core.hpp l.831-838 [pow2_size_policy::size_index]; [N.size] is bit_width *)
Definition size_index (n : N) : N := 64 - (if n <=? 2 then 1 else N.size (n - 1)).

(** core.hpp l.840-843 [pow2_size_policy::size]: [size_t(1)<<(64-si)].
    Simplification: a shift count of 64 (undefined in C++) would give 2^64 here; it needs n > 2^63 groups. *)
Definition size_of (si : N) : N := 2 ^ (64 - si).

(** core.hpp l.845 *)
Definition min_size : N := 2.

(** core.hpp l.847-850 [pow2_size_policy::position] *)
Definition position (hash si : N) : N := N.shiftr hash si.

(** core.hpp l.855-860 [size_index_for] *)
Definition size_index_for (n : N) : N := size_index (n / GN + 1).

(** number of groups allocated for a requested element capacity:
    core.hpp l.1083-1084 in [table_arrays::new_] *)
Definition groups_for (n : N) : N := size_of (size_index_for n).

(** core.hpp l.2276-2279 [table_core::capacity_for] *)
Definition capacity_for (n : N) : N := groups_for n * GN - 1.

(** core.hpp l.1260 [mlf = 0.875f] : 7/8, exactly representable. *)
Definition mlf32 : Z := (7 * 2 ^ 146)%Z.

(** [std::size_t(std::ceil(float(n)/mlf))]: core.hpp l.1521, 1602, 1826, 1835,
    2010.  The conversion to size_t is undefined behaviour when the value does not fit; see [ceil_div_mlf_ok]. *)
Definition ceil_div_mlf (n : N) : N :=
  Z.to_N (f32_ceil (f32_div (f32_of_int (Z.of_N n)) mlf32)).

(** the conversion float -> size_t in [ceil_div_mlf] is defined *)
Definition ceil_div_mlf_ok (n : N) : bool := ceil_div_mlf n <? 2 ^ 64.

(** core.hpp l.1558-1569 [table_core::initial_max_load], as a function of the
    capacity. *)
Definition initial_max_load (capacity : N) : N :=
  if capacity <=? 2 * GN - 1 then capacity
  else Z.to_N (f32_trunc (f32_mul mlf32 (f32_of_int (Z.of_N capacity)))).

(** core.hpp l.2119-2133 [new_arrays_for_growth]: element capacity requested *)
Definition growth_request (size : N) : N := ceil_div_mlf (size + size / 61 + 1).

(** core.hpp l.1104-1114 [table_arrays::buffer_size], in bytes before the
    final division, over unbounded integers: [esz] is sizeof(value_type),
    sizeof(group_type) is 16. *)
Definition buffer_bytes (esz groups : N) : N :=
  esz * (groups * GN - 1) + 16 * (groups + 1) - 1.

(** what the C++ expression actually computes: all operations modulo 2^64,
    result in units of sizeof(value_type) *)
Definition buffer_size_wrapped (esz groups : N) : N :=
  let bytes := (esz * ((groups * GN - 1) mod 2 ^ 64) + 16 * (groups + 1) + (2 ^ 64 - 1)) mod 2 ^ 64 in
  ((bytes + esz + (2 ^ 64 - 1)) mod 2 ^ 64) / esz.

(** no wrap-around in the computation above *)
Definition buffer_fits (esz groups : N) : bool := buffer_bytes esz groups + esz - 1 <? 2 ^ 64.

(** core.hpp l.867-888 [pow2_quadratic_prober]: state (pos, step) *)
Record prober := { pb_pos : N; pb_step : N }.
Definition pb_init (pos : N) : prober := {| pb_pos := pos; pb_step := 0 |}.
(** core.hpp l.872 [length] *)
Definition pb_length (pb : prober) : N := pb_step pb + 1.
(** core.hpp l.879-884 [next]; size_t additions modulo 2^64 *)
Definition pb_next (pb : prober) (mask : N) : prober * bool :=
  let step := (pb_step pb + 1) mod 2 ^ 64 in
  ({| pb_pos := N.land ((pb_pos pb + step) mod 2 ^ 64) mask; pb_step := step |},
   step <=? mask).

(** The groups inspected by a probing loop that never finds what it wants:
    [prober pb(pos); do{ pos=pb.get(); ... }while(pb.next(mask));]
    core.hpp l.1718-1749 (find), 2369-2384 (insertion, same prober). [None]: the
    loop has not ended after [fuel] rounds. *)
Fixpoint probe_loop (fuel : nat) (pb : prober) (mask : N) : option (list N) :=
  match fuel with
  | O => None
  | S f =>
      let '(pb', more) := pb_next pb mask in
      if more then option_map (cons (pb_pos pb)) (probe_loop f pb' mask)
      else Some (pb_pos pb :: nil)
  end.
