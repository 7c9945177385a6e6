(** Integer tricks used for hashing: detail/mulx.hpp and detail/prime_fmod.hpp,
    for 64-bit size_t. Fixed-width arithmetic is explicit. *)
From Coq Require Import NArith Bool List.
Import ListNotations.
Local Open Scope N_scope.

(** arithmetic modulo 2^64 and 2^32 (uint64_t, uint32_t) *)
Definition u64w (x : N) : N := x mod 2 ^ 64.
Definition u32w (x : N) : N := x mod 2 ^ 32.

(** mulx.hpp l.43-47 [mulx64] with __int128 (l.24-41 with MSVC intrinsics is the same) *)
Definition mulx64_int128 (x y : N) : N :=
  let r := x * y in
  N.lxor (u64w r) (u64w (N.shiftr r 64)).

(** mulx.hpp l.51-77 portable [mulx64] *)
Definition mulx64_portable (x y : N) : N :=
  let x1 := u32w x in
  let x2 := N.shiftr x 32 in
  let y1 := u32w y in
  let y2 := N.shiftr y 32 in
  let r3 := u64w (x2 * y2) in
  let r2a := u64w (x1 * y2) in
  let r3 := u64w (r3 + N.shiftr r2a 32) in
  let r2b := u64w (x2 * y1) in
  let r3 := u64w (r3 + N.shiftr r2b 32) in
  let r1 := u64w (x1 * y1) in
  let r2 := u64w (N.shiftr r1 32 + u32w r2a + u32w r2b) in
  let r1 := u64w (u64w (N.shiftl r2 32) + u32w r1) in
  let r3 := u64w (r3 + N.shiftr r2 32) in
  N.lxor r1 r3.

(** mulx.hpp l.81-94 [mulx32], both preprocessor branches *)
Definition mulx32 (x y : N) : N :=
  let r := u64w (x * y) in N.lxor (u32w r) (u32w (N.shiftr r 32)).
Definition mulx32_checked (x y : N) : N :=
  let r := u64w (x * y) in N.lxor (u32w (N.land r 0xFFFFFFFF)) (u32w (N.shiftr r 32)).

(** mulx.hpp l.106-119 [mulx], 64-bit branch; multiplier 0x9E3779B97F4A7C15 *)
Definition mulx (x : N) : N := mulx64_int128 x 0x9E3779B97F4A7C15.

(** prime_fmod.hpp l.37-49 [sizes] *)
Definition sizes : list N :=
  [13; 29; 53; 97;
   193; 389; 769; 1543; 3079; 6151; 12289; 24593;
   49157; 98317; 196613; 393241; 786433; 1572869; 3145739;
   6291469; 12582917; 25165843; 50331653; 100663319;
   201326611; 402653189; 805306457; 1610612741; 3221225473;
   6442450939; 12884901893; 25769803751; 51539607551;
   103079215111; 206158430209; 412316860441; 824633720831;
   1649267441651].
(** l.55-64 [inv_sizes32] *)
Definition inv_sizes32 : list N :=
  [1418980313362273202; 636094623231363849; 348051774975651918;
   190172619316593316; 95578984837873325; 47420935922132524;
   23987963684927896; 11955116055547344; 5991147799191151;
   2998982941588287; 1501077717772769; 750081082979285;
   375261795343686; 187625172388393; 93822606204624;
   46909513691883; 23456218233098; 11728086747027;
   5864041509391; 2932024948977; 1466014921160; 733007198436;
   366503839517; 183251896093; 91625960335; 45812983922;
   22906489714; 11453246088; 5726623060].

(** l.121-130 [size_index]: linear search among all sizes but the last *)
Fixpoint size_index_from (l : list N) (i : nat) (n : N) : nat :=
  match l with
  | [] => i
  | [_] => i
  | s :: r => if n <=? s then i else size_index_from r (S i) n
  end.
Definition fca_size_index (n : N) : nat := size_index_from sizes 0 n.
(** l.132-135 [size]; out of range is undefined, here None *)
Definition fca_size (i : nat) : option N := nth_error sizes i.

(** l.154-156 [get_remainder] with 128-bit integers (same as MSVC's __umulh, l.153) *)
Definition get_remainder (fractional d : N) : N := u64w (N.shiftr (fractional * d) 64).
(** l.158-164 [get_remainder], portable *)
Definition get_remainder_portable (fractional d : N) : N :=
  let r1 := u64w (N.land fractional 0xFFFFFFFF * d) in
  let r2 := u64w (N.shiftr fractional 32 * d) in
  let r2 := u64w (r2 + N.shiftr r1 32) in
  N.shiftr r2 32.
(** l.168-173 [fast_modulo] *)
Definition fast_modulo (rem : N -> N -> N) (a M d : N) : N := u32w (rem (u64w (M * a)) d).
(** l.176-191 [position(hash,size_index)], 64-bit branch. [rem] selects the
    implementation of get_remainder. [None] = index out of range (undefined). *)
Definition fca_position_with (rem : N -> N -> N) (hash : N) (i : nat) : option N :=
  if Nat.ltb i (length inv_sizes32) then
    match nth_error inv_sizes32 i, nth_error sizes i with
    | Some M, Some d => Some (fast_modulo rem (u32w (u32w hash + u32w (N.shiftr hash 32))) M (u32w d))
    | _, _ => None
    end
  else (* positions[size_index - 29], l.109-117: position<29..37> *)
    match nth_error (skipn 29 sizes) (i - length inv_sizes32) with
    | Some d => Some (hash mod d)
    | None => None
    end.
Definition fca_position : N -> nat -> option N := fca_position_with get_remainder.
