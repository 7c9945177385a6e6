(** The three implementations of [group15] (detail/foa/core.hpp l.217-799):
    SSE2 and Neon keep one metadata byte per slot plus an overflow byte; the
    non-SIMD version interleaves the bits of these 16 bytes in two 64-bit
    words. Little-endian memory layout is assumed for the latter. *)
From Coq Require Import NArith Bool List Arith.
Import ListNotations.
Local Open Scope N_scope.

(** *** Reduced hash values *)

(** core.hpp l.719-741 / 542-564, the 256-entry table *)
Definition reduced_table : list N := [8; 9] ++ map N.of_nat (seq 2 254).

(** [table[narrow_cast<unsigned char>(hash)]], core.hpp l.740, 563 *)
Definition reduced_hash (hash : N) : N := nth (N.to_nat (hash mod 256)) reduced_table 0.

(** core.hpp l.340-390 [match_word]: 32-bit words made of four equal bytes *)
Definition match_word_table : list N :=
  map (fun b => 0x01010101 * b) ([8; 9] ++ map N.of_nat (seq 2 254)).
Definition match_word (hash : N) : N := nth (N.to_nat (hash mod 256)) match_word_table 0.

(** core.hpp l.392-395: SSE2 reduced_hash = low byte of match_word *)
Definition reduced_hash_sse2 (hash : N) : N := match_word hash mod 256.

(** *** Byte-per-slot layout: 16 bytes, [m[15]] is the overflow byte (l.417) *)
Definition bytes16 := list N.

(** writing one byte *)
Definition upd (l : list N) (i : nat) (x : N) : list N :=
  firstn i l ++ match skipn i l with [] => [] | _ :: r => x :: r end.

(** l.230-234, 433-436 [initialize] *)
Definition b_initialize : bytes16 := repeat 0 16.
(** l.225-228 dummy group: as an empty group with the sentinel *)
Definition b_dummy : bytes16 := [0;0;0;0;0;0;0;0;0;0;0;0;0;0;1;0].
(** l.236-240 [set] *)
Definition b_set (g : bytes16) (pos : nat) (hash : N) : bytes16 := upd g pos (reduced_hash_sse2 hash).
(** l.438-442 [set] (Neon) *)
Definition bn_set (g : bytes16) (pos : nat) (hash : N) : bytes16 := upd g pos (reduced_hash hash).
(** l.242-245 [set_sentinel] *)
Definition b_set_sentinel (g : bytes16) : bytes16 := upd g 14 1.
(** l.258-262 [reset(pos)]; the overload on pc (l.264-267) writes the same byte *)
Definition b_reset (g : bytes16) (pos : nat) : bytes16 := upd g pos 0.
(** l.247-251 [is_sentinel(pos)] SSE2 *)
Definition b_is_sentinel (g : bytes16) (pos : nat) : bool := nth pos g 0 =? 1.
(** l.449-453 [is_sentinel(pos)] Neon *)
Definition bn_is_sentinel (g : bytes16) (pos : nat) : bool := Nat.eqb pos 14 && (nth 14 g 0 =? 1).
(** l.275-280 [is_not_overflowed] *)
Definition shift_table : list N := [1;2;4;8;16;32;64;128].
Definition b_is_not_overflowed (g : bytes16) (hash : N) : bool :=
  N.land (nth 15 g 0) (nth (N.to_nat (hash mod 8)) shift_table 0) =? 0.
(** l.282-285 [mark_overflow] *)
Definition b_mark_overflow (g : bytes16) (hash : N) : bytes16 :=
  upd g 15 (N.lor (nth 15 g 0) (N.shiftl 1 (hash mod 8) mod 256)).
(** l.287-292 [maybe_caused_overflow(pc)], pc = address of slot pos *)
Definition b_maybe_caused_overflow (g : bytes16) (pos : nat) : bool :=
  negb (b_is_not_overflowed g (nth pos g 0)).
(** l.300-304 [is_occupied] *)
Definition b_is_occupied (g : bytes16) (pos : nat) : bool := negb (nth pos g 0 =? 0).

(** _mm_movemask_epi8 of a vector of all-ones/all-zeros bytes *)
Fixpoint mask_of (l : list bool) : N :=
  match l with [] => 0 | b :: r => N.b2n b + 2 * mask_of r end.
(** _mm_set1_epi32 seen as 16 bytes *)
Definition set1_epi32 (w : N) : list N :=
  map (fun j => N.shiftr w (8 * N.of_nat (j mod 4)) mod 256) (seq 0 16).
Definition cmpeq_epi8 (a b : list N) : list bool := map (fun '(x, y) => x =? y) (combine a b).
(** l.269-273 [match] SSE2 *)
Definition b_match (g : bytes16) (hash : N) : N :=
  N.land (mask_of (cmpeq_epi8 g (set1_epi32 (match_word hash)))) 0x7FFF.
(** l.294-298 [match_available] *)
Definition b_match_available (g : bytes16) : N :=
  N.land (mask_of (cmpeq_epi8 g (repeat 0 16))) 0x7FFF.
(** l.311-314 [match_occupied]: (~match_available())&0x7FFF on int (32 bits) *)
Definition b_match_occupied (g : bytes16) : N :=
  N.land (N.lnot (b_match_available g) 32) 0x7FFF.

(** Neon: simde_mm_movemask_epi8, l.571-590: AND with 1<<(i mod 8), zip the low and
    high halves into 16-bit lanes, add the lanes *)
Definition neon_md : list N := [1;2;4;8;16;32;64;128;1;2;4;8;16;32;64;128].
Definition neon_movemask (a : list N) : N :=
  let masked := map (fun '(x, y) => N.land x y) (combine neon_md a) in
  let lanes := map (fun '(lo, hi) => lo + 256 * hi) (combine (firstn 8 masked) (skipn 8 masked)) in
  fold_right N.add 0 lanes.
Definition ff (b : bool) : N := if b then 255 else 0.
(** l.471-475 [match] Neon *)
Definition bn_match (g : bytes16) (hash : N) : N :=
  N.land (neon_movemask (map (fun x => ff (x =? reduced_hash hash)) g)) 0x7FFF.
(** l.496-500 *)
Definition bn_match_available (g : bytes16) : N :=
  N.land (neon_movemask (map (fun x => ff (x =? 0)) g)) 0x7FFF.
(** l.513-517 *)
Definition bn_match_occupied (g : bytes16) : N :=
  N.land (neon_movemask (map (fun x => ff (0 <? x)) g)) 0x7FFF.

(** *** Bit-interleaved layout: two 64-bit words (l.617-797) *)
Record words := W { w0 : N; w1 : N }.

(** fixed-width complement and truncation (operator~ on uint64_t, conversion to uint32_t) *)
Definition not64 (x : N) : N := N.lnot x 64.
Definition u32 (x : N) : N := x mod 2 ^ 32.

(** l.629 *)
Definition i_initialize : words := W 0 0.
(** l.623-627 *)
Definition i_dummy : words := W 0x4000 0.

(** l.752-769 tables of [set_impl] *)
Definition set_mask : list N :=
  [0x0000000000000000;0x0000000000000001;0x0000000000010000;
   0x0000000000010001;0x0000000100000000;0x0000000100000001;
   0x0000000100010000;0x0000000100010001;0x0001000000000000;
   0x0001000000000001;0x0001000000010000;0x0001000000010001;
   0x0001000100000000;0x0001000100000001;0x0001000100010000;
   0x0001000100010001].
Definition set_imask : list N :=
  [0x0001000100010001;0x0001000100010000;0x0001000100000001;
   0x0001000100000000;0x0001000000010001;0x0001000000010000;
   0x0001000000000001;0x0001000000000000;0x0000000100010001;
   0x0000000100010000;0x0000000100000001;0x0000000100000000;
   0x0000000000010001;0x0000000000010000;0x0000000000000001;
   0x0000000000000000].
(** l.750-774 [set_impl(word_type&,pos,n)] *)
Definition i_set_word (x : N) (pos : nat) (n : N) : N :=
  let x := N.lor x (N.shiftl (nth (N.to_nat n) set_mask 0) (N.of_nat pos) mod 2 ^ 64) in
  N.land x (not64 (N.shiftl (nth (N.to_nat n) set_imask 0) (N.of_nat pos) mod 2 ^ 64)).
(** l.743-748 [set_impl(pos,n)] *)
Definition i_set_impl (g : words) (pos : nat) (n : N) : words :=
  W (i_set_word (w0 g) pos (N.land n 0xF)) (i_set_word (w1 g) pos (N.shiftr n 4)).
(** l.631-635 *)
Definition i_set (g : words) (pos : nat) (hash : N) : words := i_set_impl g pos (reduced_hash hash).
(** l.637-640 *)
Definition i_set_sentinel (g : words) : words := i_set_impl g 14 1.
(** l.652-656 *)
Definition i_reset (g : words) (pos : nat) : words := i_set_impl g pos 0.
(** l.642-650 *)
Definition i_is_sentinel (g : words) (pos : nat) : bool :=
  Nat.eqb pos 14 && (N.land (w0 g) 0x4000400040004000 =? 0x4000)
  && (N.land (w1 g) 0x4000400040004000 =? 0).

(** the uint16_t lane number i (0..7) of the two words seen as an array (l.672, 677) *)
Definition lane16 (g : words) (i : N) : N :=
  if i <? 4 then N.shiftr (w0 g) (16 * i) mod 2 ^ 16 else N.shiftr (w1 g) (16 * (i - 4)) mod 2 ^ 16.
(** l.670-673 *)
Definition i_is_not_overflowed (g : words) (hash : N) : bool :=
  N.land (lane16 g (hash mod 8)) 0x8000 =? 0.
(** l.675-678: or-ing 0x8000 in the lane *)
Definition i_mark_overflow (g : words) (hash : N) : words :=
  let i := hash mod 8 in
  if i <? 4 then W (N.lor (w0 g) (N.shiftl 0x8000 (16 * i))) (w1 g)
  else W (w0 g) (N.lor (w1 g) (N.shiftl 0x8000 (16 * (i - 4)))).
(** l.680-687 *)
Definition i_maybe_caused_overflow (g : words) (pos : nat) : bool :=
  let x := N.land (N.shiftr (w0 g) (N.of_nat pos)) 0x000100010001 in
  let y := u32 (N.lor (N.lor x (N.shiftr x 15)) (N.shiftr x 30)) in
  negb (i_is_not_overflowed g y).
(** l.689-695 *)
Definition i_match_available (g : words) : N :=
  let x := not64 (N.lor (w0 g) (w1 g)) in
  let y := u32 (N.land x (N.shiftr x 32)) in
  let y := N.land y (N.shiftr y 16) in
  N.land y 0x7FFF.
(** l.697-702 *)
Definition i_is_occupied (g : words) (pos : nat) : bool :=
  let x := N.lor (w0 g) (w1 g) in
  negb (N.land x (N.shiftl 0x0001000100010001 (N.of_nat pos) mod 2 ^ 64) =? 0).
(** l.704-710 *)
Definition i_match_occupied (g : words) : N :=
  let x := N.lor (w0 g) (w1 g) in
  let y := u32 (N.lor x (N.shiftr x 32)) in
  let y := N.lor y (N.shiftr y 16) in
  N.land y 0x7FFF.
(** l.776-794 [match_impl] *)
Definition match_mask : list N :=
  [0x0000000000000000;0x000000000000ffff;0x00000000ffff0000;
   0x00000000ffffffff;0x0000ffff00000000;0x0000ffff0000ffff;
   0x0000ffffffff0000;0x0000ffffffffffff;0xffff000000000000;
   0xffff00000000ffff;0xffff0000ffff0000;0xffff0000ffffffff;
   0xffffffff00000000;0xffffffff0000ffff;0xffffffffffff0000;
   0xffffffffffffffff].
Definition i_match_impl (g : words) (n : N) : N :=
  let x := N.lxor (w0 g) (nth (N.to_nat (N.land n 0xF)) match_mask 0) in
  let x := not64 (N.lor (N.lxor (w1 g) (nth (N.to_nat (N.shiftr n 4)) match_mask 0)) x) in
  let y := u32 (N.land x (N.shiftr x 32)) in
  let y := N.land y (N.shiftr y 16) in
  N.land y 0x7FFF.
(** l.665-668 *)
Definition i_match (g : words) (hash : N) : N := i_match_impl g (reduced_hash hash).

(** *** Walking a match mask *)
(** core.hpp l.920-932 [unchecked_countr_zero]; on 0 (undefined in C++) returns 64 here *)
Fixpoint ctz_from (fuel : nat) (i : nat) (x : N) : nat :=
  match fuel with
  | O => i
  | S f => if N.testbit x (N.of_nat i) then i else ctz_from f (S i) x
  end.
Definition countr_zero (x : N) : nat := ctz_from 64 0 x.
(** the loop [while(mask){ n=unchecked_countr_zero(mask); ...; mask&=mask-1; }]
    (l.1734-1743, 1793-1796, 2067-2071): successive values of n *)
Fixpoint mask_loop (fuel : nat) (mask : N) : list nat :=
  match fuel with
  | O => []
  | S f => if mask =? 0 then []
           else countr_zero mask :: mask_loop f (N.land mask (mask - 1))
  end.
(** closed form used by the table model: set bits in increasing order *)
Definition mask_bits (mask : N) : list nat :=
  filter (fun i => N.testbit mask (N.of_nat i)) (seq 0 15).
