(** Bucket groups of the closed-addressing containers: detail/fca.hpp.
    Pointers to buckets and to groups are indices into the arrays [buckets] (size_+1 entries) and
    [groups] (size_/64+1 entries); a null pointer is None. Dereferencing a null pointer or
    stepping outside an array gives None ("undefined"). std::size_t has 64 bits, so N = 64 (l.205). *)
From Coq Require Import NArith Bool List Arith.
From Verif Require Import FoaModel.
Import ListNotations.

(** fca.hpp l.198-213 [bucket_group] *)
Record group := Grp { g_base : option nat; g_mask : N; g_next : option nat; g_prev : option nat }.
(** l.211 default constructor *)
Definition g_empty : group := Grp None 0 None None.

Definition bindo {A B} (o : option A) (f : A -> option B) : option B := match o with Some a => f a | None => None end.
Notation "x <-o o ;; f" := (bindo o (fun x => f)) (at level 61, o at next level, right associativity).

(** write through a group pointer *)
Definition upd (gs : list group) (g : nat) (f : group -> group) : option (list group) :=
  match nth_error gs g with Some x => Some (FoaModel.set_nth gs g (f x)) | None => None end.
Definition set_base b (x : group) := Grp b (g_mask x) (g_next x) (g_prev x).
Definition set_mask m (x : group) := Grp (g_base x) m (g_next x) (g_prev x).
Definition set_next n (x : group) := Grp (g_base x) (g_mask x) n (g_prev x).
Definition set_prev p (x : group) := Grp (g_base x) (g_mask x) (g_next x) p.

Definition ones64 : N := N.ones 64.
(** l.215 [set_bit] *)
Definition set_bit (n : nat) : N := N.shiftl 1 (N.of_nat n).
(** l.217-220 [reset_bit] *)
Definition reset_bit (n : nat) : N := N.lxor ones64 (N.shiftl 1 (N.of_nat n)).
(** l.222-225 [reset_first_bits], 1 <= n <= 64 *)
Definition reset_first_bits (n : nat) : N := N.lxor ones64 (N.shiftr ones64 (N.of_nat (64 - n))).
(** boost::core::countr_zero: 64 for 0 *)
Definition countr_zero (x : N) : nat :=
  match List.find (fun i => N.testbit x (N.of_nat i)) (seq 0 64) with Some i => i | None => 64 end.

(** l.227-327 [grouped_bucket_iterator]: bucket pointer and group pointer *)
Record biter := BI { bi_p : nat; bi_g : option nat }.
(** l.288-291 [equal] *)
Definition bi_eqb (a b : biter) : bool := Nat.eqb (bi_p a) (bi_p b).

(** l.293-310 [increment] *)
Definition increment (gs : list group) (it : biter) : option biter :=
  g <-o bi_g it ;;
  G <-o nth_error gs g ;;
  base <-o g_base G ;;
  let offset := bi_p it - base in
  if (bi_p it <? base) || (64 <=? offset) then None else
  let n := countr_zero (N.land (g_mask G) (reset_first_bits (offset + 1))) in
  if n <? 64 then Some (BI (base + n) (Some g))
  else
    g2 <-o g_next G ;;
    G2 <-o nth_error gs g2 ;;
    base2 <-o g_base G2 ;;
    Some (BI (base2 + countr_zero (g_mask G2)) (Some g2)).

(** l.575-594: groups of a new array with size_ = sz > 0 *)
Definition new_groups (sz : nat) : option (list group) :=
  let last := sz / 64 in
  let gs := repeat g_empty (sz / 64 + 1) in
  upd gs last (fun _ => Grp (Some (64 * (sz / 64))) (set_bit (sz mod 64)) (Some last) (Some last)).

(** l.785-813 [append_bucket_group], the part under [is_empty_bucket]; (p,pbg) is the iterator *)
Definition append_bits (sz : nat) (gs : list group) (it : biter) : option (list group) :=
  pbg <-o bi_g it ;;
  let n := bi_p it in
  G <-o nth_error gs pbg ;;
  gs1 <-o
    (if N.eqb (g_mask G) 0 then
       let last := sz / 64 in
       gs <-o upd gs pbg (set_base (Some (64 * (n / 64)))) ;;
       L <-o nth_error gs last ;;
       gs <-o upd gs pbg (set_next (g_next L)) ;;
       P <-o nth_error gs pbg ;;
       nx <-o g_next P ;;
       gs <-o upd gs nx (set_prev (Some pbg)) ;;
       gs <-o upd gs pbg (set_prev (Some last)) ;;
       upd gs last (set_next (Some pbg))
     else Some gs) ;;
  G1 <-o nth_error gs1 pbg ;;
  upd gs1 pbg (set_mask (N.lor (g_mask G1) (set_bit (n mod 64)))).

(** l.894-899 [unlink_group] *)
Definition unlink_group (gs : list group) (pbg : nat) : option (list group) :=
  G <-o nth_error gs pbg ;;
  nx <-o g_next G ;;
  gs <-o upd gs nx (set_prev (g_prev G)) ;;
  G <-o nth_error gs pbg ;;
  pv <-o g_prev G ;;
  gs <-o upd gs pv (set_next (g_next G)) ;;
  upd gs pbg (fun x => set_prev None (set_next None x)).

(** l.884-891 [unlink_bucket] *)
Definition unlink_bucket (gs : list group) (it : biter) : option (list group) :=
  pbg <-o bi_g it ;;
  G <-o nth_error gs pbg ;;
  base <-o g_base G ;;
  let off := bi_p it - base in
  if (bi_p it <? base) || (64 <=? off) then None else
  let m := N.land (g_mask G) (reset_bit off) in
  gs <-o upd gs pbg (set_mask m) ;;
  if N.eqb m 0 then unlink_group gs pbg else Some gs.

(** l.867-872, 877-881: inner loops of [unlink_empty_buckets]; [ne] tells which buckets are non-empty, None: no such bucket *)
Fixpoint reset_empty (ne : nat -> option bool) (base : nat) (ns : list nat) (m : N) : option N :=
  match ns with
  | [] => Some m
  | n :: r => b <-o ne (base + n) ;; reset_empty ne base r (if b then m else N.land m (reset_bit n))
  end.
(** l.862-875 *)
Fixpoint unlink_empty_from (ne : nat -> option bool) (gs : list group) (pbgs : list nat) : option (list group) :=
  match pbgs with
  | [] => Some gs
  | pbg :: r =>
      G <-o nth_error gs pbg ;;
      match g_base G with
      | None => unlink_empty_from ne gs r
      | Some base =>
          m <-o reset_empty ne base (seq 0 64) (g_mask G) ;;
          gs <-o upd gs pbg (set_mask m) ;;
          gs <-o (if N.eqb m 0 && match g_next G with Some _ => true | None => false end then unlink_group gs pbg else Some gs) ;;
          unlink_empty_from ne gs r
      end
  end.
(** l.854-882 [unlink_empty_buckets] *)
Definition unlink_empty_buckets (sz : nat) (ne : nat -> option bool) (gs : list group) : option (list group) :=
  let last := sz / 64 in
  gs <-o unlink_empty_from ne gs (seq 0 last) ;;
  G <-o nth_error gs last ;;
  base <-o g_base G ;;
  m <-o reset_empty ne base (seq 0 (sz mod 64)) (g_mask G) ;;
  upd gs last (set_mask m).
