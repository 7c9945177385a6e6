(** Vocabulary of C66: how often an operation calls functions supplied by the user (hash functions, predicates, allocation, constructions, copies and moves of elements). In the models
    each such call is an event, numbered by a counter: a run [m s n] starts with n calls made so far and its result carries the number at the end. Any call may throw. *)
From Coq Require Import Arith.
From Verif Require Import FoaModel.
(** at most d calls *)
Definition calls {St A} (r : R St A) (n d : nat) : Prop := match r with Ret _ _ n' | Exn _ _ n' => n' <= n + d | Undef => True end.
(** no call: returns, whatever functions of the user would throw *)
Definition no_calls {St A} (r : R St A) (n : nat) : Prop := match r with Ret _ _ n' => n' = n | Exn _ _ _ => False | Undef => True end.
(** if it throws, the exception comes from a call of one of the kinds P *)
Definition throws_only {St A} (r : R St A) (P : kind -> Prop) : Prop := match r with Exn k _ _ => P k | _ => True end.
