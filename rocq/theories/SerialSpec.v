(** Specification of saving and loading a container of unique keys. An archive is the number of elements it announces and the elements that can be
    read from it (reading one more throws). *)
From Coq Require Import NArith Bool List Permutation.
Import ListNotations.

Record archive (E : Type) := Archive { count : N; items : list E }.
Arguments Archive {E}. Arguments count {E}. Arguments items {E}.
(** how a call of load ends, unless an allocation or a function of the user throws *)
Inductive load_result := Loaded | BadArchive | ReadFailed.   (* BadArchive: bad_archive_exception; ReadFailed: the exception of the archive *)

Section Spec.
Context {E : Type}.
Variable eqv : E -> E -> bool.    (* equivalence of the keys of two elements *)

Definition distinct (l : list E) : Prop := ForallOrdPairs (fun x y => eqv x y = false) l.
(** the archive of a container with elements l *)
Definition saved (l : list E) (a : archive E) : Prop := count a = N.of_nat (length l) /\ Permutation (items a) l.
(** the elements l' of a container after loading the archive a *)
Definition loaded (a : archive E) (r : load_result) (l' : list E) : Prop :=
  match r with
  | Loaded => (N.to_nat (count a) <= length (items a))%nat /\ distinct (firstn (N.to_nat (count a)) (items a)) /\ Permutation l' (firstn (N.to_nat (count a)) (items a))
  | ReadFailed => (length (items a) < N.to_nat (count a))%nat /\ distinct (items a) /\ Permutation l' (items a)
  | BadArchive => exists l1 e l2, items a = l1 ++ e :: l2 /\ (length l1 < N.to_nat (count a))%nat /\ distinct l1 /\ existsb (eqv e) l1 = true /\ Permutation l' l1
  end.
(** after an exception of an allocation or a function of the user *)
Definition interrupted (a : archive E) (l' : list E) : Prop :=
  exists l1 l2, items a = l1 ++ l2 /\ (length l1 <= N.to_nat (count a))%nat /\ distinct l1 /\ Permutation l' l1.
End Spec.
