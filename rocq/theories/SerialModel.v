(** Serialization of the open-addressing containers (detail/serialize_container.hpp l.52-200) and of the concurrent containers
    (concurrent_table.hpp l.1845-1973). An archive is as in SerialSpec.v: class versions and the encoding of elements are not modelled, and
    reset_object_address has no effect. [serialization_track] records the position of an element. Writing to the archive does not throw. *)
From Coq Require Import NArith Bool List Arith.
From Verif Require Import SizeModel GroupModel FoaModel FoaIterModel SerialSpec.
Import ListNotations.
Local Open Scope m_scope.
Local Open Scope N_scope.

Section Serial.
Context {K V : Type} (c : Cfg K V).
Notation table := (table K V).
Notation archive := (archive (K * V)).

(** serialize_container.hpp l.54-76 (set), 110-148 (map): save *)
Definition m_save {St} (t : table) : M St archive := l <- m_iterate c t ;; ret (Archive (sz t) l).
(** l.93-103, 171-186: the loop of load. Returns the tracked positions, too *)
Fixpoint load_items (s : nat) (l : list (K * V)) (tracked : list (nat * nat)) : M table (load_result * list (nat * nat)) :=
  match s with
  | O => ret (Loaded, tracked)
  | S s' => match l with
      | [] => ret (ReadFailed, tracked)
      | e :: r => p <- m_insert c e ;; if (snd p : bool) then load_items s' r (tracked ++ [fst p]) else ret (BadArchive, tracked)
      end
  end.
(** l.78-105, 150-188: load *)
Definition m_load (a : archive) : M table (load_result * list (nat * nat)) :=
  clear ;;;
  reserve c (count a) ;;;
  load_items (N.to_nat (count a)) (items a) [].

(** concurrent_table.hpp l.1853-1901: save, in exclusive access *)
Definition c_save (t : table) : M unit archive := fun u n =>
  match for_all (fun _ => arr t) (fun g m => e <- read_element (arr t) (slot_index g m) ;; modify (fun seen => seen ++ [e])) [] n with
  | Ret _ l n' => Ret (Archive (sz t) l) u n'
  | Exn k _ n' => Exn k u n'
  | Undef => Undef
  end.
(** l.1923-1934, 1955-1971 *)
Fixpoint c_load_items (s : nat) (l : list (K * V)) : M table load_result :=
  match s with
  | O => ret Loaded
  | S s' => match l with
      | [] => ret ReadFailed
      | e :: r =>
          t <- get ;;
          hash <- hash_for c (hid t) (fst e) ;;
          let pos0 := position hash (a_gsi (arr t)) in
          loc <- find_at c t (fst e) pos0 hash ;;
          match loc with
          | Some _ => ret BadArchive
          | None => unchecked_emplace_at c KConstruct pos0 hash e ;;; c_load_items s' r
          end
      end
  end.
(** l.1911-1935, 1937-1972: load, in exclusive access *)
Definition c_load (a : archive) : M table load_result :=
  clear ;;;
  reserve c (count a) ;;;
  c_load_items (N.to_nat (count a)) (items a).
End Serial.
