(** Serialization of the closed-addressing containers: detail/serialize_container.hpp l.52-200. As in SerialModel.v, an archive is what SerialSpec.v says;
    [serialization_track] (implementation.hpp l.1085-1093, fca.hpp l.310-317) records the position of an element: the address of its node and of its bucket. *)
From Coq Require Import NArith ZArith Bool List Arith.
From Verif Require Import FloatModel FoaModel FcaLinks FcaModel FcaIter FcaSpec FcaWorld SerialSpec.
Import ListNotations.
Local Open Scope m_scope.
Local Open Scope N_scope.

Section Serial.
Context {K V : Type} (c : FCfg K V).
Notation table := (FcaModel.table K V).
Notation St := (table * heap)%type.
Notation archive := (archive (K * V)).

(** l.54-76, 110-148: save *)
Definition f_save (t : table) : M St archive := l <- of_option (elements t) ;; ret (Archive (f_size t) (map (fun x => nd_kv x) l)).
(** x.insert(value), x.emplace(key,mapped); adapt_insert_return_type (l.37-48): containers with equivalent keys return an iterator only.
    kf: the key is an argument of the function (it may depend on the types) *)
Definition f_insert (kf : bool) (e : K * V) : M St (eit * bool) :=
  if multi c then x <- new_node c KConstruct e ;; it <- emplace_equiv c x ;; ret (it, true) else emplace_unique c kf KConstruct e.
(** l.93-103, 171-186 *)
Fixpoint f_load_items (kf : bool) (s : nat) (l : list (K * V)) (tracked : list eit) : M St (load_result * list eit) :=
  match s with
  | O => ret (Loaded, tracked)
  | S s' => match l with
      | [] => ret (ReadFailed, tracked)
      | e :: r => p <- f_insert kf e ;; if (snd p : bool) then f_load_items kf s' r (tracked ++ [fst p]) else ret (BadArchive, tracked)
      end
  end.
(** l.78-105, 150-188: load *)
Definition f_load (kf : bool) (a : archive) : M St (load_result * list eit) :=
  clear ;;;
  reserve c (count a) ;;;
  f_load_items kf (N.to_nat (count a)) (items a) [].
End Serial.
