(** What a program may ask of allocators: every block is given back once, to the allocator it came from, with the size it was
    asked with. *)
From Coq Require Import NArith Bool List.
Import ListNotations.
Local Open Scope N_scope.

(** a call an allocator receives: allocate(n) or deallocate(p,n) on the allocator object al *)
Inductive mem := Alloc (al n : N) | Free (al n : N).

(** the specification: replaying the calls. [live] are the blocks not given back yet; giving back a block that is not there is an error. *)
Fixpoint take (x : N * N) (l : list (N * N)) : option (list (N * N)) :=
  match l with
  | [] => None
  | y :: r => if (fst x =? fst y) && (snd x =? snd y) then Some r else option_map (cons y) (take x r)
  end.
Fixpoint outstanding (log : list mem) (live : list (N * N)) : option (list (N * N)) :=
  match log with
  | [] => Some live
  | Alloc a n :: r => outstanding r ((a, n) :: live)
  | Free a n :: r => match take (a, n) live with Some l => outstanding r l | None => None end
  end.
