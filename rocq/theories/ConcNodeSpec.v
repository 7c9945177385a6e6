(** For C61: which steps may end elements of the concurrent node containers. An element is identified by its address; its key cannot change in a container. *)
From Coq Require Import NArith Bool List.
From Verif Require Import FoaModel FoaSpec NodeSpec ConcSpec ConcModel ConcNodeModel.
Import ListNotations.
Definition ident {K M} (e : K * node M) : K * N := (fst e, n_addr (snd e)).
(** operations on whole containers: erasures, and those that end with an exception *)
Definition ends1 {K V} (o : op1 K V) (r : result K V) : Prop :=
  match o with Erase _ | EraseIf _ | EraseLoop _ | EraseNth _ | EraseRange _ _ | Clear => True | _ => exists k, r = Threw k end.
Definition ends_whole {K V} (o : op K V) (r : result K V) : Prop :=
  match o with On _ o => ends1 o r | Destroy _ | MoveAssign _ _ => True | _ => exists k, r = Threw k end.
Definition may_end {K M} (N : @nconf K M) (e : @label K M) : Prop :=
  match e with
  | LDrop _ => True                                                                                 (* a handle is destroyed or emptied *)
  | LConc (Some (ELin t (APoint (RErased _)))) => arg N t = None                                    (* erase(k), erase_if(k,f); not extract *)
  | LConc (Some (ELin _ (AElem _ true))) => True                                                    (* erase_if(f) *)
  | LConc (Some (ELin t (APoint RThrew))) => exists d o, nth_error (th (nc N)) t = Some (ConcModel.At d o LFull)  (* an exception in a rehash *)
  | LConc (Some (ELin t (AWhole r))) => exists o, nth_error (th (nc N)) t = Some (AtW o) /\ ends_whole o r
  | _ => False
  end.
(** the element made by a step *)
Definition made {K M} (e : @label K M) : list (K * N) := match e with LNew k a => [(k, a)] | _ => [] end.
