(** * How often single-key operations of concurrent containers call the hash function (C66, continued).
    [hashruns] are the executions of ConcModel.v with, for each thread, the number h of calls of the hash function with the key of the operation it is executing and the number g of
    times this operation has grown the container. visit, contains, erase, erase_if(key) hash their key once; an insertion hashes it once more for each time it has
    grown the container, and not because other threads inserted meanwhile, however often that makes it start again. *)
From Coq Require Import NArith Bool List Arith Lia.
From Verif Require Import SizeModel FoaModel FoaBase FoaArr FoaSpec FoaWorld FoaExamples
  ConcSpec ConcModel ConcInv ConcVisit ConcExec ConcWrap ConcExamples ConcHash.
Import ListNotations.
Local Open Scope nat_scope.

Section S.
Context {K V : Type} (c : Cfg K V).
Theorem C66_every_concurrent_run_is_counted : forall P n es C, runs_with c P n es C <-> exists h g, hashruns c P n es C h g.
Proof. intros P n es C. split; [apply run_hash|intros (h & g & H); eapply hash_run; exact H]. Qed.
Lemma at_return P n es C h g t d p l r C' : hashruns c P n es C h g -> nth_error (th C) t = Some (ConcModel.At d (Point p) l) -> gstep c C (Some (ERet t (AnsC r))) C' ->
  h t = S (g t) /\ (inserts p = false -> g t = 0).
Proof.
  intros R Ht St. assert (l = LRet r) as ->.
  { inversion St; subst; try (match goal with a : option _ |- _ => destruct a end; discriminate); congruence. }
  destruct (ih_runs c P n es C h g R _ _ _ _ Ht) as [X Y]. split; [exact X|intros Z; apply Y, Z].
Qed.
(** visit, contains, count, erase, erase_if(key) *)
Theorem C66_concurrent_lookup_hashes_once : forall P n es C h g t d p l r C', hashruns c P n es C h g ->
  nth_error (th C) t = Some (ConcModel.At d (Point p) l) -> match p with PEmplace _ _ _ _ _ => False | _ => True end -> gstep c C (Some (ERet t (AnsC r))) C' -> h t = 1.
Proof. intros P n es C h g t d p l r C' R Ht Hp St. destruct (at_return _ _ _ _ _ _ _ _ _ _ _ _ R Ht St) as [X Y]. rewrite X, Y; [reflexivity|]. destruct p; [|..]; try reflexivity; contradiction. Qed.
(** insertions *)
Theorem C66_concurrent_insertion_hashes_once_per_growth : forall P n es C h g t d x k v f1 f2 l r C', hashruns c P n es C h g ->
  nth_error (th C) t = Some (ConcModel.At d (Point (PEmplace x k v f1 f2)) l) -> gstep c C (Some (ERet t (AnsC r))) C' -> h t = 1 + g t.
Proof. intros P n es C h g t d x k v f1 f2 l r C' R Ht St. exact (proj1 (at_return _ _ _ _ _ _ _ _ _ _ _ _ R Ht St)). Qed.
(** at every moment, also while a call starts again *)
Theorem C66_concurrent_hash_calls_so_far : forall P n es C h g t d p l, hashruns c P n es C h g ->
  nth_error (th C) t = Some (ConcModel.At d (Point p) l) -> h t <= 1 + g t.
Proof. intros P n es C h g t d p l R Ht. destruct (ih_runs c P n es C h g R _ _ _ _ Ht) as [X _]. destruct (is_enter l || is_hash l); lia. Qed.
End S.

(** thread 0 has started again, because thread 1 inserted meanwhile: one call of the hash function, no growth *)
Definition again := until 0 never (do_call 1 (ins1 7) (until 0 at_ins (then_ (MCall 0 0 (ins1 5)) r0))).
(** an insertion into a container without arrays grows it and hashes its key twice *)
Definition none := then_ (MRet 0) (then_ (MWhole 0 0) (then_ (MWCall 0 (New 1 0 0 0%N)) ([], start 3))).
Definition grown := until 0 never (then_ (MFull 0 0) (until 0 (fun l => match l with LFull => true | _ => false end) (then_ (MCall 0 0 (ins1 5%N)) none))).
(** an execution with its counters *)
Fixpoint hplay (ms : list move) (es : list (event N N)) (C : @conf N N) (h g : nat -> nat) : option (list (event N N) * @conf N N * (nat -> nat) * (nat -> nat)) :=
  match ms with
  | [] => Some (es, C, h, g)
  | m :: r => match do_move nothrow false m C with
      | Some (e, C1) => if fitb C1 then hplay r (es ++ match e with Some x => [x] | None => [] end) C1 (fun t => since e h t + hashes C C1 t) (fun t => since e g t + grows C C1 t) else None
      | None => None end
  end.
Lemma hplay_ok n : forall ms es C h g es' C' h' g', hashruns wcfg counters_fit n es C h g -> hplay ms es C h g = Some (es', C', h', g') -> hashruns wcfg counters_fit n es' C' h' g'.
Proof.
  induction ms as [|m ms IHm]; intros es C h g es' C' h' g' R H; cbn [hplay] in H; [injection H as <- <- <- <-; exact R|].
  destruct (do_move nothrow false m C) as [[e C1]|] eqn:D; [|discriminate]. destruct (fitb C1) eqn:F; [|discriminate].
  eapply IHm; [|exact H]. apply hr_snoc; [exact R|exact (do_move_ok _ _ _ _ _ _ D)|apply fitb_ok, F].
Qed.
Definition ended (r : option (list (event N N) * @conf N N * (nat -> nat) * (nat -> nat))) : option (nat * nat * bool) :=
  match r with Some (es, C, h, g) => Some (h 0, g 0, match nth_error (th C) 0 with Some (ConcModel.At 0 (Point (PEmplace _ _ _ _ _)) (LRet RIns)) => true | _ => false end) | None => None end.
Lemma ended_ok ms a b : ended (hplay ms [] (start 3) (fun _ => 0) (fun _ => 0)) = Some (a, b, true) ->
  exists es C h g x k v f1 f2 C', hashruns wcfg counters_fit 3 es C h g /\ nth_error (th C) 0 = Some (ConcModel.At 0 (Point (PEmplace x k v f1 f2)) (LRet RIns)) /\
    gstep wcfg C (Some (ERet 0 (AnsC RIns))) C' /\ h 0 = a /\ g 0 = b.
Proof.
  destruct (hplay ms [] (start 3) (fun _ => 0) (fun _ => 0)) as [[[[es C] h] g]|] eqn:E; [|discriminate]. cbn [ended]. destruct (nth_error (th C) 0) as [q|] eqn:Q; [|intros H; discriminate]. intros H. injection H as Ha Hb H.
  assert (exists x k v f1 f2, nth_error (th C) 0 = Some (ConcModel.At 0 (Point (PEmplace x k v f1 f2)) (LRet RIns))) as (x & k & v & f1 & f2 & Ht).
  { rewrite Q. repeat match type of H with context [match ?y with _ => _ end] => destruct y; try discriminate H end. do 5 eexists. reflexivity. }
  exists es, C, h, g, x, k, v, f1, f2, (set_th C 0 Idle). split; [eapply hplay_ok; [|exact E]; apply hr_nil, fitb_ok; reflexivity|]. split; [exact Ht|]. split; [eapply g_ret; exact Ht|auto].
Qed.
Example C66_concurrent_cases :
  ended (hplay (fst again) [] (start 3) (fun _ => 0) (fun _ => 0)) = Some (1, 0, true) /\
  ended (hplay (fst grown) [] (start 3) (fun _ => 0) (fun _ => 0)) = Some (2, 1, true).
Proof. split; vm_compute; reflexivity. Qed.
Print Assumptions C66_every_concurrent_run_is_counted.
Print Assumptions C66_concurrent_lookup_hashes_once.
Print Assumptions C66_concurrent_insertion_hashes_once_per_growth.
Print Assumptions C66_concurrent_hash_calls_so_far.
Print Assumptions C66_concurrent_cases.
