(** Executing schedules of the concurrent model, to exhibit concrete runs. *)
From Coq Require Import NArith Bool List Arith Lia.
From Verif Require Import SizeModel GroupModel FoaModel FoaArr FoaSpec FoaWorld FoaExamples ConcSpec ConcModel ConcVisit.
Import ListNotations.
Local Open Scope N_scope.

Section Exec.
Variables (thr : kind -> nat -> bool) (mv : bool).
Notation c := (ecfg thr mv).
Notation conf := (@conf N N).
Notation event := (event N N).
Notation op := (op N N). Notation cop := (cop N N).

(** one scheduling decision *)
Inductive move :=
| MCall (t d : nat) (o : cop) | MLocal (t i : nat) (x : bool) | MFull (t n : nat) | MRet (t : nat)
| MWCall (t : nat) (o : op) | MWhole (t n : nat).

Definition fresh (t : table N N) : list N := map (fun _ => 0) (a_groups (arr t)).
Lemma fresh_len t : length (fresh t) = length (a_groups (arr t)). Proof. apply map_length. Qed.
(** the containers after an operation on whole containers *)
Definition back (C : conf) (w0 w : mworld (K:=N) (V:=N)) : list (option (@Sh N N)) :=
  map (fun d => match slot w0 d, box C d with
                | None, Some s => Some s
                | _, _ => match slot w d with Some t => Some (MkSh t (fresh t)) | None => None end
                end) (seq 0 (length w)).
Lemma back_ok C w0 w : put_back C w0 w (back C w0 w).
Proof.
  unfold put_back, back. rewrite map_length, seq_length. split; [reflexivity|]. intros d L.
  rewrite nth_error_map. assert (nth_error (seq 0 (length w)) d = Some d) as ->.
  { rewrite (nth_error_nth' _ 0%nat) by (rewrite seq_length; exact L). rewrite seq_nth by exact L. reflexivity. }
  cbn [option_map]. destruct (slot w0 d); [|destruct (box C d)]; try reflexivity; (destruct (slot w d) as [tw|]; [|reflexivity]; exists (fresh tw); split; [reflexivity|apply fresh_len]).
Qed.

Definition wpreb (o : op) (w : mworld (K:=N) (V:=N)) : bool :=
  preb o w && match o with On _ (AssignList l) => size_okb (ceil_div_mlf (N.of_nat (length l))) | _ => true end.
Lemma wpreb_ok o w : wpreb o w = true -> wpre c o w.
Proof.
  intros H. apply andb_prop in H as [A B]. split; [apply preb_ok, A|]. destruct o as [i o| | | | | | | | | | ]; try exact I. destruct o; try exact I. apply (size_okb_ok thr mv), B.
Qed.
Definition do_move (m : move) (C : conf) : option (option event * conf) :=
  match m with
  | MCall t d o =>
      match nth_error (th C) t, box C d with
      | Some Idle, Some _ => Some (Some (ECall t (OnC d o)), set_th C t (At d o LEnter))
      | _, _ => None end
  | MLocal t i x =>
      match nth_error (th C) t with
      | Some (At d o l) =>
          match box C d with
          | Some s => match lstep c (free_for C t d) s o l i x with
              | Step e l' a => match apply e s with
                  | Some s' => Some (option_map (ELin t) a, set_box (set_th C t (At d o l')) d s')
                  | None => None end
              | _ => None end
          | None => None end
      | _ => None end
  | MFull t n =>
      match nth_error (th C) t with
      | Some (At d o LFull) =>
          match box C d with
          | Some s => if alone C t d then
              match rehash_if_full c (tb s) n with
              | Ret tt t' _ => Some (None, set_box (set_th C t (At d o LEnter)) d (MkSh t' (fresh t')))
              | Exn _ t' _ => Some (Some (ELin t (APoint RThrew)), set_box (set_th C t (At d o (LRet RThrew))) d (MkSh t' (fresh t')))
              | Undef => None end
              else None
          | None => None end
      | _ => None end
  | MRet t =>
      match nth_error (th C) t with
      | Some (At d o (LRet r)) => Some (Some (ERet t (AnsC r)), set_th C t Idle)
      | Some (RetW r) => Some (Some (ERet t (AnsW r)), set_th C t Idle)
      | _ => None end
  | MWCall t o =>
      match nth_error (th C) t with
      | Some Idle => Some (Some (ECall t (Whole o)), set_th C t (AtW o))
      | _ => None end
  | MWhole t n =>
      match nth_error (th C) t with
      | Some (AtW o) => let w0 := idle_world C o in
          if wpreb o w0 then
            match wexec c o w0 n with
            | Ret v w _ => Some (Some (ELin t (AWhole (Done v))), Conf (back C w0 w) (set_nth (th C) t (RetW (Done v))))
            | Exn k w _ => Some (Some (ELin t (AWhole (Threw k))), Conf (back C w0 w) (set_nth (th C) t (RetW (Threw k))))
            | Undef => None end
          else None
      | _ => None end
  end.
Lemma do_move_ok m C e C' : do_move m C = Some (e, C') -> gstep c C e C'.
Proof.
  destruct m as [t d o|t i x|t n|t|t o|t n]; cbn [do_move].
  - destruct (nth_error (th C) t) as [[| | |]|] eqn:E; try discriminate. destruct (box C d) eqn:B; [|discriminate]. intros [= <- <-]. eapply g_call; eassumption.
  - destruct (nth_error (th C) t) as [[|d o l| |]|] eqn:E; try discriminate. destruct (box C d) as [s|] eqn:B; [|discriminate].
    destruct (lstep c (free_for C t d) s o l i x) as [| |ef l' a] eqn:L; try discriminate. destruct (apply ef s) as [s'|] eqn:A; [|discriminate].
    intros [= <- <-]. eapply g_local; eassumption.
  - destruct (nth_error (th C) t) as [[|d o l| |]|] eqn:E; try discriminate. destruct l; try discriminate. destruct (box C d) as [s|] eqn:B; [|discriminate].
    destruct (alone C t d) eqn:A; [|discriminate]. destruct (rehash_if_full c (tb s) n) as [[] t' n'|k t' n'|] eqn:R; try discriminate; intros [= <- <-].
    + eapply g_full; try eassumption. apply fresh_len.
    + eapply g_full_exn; try eassumption. apply fresh_len.
  - destruct (nth_error (th C) t) as [[|d o l| |r]|] eqn:E; try discriminate.
    + destruct l; try discriminate. intros [= <- <-]. eapply g_ret; eassumption.
    + intros [= <- <-]. eapply g_wret; eassumption.
  - destruct (nth_error (th C) t) as [[| | |]|] eqn:E; try discriminate. intros [= <- <-]. eapply g_wcall; eassumption.
  - destruct (nth_error (th C) t) as [[| |o|]|] eqn:E; try discriminate. destruct (wpreb o (idle_world C o)) eqn:P; [|discriminate].
    destruct (wexec c o (idle_world C o) n) as [v w n'|k w n'|] eqn:X; try discriminate; intros [= <- <-].
    + eapply g_whole with (n := n); [exact E|apply wpreb_ok; exact P|rewrite X; split; reflexivity|apply back_ok].
    + eapply g_whole with (n := n); [exact E|apply wpreb_ok; exact P|rewrite X; split; reflexivity|apply back_ok].
Qed.

(** [counters_fit], decided *)
Definition fitb (C : conf) : bool := forallb (fun p =>
  match p with
  | At d _ (LCnt x _) => match box C d with
      | Some s => match nth_error (cnt s) (N.to_nat (position (x_h x) (a_gsi (arr (tb s))))) with Some m => m - x_cg x <? 2 ^ 32 | None => true end
      | None => true end
  | _ => true end) (th C).
Lemma fitb_ok C : fitb C = true -> counters_fit C.
Proof.
  intros H t d o x n s m Ht Hb Hm. unfold fitb in H. rewrite forallb_forall in H. apply nth_error_In in Ht. specialize (H _ Ht). cbn in H.
  rewrite Hb, Hm in H. apply N.ltb_lt. exact H.
Qed.

Fixpoint play (ok : conf -> bool) (ms : list move) (C : conf) : option (list event * conf) :=
  match ms with
  | [] => Some ([], C)
  | m :: r => match do_move m C with
      | Some (e, C1) => if ok C1 then
          match play ok r C1 with Some (es, C2) => Some (match e with Some x => x :: es | None => es end, C2) | None => None end
          else None
      | None => None end
  end.
Lemma play_steps ok (P : conf -> Prop) : (forall C, ok C = true -> P C) ->
  forall ms C0 es0 C es C', steps c P C0 es0 C -> play ok ms C = Some (es, C') -> steps c P C0 (es0 ++ es) C'.
Proof.
  intros HP. induction ms as [|m ms IH]; intros C0 es0 C es C' R H; cbn [play] in H.
  - injection H as <- <-. rewrite app_nil_r. exact R.
  - destruct (do_move m C) as [[e C1]|] eqn:E; [|discriminate]. destruct (ok C1) eqn:Ok; [|discriminate].
    destruct (play ok ms C1) as [[es1 C2]|] eqn:E1; [|discriminate]. injection H as <- <-.
    pose proof (st_snoc c P C0 es0 C e C1 R (do_move_ok _ _ _ _ E) (HP _ Ok)) as R1. specialize (IH _ _ _ _ _ R1 E1).
    destruct e; cbn in IH |- *; [rewrite <- app_assoc in IH; exact IH|rewrite app_nil_r in IH; exact IH].
Qed.
Lemma play_runs ok (P : conf -> Prop) : (forall C, ok C = true -> P C) ->
  forall ms n es0 C es C', runs_with c P n es0 C -> play ok ms C = Some (es, C') -> runs_with c P n (es0 ++ es) C'.
Proof.
  intros HP. induction ms as [|m ms IH]; intros n es0 C es C' R H; cbn [play] in H.
  - injection H as <- <-. rewrite app_nil_r. exact R.
  - destruct (do_move m C) as [[e C1]|] eqn:E; [|discriminate]. destruct (ok C1) eqn:Ok; [|discriminate].
    destruct (play ok ms C1) as [[es1 C2]|] eqn:E1; [|discriminate]. injection H as <- <-.
    pose proof (r_snoc c P n es0 C e C1 R (do_move_ok _ _ _ _ E) (HP _ Ok)) as R1. specialize (IH _ _ _ _ _ R1 E1).
    destruct e; cbn in IH |- *; [rewrite <- app_assoc in IH; exact IH|rewrite app_nil_r in IH; exact IH].
Qed.
Definition start (n : nat) : conf := Conf [] (repeat Idle n).
Lemma played n ms es C : fitb (start n) = true -> play fitb ms (start n) = Some (es, C) -> runs_with c counters_fit n es C.
Proof. intros H E. apply (play_runs fitb counters_fit fitb_ok ms n [] (start n) es C); [apply r_nil, fitb_ok, H|exact E]. Qed.
End Exec.

(** schedules: thread t runs alone until it has no local step left; slots are scanned in increasing order *)
Section Sched.
Variables (thr : kind -> nat -> bool) (mv : bool).
Notation c := (ecfg thr mv).
Definition next_move (t : nat) (C : @conf N N) : option move :=
  match nth_error (th C) t with
  | Some (At d o l) =>
      match l with
      | LScan _ (i :: _) _ => Some (MLocal t i false)
      | LFull => Some (MFull t 0)
      | LRet _ => None
      | _ => Some (MLocal t 0 false)
      end
  | _ => None
  end.
(** the moves made by thread t until [stop] holds *)
Fixpoint alone_moves (fuel : nat) (stop : @loc N N -> bool) (t : nat) (C : @conf N N) : list move * @conf N N :=
  match fuel with
  | O => ([], C)
  | S f =>
      match nth_error (th C) t with
      | Some (At _ _ l) => if stop l then ([], C) else
          match next_move t C with
          | Some m => match do_move thr mv m C with Some (_, C1) => let '(ms, C2) := alone_moves f stop t C1 in (m :: ms, C2) | None => ([], C) end
          | None => ([], C)
          end
      | _ => ([], C)
      end
  end.
End Sched.
