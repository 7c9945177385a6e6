(** Executing programs with node handles, for the example of Properties_ConcNode.v. *)
From Coq Require Import NArith Bool List Arith Lia.
From Verif Require Import SizeModel GroupModel FoaGroup FoaModel FoaArr FoaSpec FoaWorld NodeSpec FoaNodeModel FoaExamples NodeExamples
  ConcSpec ConcModel ConcNodeModel ConcNodeSpec ConcNode ConcNode2 ConcNode3.
Import ListNotations.
Local Open Scope N_scope.
Local Notation c := (ncfg nothrow).
Local Notation conf := (@conf N (node N)). Local Notation nconf := (@nconf N N).
Local Notation At := ConcModel.At.
Definition leave : ufun N (node N) := fun e => (snd e, Some true).
Lemma leave_keeps : keeps leave. Proof. split; reflexivity. Qed.

Inductive xmove := XHandle | XNode (h : nat) (k a m : N) | XInsert (t d h : nat) | XExtract (t d : nat) (k : N) (h : nat)
  | XStep (t i : nat) | XCreate (t : nat) | XWhole (t : nat) | XRet (t : nat).
Definition unusedb (N : nconf) (h : nat) : bool := forallb (fun t => match arg N t with Some h' => negb (Nat.eqb h' h) | None => true end) (seq 0 (length (th (nc N)))).
Lemma unusedb_ok n N h : nruns c n N -> unusedb N h = true -> unused N h.
Proof.
  intros R H t Ht. destruct (nruns_ok c (ncfg_good nothrow) n N R) as [Iv _]. destruct (ni_arg _ _ Iv t h Ht) as [_ (p & Hp)]. unfold unusedb in H. rewrite forallb_forall in H.
  specialize (H t). rewrite Ht, Nat.eqb_refl in H. cbn in H. assert (In t (seq 0 (length (th (nc N))))) as Hi by (apply in_seq; assert (t < length (th (nc N)))%nat as Hl by (apply nth_error_Some; congruence); clear - Hl; lia).
  specialize (H Hi). discriminate.
Qed.
Definition fresh (t : table N (node N)) : list N := map (fun _ => 0) (a_groups (arr t)).
Definition back (C : conf) (w0 w : mworld (K:=N) (V:=node N)) : list (option (@Sh N (node N))) :=
  map (fun d => match slot w0 d, box C d with
                | None, Some s => Some s
                | _, _ => match slot w d with Some t => Some (MkSh t (fresh t)) | None => None end
                end) (seq 0 (length w)).
Lemma back_ok C w0 w : put_back C w0 w (back C w0 w).
Proof.
  unfold put_back, back. rewrite map_length, seq_length. split; [reflexivity|]. intros d L.
  rewrite nth_error_map. assert (nth_error (seq 0 (length w)) d = Some d) as ->.
  { rewrite (nth_error_nth' _ 0%nat) by (rewrite seq_length; exact L). rewrite seq_nth by exact L. reflexivity. }
  cbn [option_map]. destruct (slot w0 d); [|destruct (box C d)]; try reflexivity; (destruct (slot w d) as [tw|]; [|reflexivity]; exists (fresh tw); split; [reflexivity|apply map_length]).
Qed.
Definition create : op N (node N) := New 0 0 7 10.
Lemma create_pre w : wpre c create w.
Proof. split; [|exact I]. cbn [pre create]. split; [apply ncfg_agree|]. split; vm_compute; reflexivity. Qed.
Definition cofb (C : conf) (e : option (event N (node N))) (C' : conf) (t : nat) (N : nconf) : option nconf :=
  match nth_error (th C) t, nth_error (th C') t with
  | Some p, Some p' => Some (NC C' (match arg N t with Some h => match nth_error (hs N) h with Some x => set_nth (hs N) h (transfer p p' x) | None => hs N end | None => hs N end) (arg N))
  | _, _ => None end.
Definition do_x (m : xmove) (N : nconf) : option nconf :=
  let C := nc N in
  match m with
  | XHandle => Some (NC C (hs N ++ [None]) (arg N))
  | XNode h k a m => match nth_error (hs N) h with
      | Some None => if unusedb N h && negb (existsb (N.eqb a) (map (fun e => n_addr (snd e)) (nodes N))) then Some (NC C (set_nth (hs N) h (Some (k, Node a 7 m))) (arg N)) else None
      | _ => None end
  | XInsert t d h => match nth_error (hs N) h, nth_error (th C) t, box C d with
      | Some (Some (k, nd)), Some Idle, Some _ => if unusedb N h then Some (NC (set_th C t (At d (Point (PEmplace false k nd leave leave)) LEnter)) (hs N) (upd (arg N) t (Some h))) else None
      | _, _, _ => None end
  | XExtract t d k h => match nth_error (hs N) h, nth_error (th C) t, box C d with
      | Some None, Some Idle, Some _ => if unusedb N h then Some (NC (set_th C t (At d (Point (PErase k leave)) LEnter)) (hs N) (upd (arg N) t (Some h))) else None
      | _, _, _ => None end
  | XStep t i => match nth_error (th C) t with
      | Some (At d o l) => match box C d with
          | Some s => match lstep c (free_for C t d) s o l i false with
              | Step e l' a => match apply e s with Some s' => cofb C (option_map (ELin t) a) (set_box (set_th C t (At d o l')) d s') t N | None => None end
              | _ => None end
          | None => None end
      | _ => None end
  | XCreate t => match nth_error (th C) t with Some Idle => Some (NC (set_th C t (AtW create)) (hs N) (upd (arg N) t None)) | _ => None end
  | XWhole t => match nth_error (th C) t with
      | Some (AtW (New 0 0 al n0)) => if (al =? 7) && (n0 =? 10) then match wexec c create (idle_world C create) O with
          | Ret v w _ => cofb C (Some (ELin t (AWhole (Done v)))) (Conf (back C (idle_world C create) w) (set_nth (th C) t (RetW (Done v)))) t N
          | _ => None end else None
      | _ => None end
  | XRet t => match nth_error (th C) t with
      | Some (At d o (LRet r)) => Some (NC (set_th C t Idle) (hs N) (upd (arg N) t None))
      | Some (RetW r) => Some (NC (set_th C t Idle) (hs N) (upd (arg N) t None))
      | _ => None end
  end.
Definition fitb (C : conf) : bool := forallb (fun p =>
  match p with
  | At d _ (LCnt x _) => match box C d with
      | Some s => match nth_error (cnt s) (N.to_nat (position (x_h x) (a_gsi (arr (tb s))))) with Some m => m - x_cg x <? 2 ^ 32 | None => true end
      | None => true end
  | _ => true end) (th C).
Lemma fitb_ok C : fitb C = true -> counters_fit C.
Proof.
  intros H t d o x n s m Ht Hb Hm. unfold fitb in H. rewrite forallb_forall in H. apply nth_error_In in Ht. specialize (H _ Ht). cbn in H.
  rewrite Hb, Hm in H. apply N.ltb_lt. exact H.
Qed.
Lemma th_other (C : conf) (l : list (@pc N (node N))) t p q : l = set_nth (th C) t p -> nth_error (th C) t = Some q -> forall t', t' <> t -> nth_error l t' = nth_error (th C) t'.
Proof. intros -> H t' Nt. rewrite set_nth_err by (apply nth_error_Some; congruence). destruct (Nat.eqb_spec t' t); [congruence|reflexivity]. Qed.
Lemma some_inj {X} (x y : X) : Some x = Some y -> x = y. Proof. congruence. Qed.
Lemma do_x_ok n m N N' : nruns c n N -> do_x m N = Some N' -> exists e, nstep c N e N'.
Proof.
  intros R. destruct N as [C l g]. destruct m as [|h k a m|t d h|t d k h|t i|t|t|t]; cbn [do_x nc hs arg].
  - intros [= <-]. eexists. apply n_handle.
  - destruct (nth_error l h) as [[|]|] eqn:E; try discriminate. destruct (unusedb _ h) eqn:U; [|discriminate]. cbn [andb]. destruct (existsb _ _) eqn:X; [discriminate|]. intros [= <-]. eexists. apply n_new; [exact E|eapply unusedb_ok; eassumption|].
    intros Hi. apply Bool.not_true_iff_false in X. apply X. apply existsb_exists. exists a. split; [exact Hi|apply N.eqb_refl].
  - destruct (nth_error l h) as [[[k nd]|]|] eqn:E; try discriminate. destruct (nth_error (th C) t) as [[]|] eqn:Et; try discriminate. destruct (box C d) eqn:B; [|discriminate]. destruct (unusedb _ h) eqn:U; [|discriminate].
    intros [= <-]. eexists. eapply n_insert; [exact E|eapply unusedb_ok; eassumption|apply leave_keeps|apply leave_keeps|]. eapply g_call; eassumption.
  - destruct (nth_error l h) as [[|]|] eqn:E; try discriminate. destruct (nth_error (th C) t) as [[]|] eqn:Et; try discriminate. destruct (box C d) eqn:B; [|discriminate]. destruct (unusedb _ h) eqn:U; [|discriminate].
    intros [= <-]. eexists. eapply n_extract; [exact E|eapply unusedb_ok; eassumption|apply leave_keeps|]. eapply g_call; eassumption.
  - destruct (nth_error (th C) t) as [[|d o lo| |]|] eqn:Et; try discriminate. destruct (box C d) as [s|] eqn:B; [|discriminate]. destruct (lstep _ _ _ _ _ _ _) as [| |e l' a] eqn:L; try discriminate.
    destruct (apply e s) as [s'|] eqn:Ap; [|discriminate]. unfold cofb. rewrite Et. destruct (nth_error (th (set_box _ _ _)) t) as [p'|] eqn:Ep; [|discriminate]. cbn [hs arg]. intros HN. apply some_inj in HN. subst N'. eexists.
    eapply (n_step c C l g _ (option_map (ELin t) a) t); [destruct a; discriminate|destruct a; discriminate|eapply g_local; eassumption|exact Et|exact Ep|]. eapply th_other; [reflexivity|exact Et].
  - destruct (nth_error (th C) t) as [[]|] eqn:Et; try discriminate. intros [= <-]. eexists. eapply n_call; [|apply g_wcall; exact Et]. exact I.
  - destruct (nth_error (th C) t) as [[| |o|]|] eqn:Et; try discriminate. destruct o as [|h p al n0| | | | | | | | |]; try discriminate. destruct h; try discriminate. destruct p; try discriminate.
    destruct (N.eqb_spec al 7); [subst al|discriminate]. destruct (N.eqb_spec n0 10); [subst n0|discriminate]. cbn [andb].
    change (New 0 0 7 10) with create in Et. destruct (wexec _ _ _ _) as [v w n'| |] eqn:W; try discriminate. unfold cofb. rewrite Et. destruct (nth_error (th (Conf _ _)) t) as [p'|] eqn:Ep; [|discriminate]. cbn [hs arg]. intros HN. apply some_inj in HN. subst N'. eexists.
    eapply (n_step c C l g _ (Some (ELin t (AWhole (Done v)))) t); [discriminate|discriminate|eapply g_whole with (n := O); [exact Et|apply create_pre|rewrite W; split; reflexivity|apply back_ok]|exact Et|exact Ep|]. eapply th_other; [reflexivity|exact Et].
  - destruct (nth_error (th C) t) as [[|d o lo| |r]|] eqn:Et; try discriminate.
    + destruct lo; try discriminate. intros [= <-]. eexists. eapply n_ret. eapply g_ret. exact Et.
    + intros [= <-]. eexists. eapply n_ret. eapply g_wret. exact Et.
Qed.
(** thread t runs until it has nothing to do but return; slots are scanned in increasing order *)
Definition next_x (t : nat) (N : nconf) : option xmove :=
  match nth_error (th (nc N)) t with
  | Some (At d o l) => match l with LScan _ (i :: _) _ => Some (XStep t i) | LRet _ => None | _ => Some (XStep t 0) end
  | Some (AtW _) => Some (XWhole t)
  | _ => None end.
Definition fine (m : xmove) (N : nconf) : option nconf := match do_x m N with Some N' => if fitb (nc N') then Some N' else None | None => None end.
Fixpoint alone_x (fuel : nat) (t : nat) (N : nconf) : nconf :=
  match fuel with
  | O => N
  | S f => match next_x t N with Some m => match fine m N with Some N' => alone_x f t N' | None => N end | None => N end
  end.
Lemma fine_ok n m N N' : nruns c n N -> fine m N = Some N' -> nruns c n N'.
Proof. unfold fine. intros R. destruct (do_x m N) as [N1|] eqn:E; [|discriminate]. destruct (fitb (nc N1)) eqn:F; [|discriminate]. intros [= <-]. destruct (do_x_ok n m N N1 R E) as (e & St). eapply nr_step; [exact R|exact St|apply fitb_ok; exact F]. Qed.
Lemma alone_ok n t : forall fuel N, nruns c n N -> nruns c n (alone_x fuel t N).
Proof. induction fuel as [|f IH]; intros N R; cbn [alone_x]; [exact R|]. destruct (next_x t N) as [m|]; [|exact R]. destruct (fine m N) as [N'|] eqn:E; [|exact R]. apply IH. eapply fine_ok; eassumption. Qed.
Definition or_stay (m : xmove) (N : nconf) : nconf := match fine m N with Some N' => N' | None => N end.
Lemma or_stay_ok n m N : nruns c n N -> nruns c n (or_stay m N).
Proof. unfold or_stay. intros R. destruct (fine m N) as [N'|] eqn:E; [eapply fine_ok; eassumption|exact R]. Qed.
(** thread t is about to insert *)
Definition insertsb (t i : nat) (N : nconf) : bool :=
  match nth_error (th (nc N)) t with
  | Some (At d o l) => match box (nc N) d with
      | Some s => match lstep c (free_for (nc N) t d) s o l i false with Step _ _ (Some (APoint RIns)) => true | _ => false end
      | None => false end
  | _ => false end.
Lemma inserts_ok t i N N' : insertsb t i N = true -> do_x (XStep t i) N = Some N' -> nstep c N (LConc (Some (ELin t (APoint RIns)))) N'.
Proof.
  destruct N as [C l g]. unfold insertsb. cbn [do_x nc hs arg]. destruct (nth_error (th C) t) as [[|d o lo| |]|] eqn:Et; try discriminate. destruct (box C d) as [s|] eqn:B; [|discriminate].
  destruct (lstep _ _ _ _ _ _ _) as [| |e l' a] eqn:L; try discriminate. destruct a as [[[]| | |]|]; try discriminate. intros _.
  destruct (apply e s) as [s'|] eqn:Ap; [|discriminate]. unfold cofb. rewrite Et. destruct (nth_error (th (set_box _ _ _)) t) as [p'|] eqn:Ep; [|discriminate]. cbn [hs arg]. intros HN. apply some_inj in HN. subst N'.
  eapply (n_step c C l g _ (Some (ELin t (APoint RIns))) t); [discriminate|discriminate|exact (g_local c _ _ _ _ _ _ _ _ _ _ _ _ Et B L Ap)|exact Et|exact Ep|]. eapply th_other; [reflexivity|exact Et].
Qed.
