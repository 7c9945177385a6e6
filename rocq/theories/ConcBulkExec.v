(** Bulk visitation: executing calls, to exhibit a concrete run. *)
From Coq Require Import NArith Bool List Arith Lia.
From Verif Require Import SizeModel GroupModel FoaModel FoaArr FoaSpec FoaWorld FoaExamples FoaRun ConcSpec ConcModel ConcInv ConcSys ConcSys2 ConcVisit ConcProgress ConcExec ConcWrap
  ConcBulkSpec ConcBulkModel ConcBulk ConcBulk2 ConcBulk3 ConcBulk5 ConcBulk6.
Import ListNotations.
Local Open Scope N_scope.
Notation set_nth := FoaModel.set_nth.

Section Exec.
Variables (thr : kind -> nat -> bool) (mv : bool).
Notation c := (ecfg thr mv).
Notation conf := (@conf N N). Notation bconf := (@bconf N N). Notation bcall := (@bcall N N). Notation loc := (@loc N N).
Lemma HC : good_cfg c. Proof. apply ecfg_good. Qed.

Lemma plain_runs n nb es C : runs_with c counters_fit n es C -> bruns c n nb (map BPlain es) (BConf C (repeat None nb)).
Proof.
  intros R. induction R as [F|es C e C' R IH St F]; [apply br_nil; exact F|]. rewrite map_app.
  replace (map BPlain match e with Some x => [x] | None => [] end) with (opt_ev e) by (destruct e; reflexivity).
  eapply br_snoc; [exact IH|eapply b_plain; [exact St|]|exact F]. intros t (u & b & Hu & _). exfalso. apply nth_error_In, repeat_spec in Hu. discriminate.
Qed.
Definition loc_of (C : conf) (t : nat) : loc := match nth_error (th C) t with Some (At _ _ l) => l | _ => LEnter end.
Definition by_exec (C : conf) (t i : nat) (x : bool) : option (option (event N N) * conf) := do_move thr mv (MLocal t i x) C.
Lemma by_exec_ok C t i x e C' : by_exec C t i x = Some (e, C') -> by_thread c C t i x e C'.
Proof.
  unfold by_exec. cbn [do_move]. destruct (nth_error (th C) t) as [[|d o l| |]|] eqn:E; try discriminate. destruct (box C d) as [s|] eqn:B; [|discriminate].
  destruct (lstep c (free_for C t d) s o l i x) as [| |ef l' a] eqn:L; try discriminate. destruct (apply ef s) as [s'|] eqn:A; [|discriminate]. intros [= <- <-]. eapply by_thread_intro; eassumption.
Qed.
Definition ret_of (l : loc) : cres N N := match l with LDone r | LRet r => r | _ => RNone end.
(** the next step of call u *)
Definition bmove (u : nat) (x : bool) (BC : bconf) : option (list (@bevent N N) * bconf) :=
  match nth_error (bulks BC) u with
  | Some (Some b) => let C := bc BC in let ls := map (loc_of C) (b_ts b) in
      match b_st b with
      | BWaiting => Some ([], set_b BC (place C (b_ts b) (all_at b (repeat LHash (length (b_keys b))))) u (Some (upd b (BRun 0 (chunk (length (b_keys b))) Hashing 0 0))))
      | BRun first m ph i res =>
          if (i <? m)%nat then
            match nth_error (b_ts b) (first + i) with
            | Some t => match ph, loc_of C t with
                | Hashing, _ => match by_exec C t 0 x with
                    | Some (e, C') => Some (opt_ev e, set_b BC C' u (Some (upd b match loc_of C' t with LDone _ => BThrown | _ => BRun first m Hashing (S i) res end)))
                    | None => None end
                | Matching, LScan _ [] _ => Some ([], set_b BC C u (Some (upd b (BRun first m Matching (S i) res))))
                | Matching, l => match by_exec C t (pick l) false with Some (e, C') => Some (opt_ev e, set_b BC C' u (Some b)) | None => None end
                | Visiting, LDone r => Some ([], set_b BC C u (Some (upd b match r with RThrew => BThrown | _ => BRun first m Visiting (S i) (res + count r) end)))
                | Visiting, l => match by_exec C t (pick l) (match l with LScan _ _ _ => false | _ => x end) with Some (e, C') => Some (opt_ev e, set_b BC C' u (Some b)) | None => None end
                end
            | None => None end
          else match ph with
          | Hashing => Some ([], set_b BC C u (Some (upd b (BRun first m Matching 0 res))))
          | Matching => Some ([], set_b BC C u (Some (upd b (BRun first m Visiting 0 res))))
          | Visiting => if (first + m <? length (b_keys b))%nat then Some ([], set_b BC C u (Some (upd b (BRun (first + m) (chunk (length (b_keys b) - (first + m))) Hashing 0 res))))
              else Some ([], set_b BC (place C (b_ts b) (all_at b (map LRet (map ret_of ls)))) u (Some (upd b (BOut (Some res)))))
          end
      | BThrown => Some (give_up_events (b_ts b) ls, set_b BC (place C (b_ts b) (all_at b (map given_up ls))) u (Some (upd b (BOut None))))
      | BOut r => Some (BRet u r :: map (fun y => BPlain (ERet (fst y) (AnsC (snd y)))) (combine (b_ts b) (map ret_of ls)), set_b BC (place C (b_ts b) (map (fun _ => Idle) (map ret_of ls))) u None)
      end
  | _ => None end.
Lemma locs_ok (b : bcall) (C : conf) ls : length (b_ts b) = length (b_keys b) -> keys_at b C ls -> map (loc_of C) (b_ts b) = ls.
Proof.
  intros L [L1 H]. apply list_ext. intros j. rewrite nth_error_map. destruct (nth_error ls j) as [l|] eqn:E.
  - destruct (H j l E) as (t & kf & T1 & T2 & T3). rewrite T1. cbn. unfold loc_of. rewrite T3. reflexivity.
  - apply nth_error_None in E. assert (nth_error (b_ts b) j = None) as -> by (apply nth_error_None; lia). reflexivity.
Qed.
Lemma loc_at (b : bcall) (C : conf) ls j t : keys_at b C ls -> length (b_ts b) = length (b_keys b) -> nth_error (b_ts b) j = Some t -> nth_error ls j = Some (loc_of C t) /\ key_at b C j t (loc_of C t).
Proof.
  intros [L1 H] L Ht. assert (j < length (b_ts b))%nat as Lj by (apply nth_error_Some; congruence). destruct (nth_error ls j) as [l|] eqn:E; [|apply nth_error_None in E; lia].
  destruct (H j l E) as (t1 & kf & T1 & T2 & T3). assert (t1 = t) by congruence. subst t1. unfold loc_of. rewrite T3. split; [reflexivity|]. exists kf. auto.
Qed.
Lemma key_next (b : bcall) C j t l i x e C' : key_at b C j t l -> by_thread c C t i x e C' -> key_at b C' j t (loc_of C' t).
Proof. intros Hk Hy. destruct (by_key c b C _ t _ _ _ _ _ Hk Hy) as (kf & s & ef & l1 & a1 & B1 & B2 & B3 & B4 & B5). destruct B5 as (kf1 & Z1 & Z2 & Z3). unfold loc_of. rewrite Z3. exists kf1. auto. Qed.
Lemma bmove_ok n nb es BC u x ev BC' : bruns c n nb es BC -> bmove u x BC = Some (ev, BC') -> bstep c BC (By u) ev BC'.
Proof.
  intros R0 H. destruct (breach c HC _ _ _ _ R0) as (R & I & F). destruct BC as [C B]. unfold bmove in H. cbn [bulks bc] in *. destruct (nth_error B u) as [[b|]|] eqn:Hu; try discriminate.
  destruct (bi_ok _ I u b Hu) as (L & ND & S). cbn [bc] in S. unfold StOK in S. destruct (b_st b) as [|first m ph i res| |r] eqn:Hs.
  - injection H as <- <-. apply b_enter; assumption.
  - destruct S as (rs & ys & k & Sk & Sn & Sr & R1 & R2 & R3 & R4 & R5). destruct (Nat.ltb_spec i m) as [Lt|Ge].
    + destruct (nth_error (b_ts b) (first + i)) as [t|] eqn:Et; [|discriminate]. destruct (loc_at b C _ _ _ Sk L Et) as [El Hk]. destruct ph.
      * destruct R5 as (R5 & R6 & R7). destruct k as [|k]; [lia|].
        assert (loc_of C t = LHash) as Eh. { cbn [repeat] in El. rewrite app_assoc in El. replace (first + i)%nat with (length (map (@LDone N N) rs ++ ys)) in El by (rewrite app_length, map_length; lia). rewrite nth_mid in El. congruence. }
        assert (match by_exec C t 0 x with
                    | Some (e, C') => Some (opt_ev e, set_b (BConf C B) C' u (Some (upd b match loc_of C' t with LDone _ => BThrown | _ => BRun first m Hashing (S i) res end)))
                    | None => None end = Some (ev, BC')) as H' by (destruct (loc_of C t); exact H). clear H.
        rewrite Eh in Hk. destruct (by_exec C t 0 x) as [[e C']|] eqn:Ex; [|discriminate]. apply by_exec_ok in Ex. injection H' as <- <-. eapply b_hash; [exact Hu|exact Hs|exact Lt|exact Hk|exact Ex|eapply key_next; eassumption].
      * destruct R5 as (R5 & R6 & R7). assert (is_scan (loc_of C t)) as (y & v & mk & Eh).
        { rewrite nth_error_app2 in El by (rewrite map_length; lia). rewrite map_length, nth_error_app1 in El by lia. rewrite Forall_forall in R7. apply R7. eapply nth_error_In; exact El. }
        rewrite Eh in H, Hk. destruct v as [|v vs]; [injection H as <- <-; eapply b_match_next; eassumption|]. destruct (by_exec C t (pick (LScan y (v :: vs) mk)) false) as [[e C']|] eqn:Ex; [|discriminate].
        apply by_exec_ok in Ex. injection H as <- <-. eapply b_match; eassumption.
      * assert ((exists r, loc_of C t = LDone r) \/ forall r, loc_of C t <> LDone r) as [[r Eh]|Nd] by (destruct (loc_of C t); try (right; intros; discriminate); left; eauto).
        -- rewrite Eh in H, Hk. injection H as <- <-. eapply b_visit_next; eassumption.
        -- assert (match by_exec C t (pick (loc_of C t)) (match loc_of C t with LScan _ _ _ => false | _ => x end) with Some (e, C') => Some (opt_ev e, set_b (BConf C B) C' u (Some b)) | None => None end = Some (ev, BC')) as H'
             by (destruct (loc_of C t); try exact H; destruct (Nd _ eq_refl)). clear H.
           destruct (by_exec C t _ _) as [[e C']|] eqn:Ex; [|discriminate]. apply by_exec_ok in Ex. injection H' as <- <-. eapply b_visit; [exact Hu|exact Hs|exact Lt|exact Hk|exact Nd| |exact Ex].
           intros y us mk ->. reflexivity.
    + assert (i = m) as -> by lia. destruct ph; [injection H as <- <-; eapply b_hash_end; eassumption|injection H as <- <-; eapply b_match_end; eassumption|].
      destruct (Nat.ltb_spec (first + m) (length (b_keys b))) as [L1|L1]; injection H as <- <-; [eapply b_chunk; eassumption|].
      destruct R5 as (R5 & R6 & R7). destruct ys as [|y zs]; [|cbn [length] in R6; lia]. cbn [length app] in *. assert (k = 0)%nat as -> by lia. cbn [repeat] in Sk. rewrite app_nil_r in Sk.
      rewrite (locs_ok _ _ _ L Sk), !map_map. cbn [ret_of]. rewrite <- (map_map (fun r => r) LRet), map_id. eapply b_end; eassumption.
  - destruct S as (rs & ys & Sk & _). injection H as <- <-. rewrite (locs_ok _ _ _ L Sk). eapply b_unwind; eassumption.
  - assert (exists rs, keys_at b C (map LRet rs)) as [rs Sk] by (destruct r as [res|]; [destruct S as (rs & S & _)|destruct S as (rs & k & S & _)]; eauto).
    injection H as <- <-. rewrite (locs_ok _ _ _ L Sk), map_map. cbn [ret_of]. rewrite map_id. eapply b_ret; eassumption.
Qed.
(** steps of u until its call is at the state wanted; [fuel] bounds the search only *)
Fixpoint brun (fuel : nat) (u : nat) (stop : @bstate -> bool) (BC : bconf) (es : list (@bevent N N)) : option (list (@bevent N N) * bconf) :=
  match nth_error (bulks BC) u with
  | Some (Some b) => if stop (b_st b) then Some (es, BC) else
      match fuel with
      | O => None
      | S fuel' => match bmove u false BC with
          | Some (ev, BC') => if fitb (bc BC') then brun fuel' u stop BC' (es ++ ev) else None
          | None => None end end
  | _ => None end.
Lemma brun_ok fuel n nb es0 BC0 u stop : forall BC es es' BC', bruns c n nb es0 BC0 -> bsteps c BC0 es BC -> brun fuel u stop BC es = Some (es', BC') -> bsteps c BC0 es' BC'.
Proof.
  induction fuel as [|fuel IH]; intros BC es es' BC' R0 H E; cbn [brun] in E; (destruct (nth_error (bulks BC) u) as [[b|]|]; try discriminate); (destruct (stop (b_st b)); [injection E as <- <-; exact H|]); [discriminate|].
  destruct (bmove u false BC) as [[ev BC1]|] eqn:M; [|discriminate]. destruct (fitb (bc BC1)) eqn:Fb; [|discriminate]. eapply IH; [exact R0| |exact E].
  eapply bs_snoc; [exact H|eapply bmove_ok; [eapply bruns_trans; eassumption|exact M]|apply fitb_ok, Fb].
Qed.
End Exec.
