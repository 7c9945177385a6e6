(** Facts about happens-before (WeakModel.v). *)
From Coq Require Import NArith Bool List Arith Lia.
From Verif Require Import SizeModel GroupModel FoaModel FoaSpec FoaWorld ConcSpec ConcModel WeakModel.
Import ListNotations.

Section Hb.
Context {K V : Type} (st : bool).
Notation wact := (@wact K V). Notation wev := (@wev K V).
Notation hb := (@hb K V st). Notation sw := (@sw K V st). Notation knows := (@knows K V st).
Implicit Type log : list wev.

Lemma nth_lt {X} (l : list X) i x : nth_error l i = Some x -> (i < length l)%nat.
Proof. intros H. apply nth_error_Some. congruence. Qed.
Lemma nth_app {X} (l m : list X) i : (i < length l)%nat -> nth_error (l ++ m) i = nth_error l i.
Proof. apply nth_error_app1. Qed.
Lemma nth_end {X} (l : list X) x : nth_error (l ++ [x]) (length l) = Some x.
Proof. rewrite nth_error_app2, Nat.sub_diag by lia. reflexivity. Qed.
Lemma nth_snoc_cases {X} (l : list X) x i y : nth_error (l ++ [x]) i = Some y -> nth_error l i = Some y \/ (i = length l /\ y = x).
Proof.
  intros H. pose proof (nth_lt _ _ _ H) as L. rewrite app_length in L. cbn in L. destruct (Nat.eq_dec i (length l)) as [->|N].
  - rewrite nth_end in H. right. split; congruence.
  - rewrite nth_app in H by lia. left. exact H.
Qed.
Lemma nth_keep {X} (l m : list X) i x : nth_error l i = Some x -> nth_error (l ++ m) i = Some x.
Proof. intros H. rewrite nth_app by (eapply nth_lt; exact H). exact H. Qed.

Lemma hb_bounds log i j : hb log i j -> (i < j < length log)%nat.
Proof.
  induction 1 as [i j (t & a & b & H1 & H2 & H3)|i j (ti & a & tj & b & H1 & H2 & H3 & _)|i j k _ IH1 _ IH2].
  - apply nth_lt in H2. lia.
  - apply nth_lt in H2. lia.
  - lia.
Qed.
Lemma same_arrays_app log l2 d i j : (j <= length log)%nat -> same_arrays log d i j <-> same_arrays (log ++ l2) d i j.
Proof.
  intros L. unfold same_arrays. split; intros H k t a Hk Ek; apply (H k t a Hk); [rewrite nth_app in Ek by lia; exact Ek|apply nth_keep; exact Ek].
Qed.
Lemma sync_app log l2 i j ti tj a b : (j <= length log)%nat -> @sync K V st log i j ti tj a b <-> @sync K V st (log ++ l2) i j ti tj a b.
Proof.
  intros L. split; intros H; destruct H.
  1: eapply s_group; eauto; apply same_arrays_app; assumption.
  4: eapply s_inc; eauto; apply same_arrays_app; assumption.
  4: eapply s_load; eauto; apply same_arrays_app; assumption.
  all: try solve [eapply s_leave; eauto|eapply s_enter; eauto|eapply s_excl; eauto|eapply s_msg; eauto|eapply s_mutex; eauto|eapply s_size; eauto|eapply s_ml; eauto].
  1: eapply s_group; eauto; eapply same_arrays_app; eassumption.
  1: eapply s_inc; eauto; eapply same_arrays_app; eassumption.
  eapply s_load; eauto; eapply same_arrays_app; eassumption.
Qed.
Lemma hb_app log l2 i j : hb log i j -> hb (log ++ l2) i j.
Proof.
  induction 1 as [i j (t & a & b & H1 & H2 & H3)|i j (ti & a & tj & b & H1 & H2 & H3 & H4)|i j k _ IH1 _ IH2].
  - apply hb_sb. exists t, a, b. auto using nth_keep.
  - apply hb_sw. exists ti, a, tj, b. split; [apply nth_keep, H1|]. split; [apply nth_keep, H2|]. split; [exact H3|].
    apply sync_app; [apply nth_lt in H2; lia|exact H4].
  - eapply hb_trans; eassumption.
Qed.
Lemma hb_app_inv log l2 i j : hb (log ++ l2) i j -> (j < length log)%nat -> hb log i j.
Proof.
  induction 1 as [i j (t & a & b & H1 & H2 & H3)|i j (ti & a & tj & b & H1 & H2 & H3 & H4)|i j k H1 IH1 H2 IH2]; intros L.
  - apply hb_sb. exists t, a, b. rewrite nth_app in H1, H2 by lia. auto.
  - apply hb_sw. exists ti, a, tj, b. rewrite nth_app in H1, H2 by lia. split; [exact H1|]. split; [exact H2|]. split; [exact H3|].
    apply (sync_app log l2); [lia|exact H4].
  - apply hb_bounds in H2 as B. eapply hb_trans; [apply IH1; lia|apply IH2; exact L].
Qed.
Lemma knows_lt log t i : knows log t i -> (i < length log)%nat.
Proof. intros (j & a & H & [->|B]); [eapply nth_lt; exact H|apply hb_bounds in B; lia]. Qed.
Lemma knows_app log l2 t i : knows log t i -> knows (log ++ l2) t i.
Proof. intros (j & a & H & D). exists j, a. split; [apply nth_keep, H|]. destruct D as [->|D]; [left; reflexivity|right; apply hb_app, D]. Qed.
Lemma knows_own log t a i : nth_error log i = Some (t, a) -> knows log t i.
Proof. intros H. exists i, a. auto. Qed.
Lemma knows_hb log t i j : hb log i j -> knows log t j -> knows log t i.
Proof. intros H (j' & a & Hj & D). exists j', a. split; [exact Hj|right]. destruct D as [->|D]; [exact H|eapply hb_trans; eassumption]. Qed.
Lemma knows_end log t a i : knows log t i -> hb (log ++ [(t, a)]) i (length log).
Proof.
  intros (j & b & Hj & D). pose proof (nth_lt _ _ _ Hj) as L.
  assert (hb (log ++ [(t, a)]) j (length log)) as S by (apply hb_sb; exists t, b, a; split; [apply nth_keep, Hj|split; [apply nth_end|exact L]]).
  destruct D as [->|D]; [exact S|]. eapply hb_trans; [apply hb_app, D|exact S].
Qed.
Lemma knows_new log t a : knows (log ++ [(t, a)]) t (length log).
Proof. eapply knows_own, nth_end. Qed.
(** what thread t learns by an event that synchronizes with an event of u *)
Lemma knows_sync log t a r u b : nth_error log r = Some (u, b) -> @sync K V st log r (length log) u t b a -> knows (log ++ [(t, a)]) t r.
Proof.
  intros H S. exists (length log), a. split; [apply nth_end|right]. apply hb_sw. exists u, b, t, a. split; [apply nth_keep, H|]. split; [apply nth_end|].
  split; [eapply nth_lt; exact H|apply sync_app; [lia|exact S]].
Qed.
Lemma knows_before log u i r b t : knows log u i -> nth_error log r = Some (u, b) -> (i <= r)%nat -> knows log t r -> (exists c, nth_error log i = Some (u, c)) -> knows log t i.
Proof.
  intros _ H L Kr (c & E). destruct (Nat.eq_dec i r) as [->|N]; [exact Kr|]. eapply knows_hb; [|exact Kr]. apply hb_sb. exists u, c, b. repeat split; auto. lia.
Qed.
Lemma own_before log u i r b c t : nth_error log i = Some (u, c) -> nth_error log r = Some (u, b) -> (i <= r)%nat -> knows log t r -> knows log t i.
Proof. intros E H L Kr. eapply (knows_before log u i r b t); eauto. eapply knows_own; exact E. Qed.
(** the other threads learn nothing from an event of t *)
Lemma knows_other log t a u i : u <> t -> knows (log ++ [(t, a)]) u i -> knows log u i.
Proof.
  intros N (j & b & Hj & D). destruct (nth_snoc_cases _ _ _ _ Hj) as [H|[_ E]]; [|congruence].
  exists j, b. split; [exact H|]. destruct D as [->|D]; [left; reflexivity|right; apply (hb_app_inv _ _ _ _ D); eapply nth_lt; exact H].
Qed.
End Hb.
