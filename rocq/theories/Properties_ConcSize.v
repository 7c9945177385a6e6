(** * size() of concurrent containers and max_load() (C37, continued).
    The counter behind size() also counts the insertions that have reserved a place and may yet be refused; size() never shows more than max_load():
    what it returns was at most max_load() at a moment during the call. *)
From Coq Require Import NArith Bool List Arith Lia Permutation.
From Verif Require Import SizeModel FoaModel FoaBase FoaArr FoaSpec FoaWorld FoaExamples
  ConcSpec ConcModel ConcInv ConcSys ConcSys2 ConcLin1 ConcLin3 ConcProps ConcLog ConcVisit ConcProgress ConcExec ConcWrap ConcExamples Properties_Conc.
Import ListNotations.
Local Open Scope N_scope.

Section S.
Context {K V : Type} (c : Cfg K V).
Hypothesis HC : good_cfg c.
Notation run := (runs_with c counters_fit).
Notation conf := (@conf K V).
(** a call of size() that is about to read the counter read max_load() at an earlier moment of this call *)
Lemma read_before n es C : run n es C -> forall t d m0, nth_error (th C) t = Some (ConcModel.At d SizeOf (SSz m0)) ->
  exists es1 es2 C1 s l, es = es1 ++ es2 /\ run n es1 C1 /\ steps c counters_fit C1 es2 C /\ filter (ev_by t) es2 = [] /\
    nth_error (th C1) t = Some (ConcModel.At d SizeOf l) /\ holds C1 d s /\ m0 = ml (tb s).
Proof.
  induction 1 as [P0|es C e C' R IH St Fit]; intros t d m0 Ht.
  - exfalso. cbn [th] in Ht. apply nth_error_In, repeat_spec in Ht. discriminate.
  - change (match e with Some x => [x] | None => [] end) with (ev_opt e).
    assert ((nth_error (th C) t = nth_error (th C') t /\ filter (ev_by t) (ev_opt e) = []) \/
      exists s, holds C d s /\ e = None /\ nth_error (th C) t = Some (ConcModel.At d SizeOf SMl) /\ m0 = ml (tb s)) as [[E F0]|(s & Hb & -> & E & ->)].
    { assert (forall t1, t <> t1 -> (t1 =? t)%nat = false) as Ne by (intros; apply Nat.eqb_neq; congruence).
      destruct St as [C t1 d1 o s Ht1 Hb|C t1 d1 o l s i thr e l' a s' Ht1 Hb Hs Ha|C t1 d1 o s n1 t' n' cn Ht1 Hb Hal Hr Hc|
        C t1 d1 o s n1 kd t' n' cn Ht1 Hb Hal Hr Hc|C t1 d1 o r Ht1|C t1 o Ht1|C t1 o n1 r w bs Ht1 Hp He Hbk|C t1 r Ht1];
      cbn [set_box set_th th] in Ht |- *; (destruct (Nat.eq_dec t t1) as [->|N];
        [|left; split; [now rewrite others_err by exact N|try destruct a; cbn; rewrite ?(Ne _ N); reflexivity]]);
      rewrite (self_err _ _ _ _ Ht1) in Ht; try discriminate Ht.
      injection Ht as -> -> ->. right. cbn [lstep] in Hs. unfold sstep, go in Hs. destruct l; try discriminate Hs.
      injection Hs as _ <- <-. exists s. repeat split; try assumption. unfold holds. unfold box in Hb. destruct (nth_error (boxes C) d) as [[s1|]|]; congruence. }
    + rewrite <- E in Ht. destruct (IH t d m0 Ht) as (es1 & es2 & C1 & s & l & -> & R1 & L & F & H1 & H2 & H3).
      exists es1, (es2 ++ ev_opt e), C1, s, l. rewrite app_assoc. split; [reflexivity|]. split; [exact R1|]. split; [eapply st_snoc; eassumption|].
      split; [|auto]. rewrite filter_app, F. exact F0.
    + exists es, [], C, s, SMl. cbn [ev_opt]. split; [reflexivity|]. split; [exact R|]. split; [exact (st_snoc c counters_fit C [] C None C' (st_nil c counters_fit C (run_fit c n es C R)) St Fit)|]. repeat split; auto.
Qed.
(** size() returns at most what max_load() was at some moment during the same call *)
Theorem C37_size_is_at_most_max_load : forall n es C t m C', run n es C -> gstep c C (Some (ELin t (ASize m))) C' ->
  exists es1 es2 C1 d s l, es = es1 ++ es2 /\ run n es1 C1 /\ steps c counters_fit C1 es2 C /\ filter (ev_by t) es2 = [] /\
    nth_error (th C1) t = Some (ConcModel.At d SizeOf l) /\ holds C1 d s /\ m <= ml (tb s).
Proof.
  intros n es C t m C' R St. inversion St as [|C0 t1 d1 o l s i thr e l' a s' Ht Hb Hs Ha E0| | | | | |]; subst.
  destruct a as [a|]; cbn [option_map] in *; [|discriminate]. match goal with X : Some _ = Some _ |- _ => injection X as -> -> end.
  assert (o = SizeOf /\ exists m0, l = SSz m0 /\ m <= m0) as (-> & m0 & -> & Le).
  { destruct (C36_instants c HC _ _ _ _ _ _ R St) as (ca & done & E & T). unfold calls_of in E. rewrite Ht in E. injection E as <- <-.
    destruct o as [p|x md f|]; cbn [takes_effect] in T; try contradiction. split; [reflexivity|].
    cbn [lstep] in Hs. unfold sstep, go in Hs. destruct l; try discriminate Hs. exists m0. split; [reflexivity|]. injection Hs as _ _ <-.
    destruct (N.leb_spec (sz (tb s)) m0); lia. }
  destruct (read_before n es C R t d1 m0 Ht) as (es1 & es2 & C1 & s1 & l1 & A & B & D & E & F & G & H). exists es1, es2, C1, d1, s1, l1. repeat split; auto. lia.
Qed.
End S.
(** thread 0 is inserting into a container without arrays: it has counted its element and not yet seen that there is no room; thread 1 calls size(): the counter is 1, max_load() and the result are 0 *)
Definition at_chk (l : @loc N N) := match l with LChk _ _ => true | _ => false end.
Definition at_ssz (l : @loc N N) := match l with SSz _ => true | _ => false end.
Definition sized := until 1 at_ssz (then_ (MCall 1 0 SizeOf) (until 0 at_chk (then_ (MCall 0 0 (ins1 5)) small))).
Example C37_size_case : exists es s C', runs_with wcfg counters_fit 3 es (snd sized) /\ holds (snd sized) 0 s /\ sz (tb s) = 1 /\ ml (tb s) = 0 /\
  gstep wcfg (snd sized) (Some (ELin 1 (ASize 0))) C'.
Proof.
  do 3 eexists. split; [eapply (played nothrow false 3 (fst sized)); vm_compute; reflexivity|]. split; [vm_compute; reflexivity|]. split; [vm_compute; reflexivity|]. split; [vm_compute; reflexivity|].
  apply (do_move_ok nothrow false (MLocal 1 0 false)). vm_compute. reflexivity.
Qed.
Print Assumptions C37_size_is_at_most_max_load.
