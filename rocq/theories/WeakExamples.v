(** Concrete executions of WeakModel.v: store buffering. Two threads insert two keys of different groups, and each looks up the key of the other;
    neither lookup finds it. *)
From Coq Require Import NArith Bool List Arith Lia.
From Verif Require Import SizeModel GroupModel FoaModel FoaArr FoaSpec FoaWorld FoaExamples ConcSpec ConcModel ConcExec ConcWrap WeakModel WeakHb WeakSee WeakExec.
Import ListNotations.
Local Open Scope N_scope.

Definition vis1 (k : N) : cop N N := Point (PVisit false k keep).
Notation "x |> f" := (f x) (at level 60, only parsing).
Section SB.
Variable st : bool.
Notation thn := (wthen st nothrow false). Notation unt := (wuntil st nothrow false).
(** thread 0 makes the container and tells thread 1 *)
Definition sb0 := ([], wstart 2) |> thn (WMBegin 0 (New 0 0 0 20)) |> thn (WMNew 0 0) |> thn (WMRet 0) |> thn (WMSend 0 7) |> thn (WMRecv 1 7).
(** both threads insert, and have reserved their space *)
Definition sb1 := sb0 |> thn (WMCall 0 0 (ins1 5)) |> thn (WMCall 1 0 (ins1 6)) |> unt 0%nat None at_ins |> unt 1%nat None at_ins.
Definition m0 : nat := length (w_log (snd sb1)).
Definition sb2 := sb1 |> unt 0%nat None never |> thn (WMRet 0) |> unt 1%nat None never |> thn (WMRet 1).
(** each looks up the other key: key 6 is in group 1, key 5 in group 0 *)
Definition sb3 := sb2 |> thn (WMCall 0 0 (vis1 6)) |> thn (WMCall 1 0 (vis1 5)) |> unt 0%nat (Some (m0, 1%nat)) never |> unt 1%nat (Some (m0, 0%nat)) never |> thn (WMRet 0) |> thn (WMRet 1).
End SB.
Lemma sb_start st : wruns wcfg st counters_fit 2 (wstart 2).
Proof. apply wr_nil, fitb_ok. reflexivity. Qed.
Lemma sb3_plays st : wplay st nothrow false (rev (fst (sb3 st))) (wstart 2) = Some (snd (sb3 st)).
Proof. destruct st; vm_compute; reflexivity. Qed.
Lemma sb3_runs st : wruns wcfg st counters_fit 2 (snd (sb3 st)).
Proof. exact (wplayed st nothrow false 2 _ _ _ (sb_start st) (sb3_plays st)). Qed.

(** thread 0 tells thread 1 that it has inserted key 5; thread 1 finds it *)
Definition msg st := wuntil st nothrow false 1 None never (wthen st nothrow false (WMCall 1 0 (vis1 5)) (wthen st nothrow false (WMRecv 1 8) (wthen st nothrow false (WMSend 0 8) (sb2 st)))).
Definition msg' st := wthen st nothrow false (WMRet 1) (msg st).
Lemma msg_plays st : wplay st nothrow false (rev (fst (msg' st))) (wstart 2) = Some (snd (msg' st)).
Proof. destruct st; vm_compute; reflexivity. Qed.
Lemma msg_runs st : wruns wcfg st counters_fit 2 (snd (msg' st)).
Proof. exact (wplayed st nothrow false 2 _ _ _ (sb_start st) (msg_plays st)). Qed.
