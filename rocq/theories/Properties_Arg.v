(** C69: the arguments of insertions into open-addressing flat containers (reading guide: Properties_Foa.v). ArgModel.v: a run from (t, 0) ends in (t', u) if a constructor has
    been called u times with the arguments: u = 0 means that they have not been touched, an rvalue argument has not been moved from. *)
From Coq Require Import NArith Bool List Arith Lia Permutation.
From Verif Require Import SizeModel GroupModel FoaModel FoaBase FoaArr FoaInv FoaRehash FoaSpec FoaWorld FoaRun FoaProps FoaExamples ArgModel FoaArg.
Import ListNotations.
Local Open Scope N_scope.

Section P.
Context {K V : Type} (c : Cfg K V).
Hypothesis HC : good_cfg c.
Definition has_key (t : table K V) (k : K) : Prop := exists x, In x (contents c t) /\ keqf c (pid t) k (fst x) = true.

(** insert(value), emplace(value), try_emplace(key,args...): what they do is what insert does; they use the arguments if they insert, once *)
Theorem C69_insertion_uses_its_arguments_iff_it_inserts : forall t e n, reachable c t ->
  match insert_args c e (t, 0%nat) n with
  | Ret (l, true) (t', u) n' => m_insert c e t n = Ret (l, true) t' n' /\ u = 1%nat /\ ~ has_key t (fst e) /\ Permutation (contents c t') (e :: contents c t)
  | Ret (l, false) (t', u) n' => m_insert c e t n = Ret (l, false) t' n' /\ u = 0%nat /\ has_key t (fst e) /\ t' = t
  | Exn k (t', u) n' => m_insert c e t n = Exn k t' n' /\
      (u = 0%nat /\ t' = t /\ (k = KHash \/ k = KEq \/ (k = KAlloc /\ ml t <= sz t)) \/
       u = 1%nat /\ ~ has_key t (fst e) /\ (k = KConstruct \/ ((k = KHash \/ k = KTransfer) /\ ml t <= sz t)))
  | Undef => False
  end.
Proof.
  intros t e n R. pose proof (reachable_inv c HC t R) as H. unfold insert_args, m_insert. pose proof (er_emplace c KConstruct e t 0 n) as E. pose proof (used_emplace c KConstruct e t 0 n) as U.
  pose proof (emplace_impl_ok c KConstruct t e n HC H) as O. assert (has_key t (fst e) -> exists x, In x (elems (arr t)) /\ keqf c (pid t) (fst e) (fst x) = true) as P0 by (unfold has_key; rewrite (contents_eq c t H); auto).
  pose proof (fun P => used_present c HC KConstruct e t 0 n H (P0 P)) as Pr.
  destruct (a_emplace_impl c KConstruct e (t, 0%nat) n) as [[l ins] [t' u] n'|k [t' u] n'|]; cbn [er fst snd] in *; rewrite E in O; cbn [outcome fst snd] in O; [| |destruct O].
  - destruct O, U as [-> U2]. destruct ins; (split; [exact E|split; [reflexivity|]]).
    + split; [intros P; destruct (Pr P); discriminate|]. rewrite (contents_eq c t H), (contents_eq c t' em_inv). apply em_true. reflexivity.
    + destruct (em_false eq_refl) as [-> (e' & He & Ek)]. split; [|reflexivity]. exists e'. split; [|exact Ek]. rewrite (contents_eq c t H). apply in_elems. eexists; exact He.
  - split; [exact E|]. destruct U as [[X Hk]|[-> Hk]]; [injection X as -> ->; auto|]. right. split; [reflexivity|]. split; [intros P; destruct (Pr P) as [X _]; discriminate X|exact Hk].
Qed.
(** the key is present: whether the insertion returns or throws, arguments and container are as before *)
Theorem C69_present_key_leaves_arguments_alone : forall t e n, reachable c t -> has_key t (fst e) ->
  match insert_args c e (t, 0%nat) n with
  | Ret (_, ins) (t', u) _ => ins = false /\ u = 0%nat /\ t' = t
  | Exn k (t', u) _ => (k = KHash \/ k = KEq) /\ u = 0%nat /\ t' = t
  | Undef => False
  end.
Proof.
  intros t e n R P. pose proof (reachable_inv c HC t R) as H. unfold has_key in P. rewrite (contents_eq c t H) in P. pose proof (used_present c HC KConstruct e t 0 n H P) as Pr. unfold insert_args.
  destruct (a_emplace_impl c KConstruct e (t, 0%nat) n) as [[l ins] [t' u] n'|k [t' u] n'|]; [| |exact Pr]; destruct Pr as [A B]; [injection B as -> ->; auto|injection A as -> ->; auto].
Qed.

(** emplace(args...): an element is always made of the arguments, before anything else; this temporary is destroyed once, whatever happens, and moved from at most once *)
Theorem C69_emplace_always_uses_its_arguments_once : forall t e n, reachable c t ->
  match emplace_args c e (Call t 0 0 Unborn) n with
  | Ret (l, ins) s n' => emplace_impl c KTransfer e t (S n) = Ret (l, ins) (w_t s) n' /\ w_args s = 1%nat /\ w_tmp s = Dead /\ (ins = false -> w_t s = t)
  | Exn k s n' => w_args s = 1%nat /\
      (w_tmp s = Unborn /\ k = KConstruct /\ throws c KConstruct n = true /\ w_t s = t \/
       w_tmp s = Dead /\ emplace_impl c KTransfer e t (S n) = Exn k (w_t s) n')
  | Undef => False
  end.
Proof.
  intros t e n R. pose proof (reachable_inv c HC t R) as H. unfold emplace_args, make_tmp, bind, get, put, tick, modify. cbn [w_t w_args w_others w_tmp]. destruct (throws c KConstruct n) eqn:Et; [cbn [w_t w_args w_others w_tmp]; split; [reflexivity|left; repeat split; reflexivity]|].
  unfold finally, from_tmp. cbn [w_t w_args w_others w_tmp]. pose proof (er_emplace c KTransfer e t 0 (S n)) as E. pose proof (used_emplace c KTransfer e t 0 (S n)) as U.
  pose proof (emplace_impl_ok c KTransfer t e (S n) HC H) as O.
  destruct (a_emplace_impl c KTransfer e (t, 0%nat) (S n)) as [[l ins] [t' u] n'|k [t' u] n'|]; cbn [er fst snd] in *; rewrite E in O; cbn [outcome fst snd] in O; [| |destruct O].
  - destruct U as [-> U2]. destruct ins; unfold destroy_tmp, bind, get, put; cbn [w_t w_args w_others w_tmp]; (split; [exact E|split; [reflexivity|split; [reflexivity|exact U2]]]).
  - assert (u = 0%nat \/ u = 1%nat) as [-> | ->] by (destruct U as [[X _]|[-> _]]; [injection X as _ ->|]; auto); unfold destroy_tmp, bind, get, put; cbn [w_t w_args w_others w_tmp]; (split; [reflexivity|right; split; [reflexivity|exact E]]).
Qed.

(** emplace(k,v) of a map, k not of the key type: a key is made of k first, v is used if an element is inserted *)
Theorem C69_emplace_of_key_and_value : forall t e n, reachable c t ->
  match emplace_kv c e (Call t 0 0 Unborn) n with
  | Ret (l, ins) s n' => m_insert c e t (S n) = Ret (l, ins) (w_t s) n' /\ w_args s = 1%nat /\ w_tmp s = Dead /\ w_others s = (if ins then 1 else 0)%nat
  | Exn k s n' => w_args s = 1%nat /\
      (w_tmp s = Unborn /\ k = KConstruct /\ throws c KConstruct n = true /\ w_t s = t /\ w_others s = 0%nat \/
       w_tmp s = Dead /\ m_insert c e t (S n) = Exn k (w_t s) n' /\
         (w_others s = 0%nat /\ w_t s = t /\ (k = KHash \/ k = KEq \/ (k = KAlloc /\ ml t <= sz t)) \/
          w_others s = 1%nat /\ ~ has_key t (fst e) /\ (k = KConstruct \/ ((k = KHash \/ k = KTransfer) /\ ml t <= sz t))))
  | Undef => False
  end.
Proof.
  intros t e n R. unfold emplace_kv, make_tmp, bind, get, put, tick, modify. cbn [w_t w_args w_others w_tmp]. destruct (throws c KConstruct n) eqn:Et; [cbn [w_t w_args w_others w_tmp]; split; [reflexivity|left; repeat split; reflexivity]|].
  unfold finally, from_tmp. cbn [w_t w_args w_others w_tmp]. pose proof (C69_insertion_uses_its_arguments_iff_it_inserts t e (S n) R) as X. unfold insert_args in X.
  destruct (a_emplace_impl c KConstruct e (t, 0%nat) (S n)) as [[l ins] [t' u] n'|k [t' u] n'|]; [| |exact X].
  - destruct ins; destruct X as (E & -> & _); unfold destroy_tmp, bind, get, put; cbn [w_t w_args w_others w_tmp]; (split; [exact E|split; [reflexivity|split; reflexivity]]).
  - destruct X as [E [(-> & -> & Hk)|(-> & Hn & Hk)]]; unfold destroy_tmp, bind, get, put; cbn [w_t w_args w_others w_tmp]; (split; [reflexivity|]); right; (split; [reflexivity|]); (split; [exact E|]); [left|right]; auto.
Qed.
End P.
Print Assumptions C69_insertion_uses_its_arguments_iff_it_inserts.
Print Assumptions C69_present_key_leaves_arguments_alone.
Print Assumptions C69_emplace_always_uses_its_arguments_once.
Print Assumptions C69_emplace_of_key_and_value.

(** "if an exception is thrown other than by the hash function, the function has no effect" (the documentation), so that the insertion may be tried again: not for the argument. When
    the container is full, the element is made in the new array first, then the other elements follow: if one of them throws, the argument is lost, and the element is
    not inserted. The container itself is as before if elements are copied. *)
Theorem C69_failed_insertion_keeps_its_argument_refuted :
  ~ (forall (K V : Type) (c : Cfg K V), good_cfg c -> forall t e n k t' u n', reachable c t -> insert_args c e (t, 0%nat) n = Exn k (t', u) n' -> k <> KHash -> k <> KConstruct -> u = 0%nat).
Proof.
  intros H. set (c := ecfg (late KTransfer) false). set (t := t_late KTransfer false 29).
  assert (reachable c t) as R by (apply tab_reachable; vm_compute; reflexivity).
  assert (match insert_args c (1000, 1) (t, 0%nat) 2000%nat with Exn KTransfer (_, u) _ => u = 1%nat | _ => False end) as E by (vm_compute; reflexivity).
  destruct (insert_args c (1000, 1) (t, 0%nat) 2000%nat) as [|k [t' u] n'|] eqn:Ei; try contradiction. destruct k; try contradiction. rewrite E in Ei.
  specialize (H N N c (ecfg_good _ _) t (1000, 1) 2000%nat KTransfer t' 1%nat n' R Ei ltac:(discriminate) ltac:(discriminate)). discriminate H.
Qed.
Print Assumptions C69_failed_insertion_keeps_its_argument_refuted.
(** the container after that: unchanged if elements are copied, some elements lost if they are moved *)
Example C69_lost_argument :
  (let c := ecfg (late KTransfer) false in let t := t_late KTransfer false 29 in
   match insert_args c (1000, 1) (t, 0%nat) 2000%nat with Exn KTransfer (t', u) _ => u = 1%nat /\ contents c t' = contents c t /\ length (contents c t) = 29%nat | _ => False end) /\
  (let c := ecfg (late KTransfer) true in let t := t_late KTransfer true 29 in
   match insert_args c (1000, 1) (t, 0%nat) 980%nat with Exn KTransfer (t', u) _ => u = 1%nat /\ (length (contents c t') < length (contents c t))%nat | _ => False end).
Proof. split; vm_compute; [auto|split; [reflexivity|lia]]. Qed.
(** each way of returning *)
Notation c0 := (ecfg nothrow true).
Definition fresh_call (t : table N N) : call := Call t 0 0 Unborn.
Definition ret_ins {St} (r : R St ((nat * nat) * bool)) (f : St -> nat) : option (bool * nat) := match r with Ret a s _ => Some (snd a, f s) | _ => None end.
Example C69_cases :
  ret_ins (insert_args c0 (1000, 1) (t_big, 0%nat) 0%nat) snd = Some (true, 1%nat) /\
  ret_ins (insert_args c0 (5, 1) (t_big, 0%nat) 0%nat) snd = Some (false, 0%nat) /\
  ret_ins (emplace_args c0 (5, 1) (fresh_call t_big) 0%nat) w_args = Some (false, 1%nat) /\
  ret_ins (emplace_kv c0 (5, 1) (fresh_call t_big) 0%nat) w_args = Some (false, 1%nat) /\
  ret_ins (emplace_kv c0 (5, 1) (fresh_call t_big) 0%nat) w_others = Some (false, 0%nat) /\
  ret_ins (emplace_kv c0 (1000, 1) (fresh_call t_big) 0%nat) w_others = Some (true, 1%nat).
Proof. repeat match goal with |- _ /\ _ => split end; vm_compute; reflexivity. Qed.
Example C69_has_key : reachable c0 t_big /\ has_key c0 t_big 5.
Proof.
  split; [apply t_big_reachable|]. exists (5, 105). split; [|reflexivity].
  assert (existsb (fun x => (fst x =? 5) && (snd x =? 105)) (contents c0 t_big) = true) as X by (vm_compute; reflexivity).
  apply existsb_exists in X as ([a b] & Hx & E). apply andb_prop in E as [E1 E2]. apply N.eqb_eq in E1, E2. cbn [fst snd] in E1, E2. rewrite E1, E2 in Hx. exact Hx.
Qed.
