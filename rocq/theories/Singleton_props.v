(** C59: the thread-safe singleton constructs one instance. A schedule is a list of (thread, call): the thread makes one
    step, and starts the call if it is idle. Thread numbers and schedules are arbitrary. *)
From Verif Require Import Base Singleton_model Singleton_proofs.

(** Only [Get] is called. *)
Definition only_gets (l : list (nat * call)) : Prop := forall t c, In (t, c) l -> c = CGet.

(** One construction, the same instance for everybody, no null dereference. *)
Theorem C59_one_instance : forall l, only_gets l ->
  built (s_exec s_init l) <= 1 /\
  (forall t u v w, In (t, v) (returned (s_exec s_init l)) -> In (u, w) (returned (s_exec s_init l)) ->
     v = w /\ built (s_exec s_init l) = 1 /\ ptr (s_exec s_init l) = Some v) /\
  (forall t, pcs (s_exec s_init l) t <> Crashed).
Proof.
  intros l Hl. pose proof (sinv_exec l Hl s_init sinv_init) as I. split; [|split].
  - destruct (ptr (s_exec s_init l)) as [v|] eqn:E; [destruct (si_ptr _ I v E); lia|].
    destruct (owner (s_exec s_init l)) as [t|] eqn:Eo.
    + destruct (pcs (s_exec s_init l) t) eqn:Et.
      6: { apply (si_assign _ I) in Et. lia. }
      all: rewrite (si_none _ I E); [lia|]; intros u v Hu; apply (si_mutex _ I) in Eo;
        assert (u = t) by (eapply one_holder; [apply (si_mutex _ I)|now rewrite Hu|auto]); congruence.
    + rewrite (si_none _ I E); [lia|]. intros u v Hu.
      assert (Hx : owner (s_exec s_init l) = Some u) by (apply (si_mutex _ I); now rewrite Hu). congruence.
  - intros t u v w H1 H2. destruct (si_returned _ I t v H1) as [-> Hp]. destruct (si_returned _ I u w H2) as [-> _].
    destruct (si_ptr _ I 0 Hp) as [_ Hb]. auto.
  - intros t Ht. pose proof (si_calls _ I t) as Hg. rewrite Ht in Hg. discriminate.
Qed.
Print Assumptions C59_one_instance.

(** No deadlock: in every reached state every call can be completed. *)
Theorem C59_no_deadlock : forall l t, only_gets l -> exists l', only_gets l' /\ pcs (s_exec s_init (l ++ l')) t = Idle.
Proof.
  intros l t Hl. pose proof (sinv_exec l Hl s_init sinv_init) as I.
  assert (Hrep : forall u k, only_gets (repeat (u, CGet) k)).
  { intros u k v c Hi. apply repeat_spec in Hi. congruence. }
  assert (Hfree : exists l1, only_gets l1 /\ owner (s_exec s_init (l ++ l1)) = None).
  { destruct (owner (s_exec s_init l)) as [u|] eqn:Eo.
    - destruct (gets_finish _ (s_exec s_init l) u I (le_n _)) as (k & _ & Hk); [now right|]. exists (repeat (u, CGet) k). split; auto.
      now rewrite s_exec_app.
    - exists []. split; [intros u c []|]. now rewrite app_nil_r. }
  destruct Hfree as (l1 & Hl1 & Ho).
  assert (I1 : sinv (s_exec s_init (l ++ l1))).
  { apply sinv_exec; [|apply sinv_init]. intros u c Hi. apply in_app_or in Hi as [|]; [eapply Hl|eapply Hl1]; eauto. }
  destruct (gets_finish _ _ t I1 (le_n _)) as (k & Hk & _); [now left|].
  exists (l1 ++ repeat (t, CGet) k). split.
  - intros u c Hi. apply in_app_or in Hi as [|]; [eapply Hl1|eapply Hrep]; eauto.
  - now rewrite app_assoc, s_exec_app.
Qed.
Print Assumptions C59_no_deadlock.

(** With any mix of calls, the lines under the mutex are run by one thread at a time. *)
Theorem C59_mutual_exclusion : forall l t u, holds (pcs (s_exec s_init l) t) = true -> holds (pcs (s_exec s_init l) u) = true -> t = u.
Proof. intros l t u. apply one_holder. apply mutex_exec, mutex_init. Qed.
Print Assumptions C59_mutual_exclusion.

(** Two threads race to the first call: both return instance 0. *)
Example C59_race_once :
  let l := [(1, CGet); (2, CGet); (1, CGet); (2, CGet); (2, CGet); (1, CGet); (2, CGet); (2, CGet); (2, CGet); (2, CGet); (1, CGet); (1, CGet); (1, CGet); (1, CGet); (2, CGet)] in
  only_gets l /\ returned (s_exec s_init l) = [(1, 0); (2, 0)] /\ built (s_exec s_init l) = 1.
Proof.
  cbv zeta. split; [|vm_compute; auto]. intros t c H. cbn in H. intuition congruence.
Qed.

(** A call to [Release] while another thread is in [Get]: the pointer that was not null when it was checked is null when
    it is dereferenced. *)
Theorem C59_release_refuted : exists l t, pcs (s_exec s_init l) t = Crashed.
Proof.
  exists (repeat (1, CGet) 8 ++ [(1, CGet); (1, CGet)] ++ repeat (2, CRelease) 5 ++ [(1, CGet)]), 1. vm_compute. reflexivity.
Qed.
Print Assumptions C59_release_refuted.

(** In the memory model of C++ the code has a data race even without [Release]: a thread about to store the pointer,
    under the mutex, and another about to read it without the mutex. *)
Theorem C59_data_race_refuted : exists l t u, only_gets l /\ t <> u /\ next_access (pcs (s_exec s_init l) t) = Writes /\
  next_access (pcs (s_exec s_init l) u) = Reads /\ owner (s_exec s_init l) <> Some u.
Proof.
  exists (repeat (1, CGet) 5 ++ [(2, CGet)]), 1, 2. split; [intros t c H; cbn in H; intuition congruence|].
  split; [discriminate|]. vm_compute. repeat split. discriminate.
Qed.
Print Assumptions C59_data_race_refuted.

(** The plain singleton, used by the profiler: two threads construct two instances, and the first thread is left with a
    reference to an instance that has been destroyed. *)
Theorem C59_plain_singleton_refuted : exists l v w, ubuilt (u_exec l) = 2 /\ In (1, v) (ureturned (u_exec l)) /\
  In (2, w) (ureturned (u_exec l)) /\ v <> w /\ In v (udestroyed (u_exec l)).
Proof.
  exists [1; 1; 1; 2; 2; 2; 1; 1; 1; 2; 2; 2], 0, 1. vm_compute. split; [reflexivity|]. split; [now left|]. split; [now right; left|]. split; [discriminate|now left].
Qed.
Print Assumptions C59_plain_singleton_refuted.

(** Used by one thread it constructs one instance. *)
Lemma u_alone n : let s := u_exec (repeat 1 n) in
  udestroyed s = [] /\ (forall v, In (1, v) (ureturned s) -> v = 0) /\ ubuilt s <= 1 /\
  match upcs s 1 with
  | UCheck2 | UNew => uptr s = None /\ ubuilt s = 0
  | UAssign v => v = 0 /\ uptr s = None /\ ubuilt s = 1
  | UDeref => uptr s = Some 0 /\ ubuilt s = 1
  | _ => (uptr s = None /\ ubuilt s = 0) \/ (uptr s = Some 0 /\ ubuilt s = 1)
  end.
Proof.
  induction n as [|n IH]; [cbn; intuition|]. cbv zeta in *. replace (S n) with (n + 1) by lia. rewrite repeat_app. unfold u_exec in *. rewrite fold_left_app.
  cbn [repeat fold_left]. set (s := fold_left u_step (repeat 1 n) u_init) in *. destruct IH as (Hd & Hr & Hb & H).
  unfold u_step. destruct (upcs s 1); cbn [upcs Nat.eqb].
  - cbn. intuition.
  - destruct H as [[Hp Hq]|[Hp Hq]]; rewrite Hp; cbn; intuition.
  - destruct H as [Hp Hq]; rewrite Hp; cbn; intuition.
  - destruct H as [Hp Hq]; cbn; intuition; lia.
  - destruct H as (-> & Hp & Hq); rewrite Hp; cbn; rewrite ?app_nil_r; intuition.
  - destruct H as [Hp Hq]; rewrite Hp; cbn; rewrite ?Hp; intuition.
    match goal with H : In _ (_ ++ _) |- _ => apply in_app_or in H as [|[|[]]] end; [auto|congruence].
Qed.
Theorem C59_plain_singleton_one_thread : forall n v, In (1, v) (ureturned (u_exec (repeat 1 n))) ->
  v = 0 /\ ubuilt (u_exec (repeat 1 n)) <= 1 /\ udestroyed (u_exec (repeat 1 n)) = [].
Proof. intros n v H. destruct (u_alone n) as (H1 & H2 & H3 & _). auto. Qed.
Print Assumptions C59_plain_singleton_one_thread.
