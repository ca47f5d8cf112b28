From Verif Require Import Base Singleton_model.

Definition holds (p : pc) : bool := match p with Check2 | New | Assign _ | Unlock | RCheck | RReset | RUnlock => true | _ => false end.
Definition getting (p : pc) : bool := match p with RLock | RCheck | RReset | RUnlock | Crashed => false | _ => true end.

Lemma set_pc_same f t p : set_pc f t p t = p.
Proof. unfold set_pc. now rewrite Nat.eqb_refl. Qed.
Lemma set_pc_other f t p u : u <> t -> set_pc f t p u = f u.
Proof. unfold set_pc. destruct (Nat.eqb_spec u t); easy. Qed.

(** Mutual exclusion holds with both calls. *)
Definition mutex (s : sstate) : Prop := forall t, owner s = Some t <-> holds (pcs s t) = true.
Ltac who t u := destruct (Nat.eq_dec u t) as [->|?]; [rewrite ?set_pc_same|rewrite ?set_pc_other by assumption].
Lemma mutex_step s x : mutex s -> mutex (s_step s x).
Proof.
  intros H. destruct x as [t c]. pose proof (H t) as Ht.
  unfold s_step. destruct (pcs s t) eqn:E; cbn [holds] in Ht;
  repeat match goal with |- context [match ?x with _ => _ end] => destruct x eqn:? end; try exact H;
  intros u; cbn [owner pcs]; pose proof (H u) as Hu; who t u; cbn [holds]; intuition congruence.
Qed.
Lemma mutex_exec l : forall s, mutex s -> mutex (s_exec s l).
Proof. induction l as [|x l IH]; intros s H; auto. apply IH. now apply mutex_step. Qed.
Lemma mutex_init : mutex s_init.
Proof. intros t. cbn. split; discriminate. Qed.

(** Without [Release]: where the threads can be, and what they have seen. *)
Record sinv (s : sstate) : Prop := {
  si_mutex : mutex s;
  si_calls : forall t, getting (pcs s t) = true;
  si_ptr : forall v, ptr s = Some v -> v = 0 /\ built s = 1;
  si_new : forall t, pcs s t = New -> ptr s = None /\ built s = 0;
  si_assign : forall t v, pcs s t = Assign v -> ptr s = None /\ v = 0 /\ built s = 1;
  si_none : ptr s = None -> (forall t v, pcs s t <> Assign v) -> built s = 0;
  si_deref : forall t, pcs s t = Deref \/ pcs s t = Unlock -> ptr s = Some 0;
  si_returned : forall t v, In (t, v) (returned s) -> v = 0 /\ ptr s = Some 0
}.

Lemma sinv_init : sinv s_init.
Proof. split; cbn; try easy; try apply mutex_init. intros t [H|H]; discriminate. Qed.

Lemma one_holder s t u : mutex s -> holds (pcs s t) = true -> holds (pcs s u) = true -> t = u.
Proof. intros H Ht Hu. apply H in Ht. apply H in Hu. congruence. Qed.

Lemma sinv_step s t : sinv s -> sinv (s_step s (t, CGet)).
Proof.
  intros I. pose proof (mutex_step s (t, CGet) (si_mutex s I)) as HM.
  pose proof (si_mutex s I) as M.
  assert (Hone : forall u, u <> t -> holds (pcs s t) = true -> holds (pcs s u) = false).
  { intros u Hu Ht. destruct (holds (pcs s u)) eqn:E; auto. exfalso. apply Hu. symmetry. eapply one_holder; eauto. }
  pose proof (si_calls s I t) as Hg. pose proof (si_new s I t) as Hn. pose proof (si_assign s I t) as Ha. pose proof (si_deref s I t) as Hd.
  revert HM. unfold s_step. destruct (pcs s t) eqn:E; try discriminate.
  - (* Idle *) intros HM. split; auto; cbn [ptr owner pcs built returned].
    + intros u. who t u; auto. apply I.
    + apply I.
    + intros u. who t u; [discriminate|]. apply I.
    + intros u v. who t u; [discriminate|]. apply I.
    + intros Hp Hx. apply (si_none s I); auto. intros u v Hy. apply (Hx u v). who t u; congruence.
    + intros u. who t u; [intros [|]; discriminate|]. apply I.
    + apply I.
  - (* Check1 *) intros HM. assert (HQ : forall p, (match ptr s with None => p = Lock | Some _ => p = Deref end) ->
      mutex (SState (ptr s) (owner s) (set_pc (pcs s) t p) (built s) (returned s)) ->
      sinv (SState (ptr s) (owner s) (set_pc (pcs s) t p) (built s) (returned s))).
    { intros p Hp HM'. split; auto; cbn [ptr owner pcs built returned].
      + intros u. who t u; [destruct (ptr s); subst; auto|]. apply I.
      + apply I.
      + intros u. who t u; [destruct (ptr s); subst; discriminate|]. apply I.
      + intros u v. who t u; [destruct (ptr s); subst; discriminate|]. apply I.
      + intros Hq Hx. apply (si_none s I); auto. intros u v Hy. apply (Hx u v). who t u; congruence.
      + intros u. who t u; [|apply I]. intros Hx. destruct (ptr s) as [v|] eqn:Ep; subst p; [|destruct Hx; discriminate].
        now destruct (si_ptr s I v Ep) as [-> _].
      + apply I. }
    destruct (ptr s) eqn:Ep; apply HQ; auto.
  - (* Lock *) destruct (owner s) eqn:Eo; intros HM; [exact I|]. split; auto; cbn [ptr owner pcs built returned].
    + intros u. who t u; auto. apply I.
    + apply I.
    + intros u. who t u; [discriminate|]. apply I.
    + intros u v. who t u; [discriminate|]. apply I.
    + intros Hp Hx. apply (si_none s I); auto. intros u v Hy. apply (Hx u v). who t u; congruence.
    + intros u. who t u; [intros [|]; discriminate|]. apply I.
    + apply I.
  - (* Check2 *) destruct (ptr s) as [v|] eqn:Ep; intros HM.
    + destruct (si_ptr s I v Ep) as [-> Hb]. split; auto; cbn [ptr owner pcs built returned].
      * intros u. who t u; auto. apply I.
      * intros v' Hv. rewrite <- Ep in Hv. now apply (si_ptr s I).
      * intros u. who t u; [discriminate|]. intros Hx. apply (si_new s I) in Hx as [Hx _]. congruence.
      * intros u v'. who t u; [discriminate|]. intros Hx. apply (si_assign s I) in Hx as [Hx _]. congruence.
      * discriminate.
      * intros u v' Hx. apply (si_returned s I) in Hx as [Hx _]. auto.
    + split; auto; cbn [ptr owner pcs built returned].
      * intros u. who t u; auto. apply I.
      * discriminate.
      * intros u. who t u; [|intros Hx; apply (si_new s I) in Hx as [_ Hx]; auto]. intros _. split; auto.
        apply (si_none s I); auto. intros u v Hu. destruct (Nat.eq_dec u t) as [->|Hne]; [congruence|].
        specialize (Hone u Hne eq_refl). rewrite Hu in Hone. discriminate.
      * intros u v'. who t u; [discriminate|]. intros Hx. apply (si_assign s I) in Hx as [_ Hx]. auto.
      * intros _ Hx. apply (si_none s I); auto. intros u v Hy. apply (Hx u v). who t u; congruence.
      * intros u. who t u; [intros [|]; discriminate|]. intros Hx. apply (si_deref s I) in Hx. congruence.
      * intros u v' Hx. apply (si_returned s I) in Hx as [_ Hx]. congruence.
  - (* New *) intros HM. destruct (Hn eq_refl) as [Hp Hb]. split; auto; cbn [ptr owner pcs built returned].
    + intros u. who t u; auto. apply I.
    + congruence.
    + intros u. who t u; [discriminate|]. intros Hx. specialize (Hone u ltac:(auto) eq_refl). rewrite Hx in Hone. discriminate.
    + intros u v. who t u.
      * intros Hx. injection Hx as <-. rewrite Hb. auto.
      * intros Hx. specialize (Hone u ltac:(auto) eq_refl). rewrite Hx in Hone. discriminate.
    + intros _ Hx. destruct (Hx t (built s)). apply set_pc_same.
    + intros u. who t u; [intros [|]; discriminate|]. apply I.
    + apply I.
  - (* Assign *) intros HM. destruct (Ha v eq_refl) as (Hp & -> & Hb). split; auto; cbn [ptr owner pcs built returned].
    + intros u. who t u; auto. apply I.
    + intros v Hv. injection Hv as <-. auto.
    + intros u. who t u; [discriminate|]. intros Hx. specialize (Hone u ltac:(auto) eq_refl). rewrite Hx in Hone. discriminate.
    + intros u v. who t u; [discriminate|]. intros Hx. specialize (Hone u ltac:(auto) eq_refl). rewrite Hx in Hone. discriminate.
    + discriminate.
    + intros u v Hx. apply (si_returned s I) in Hx as [Hx _]. auto.
  - (* Unlock *) intros HM. assert (Hp : ptr s = Some 0) by auto. split; auto; cbn [ptr owner pcs built returned].
    + intros u. who t u; auto. apply I.
    + apply I.
    + intros u. who t u; [discriminate|]. apply I.
    + intros u v. who t u; [discriminate|]. apply I.
    + congruence.
    + apply I.
  - (* Deref *) assert (Hp : ptr s = Some 0) by auto. rewrite Hp. intros HM. destruct (si_ptr s I 0 Hp) as [_ Hb].
    split; auto; cbn [ptr owner pcs built returned].
    + intros u. who t u; auto. apply I.
    + intros v Hv. split; [congruence|auto].
    + intros u. who t u; [discriminate|]. intros Hx. apply (si_new s I) in Hx as [Hx _]. congruence.
    + intros u v. who t u; [discriminate|]. intros Hx. apply (si_assign s I) in Hx as [Hx _]. congruence.
    + discriminate.
    + intros u v Hx. split; auto. apply in_app_or in Hx as [Hx|[Hx|[]]]; [now apply (si_returned s I) in Hx as [Hx _]|congruence].
Qed.

Lemma sinv_exec l : (forall t c, In (t, c) l -> c = CGet) -> forall s, sinv s -> sinv (s_exec s l).
Proof.
  induction l as [|[t c] l IH]; intros Hc s I; auto. rewrite (Hc t c) by now left. apply IH.
  - intros u d Hi. apply (Hc u d). now right.
  - now apply sinv_step.
Qed.

(** A thread that cannot move waits for another one that can. *)
Lemma moves s t c : (pcs s t <> Lock /\ pcs s t <> RLock) \/ owner s = None -> pcs s t <> Crashed -> pcs (s_step s (t, c)) t <> pcs s t.
Proof.
  intros H Hc. unfold s_step. destruct (pcs s t) eqn:E;
  repeat match goal with |- context [match ?x with _ => _ end] => destruct x eqn:? end; cbn [pcs];
  try rewrite set_pc_same; try discriminate; try congruence; destruct H as [[H1 H2]|H]; congruence.
Qed.

(** Steps left before a call is over. *)
Definition left (p : pc) : nat :=
  match p with
  | Idle | Crashed => 0
  | Deref => 1 | Unlock => 2 | Assign _ => 3 | New => 4 | Check2 => 5 | Lock => 6 | Check1 => 7
  | RUnlock => 1 | RReset => 2 | RCheck => 3 | RLock => 4
  end.
Lemma left_decreases s t c : pcs s t <> Idle -> pcs s t <> Crashed -> (holds (pcs s t) = true \/ owner s = None \/ (pcs s t <> Lock /\ pcs s t <> RLock)) ->
  left (pcs (s_step s (t, c)) t) < left (pcs s t).
Proof.
  intros Hi Hc H. unfold s_step. destruct (pcs s t) eqn:E; try congruence;
  repeat match goal with |- context [match ?x with _ => _ end] => destruct x eqn:? end; cbn [pcs];
  rewrite ?set_pc_same; cbn [left]; try lia; rewrite ?E; destruct H as [H|[H|[H1 H2]]]; try discriminate; try congruence.
Qed.
Lemma other_unchanged s t c u : u <> t -> pcs (s_step s (t, c)) u = pcs s u.
Proof.
  intros H. unfold s_step. destruct (pcs s t) eqn:E;
  repeat match goal with |- context [match ?x with _ => _ end] => destruct x eqn:? end; cbn [pcs]; rewrite ?set_pc_other; auto.
Qed.

(** A thread alone runs until it is done, or needs a mutex somebody else holds. *)
Lemma s_exec_app s l1 l2 : s_exec s (l1 ++ l2) = s_exec (s_exec s l1) l2.
Proof. apply fold_left_app. Qed.
Lemma gets_finish n : forall s t, sinv s -> left (pcs s t) <= n -> (owner s = None \/ owner s = Some t) ->
  exists k, pcs (s_exec s (repeat (t, CGet) k)) t = Idle /\ owner (s_exec s (repeat (t, CGet) k)) = None.
Proof.
  induction n as [|n IH]; intros s t I Hn Ho.
  - exists 0. cbn. pose proof (si_calls s I t) as Hg. destruct (pcs s t) eqn:E; cbn in *; try lia; try discriminate.
    split; auto. destruct Ho as [|Ho]; auto. apply (si_mutex s I) in Ho. rewrite E in Ho. discriminate.
  - destruct (pcs s t) eqn:E.
    1: { exists 0. cbn. split; auto. destruct Ho as [|Ho]; auto. apply (si_mutex s I) in Ho. rewrite E in Ho. discriminate. }
    all: assert (Hl : left (pcs (s_step s (t, CGet)) t) < left (pcs s t)) by
      (apply left_decreases; try congruence; try (rewrite E; cbn; destruct Ho as [|Ho]; [now right; left|]; apply (si_mutex s I) in Ho; rewrite E in Ho; now left);
       pose proof (si_calls s I t) as Hg; rewrite E in Hg; discriminate);
     pose proof (sinv_step s t I) as I';
     (destruct (IH (s_step s (t, CGet)) t I') as [k Hk];
       [rewrite E in Hl; lia| |exists (S k); exact Hk]);
     (unfold s_step; rewrite E; repeat match goal with |- context [match ?x with _ => _ end] => destruct x eqn:? end; cbn [owner]; auto; intuition congruence).
Qed.
