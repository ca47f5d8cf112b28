(** The paths of a graph search never come back to a state. *)
From Verif Require Import Base Frontier_model Frontier_spec Frontier_proofs AStar_model AStar_spec AStar_proofs.
From Coq Require Import ZifyBool ZifyNat Permutation.

(** The states from a node back to the root. *)
Fixpoint trail {S A C} (n : node S A C) : list S :=
  match n with
  | Root s => [s]
  | Child s _ _ _ p => s :: trail p
  end.

Lemma trail_path {S A C} (n : node S A C) : forall acc, fill_back n_state (Datatypes.S (n_depth n)) (Some n) acc = Ok (rev (trail n) ++ acc).
Proof.
  induction n as [s|s a g f p IH]; intros acc; [reflexivity|]. cbn [n_depth trail rev].
  change (fill_back n_state (Datatypes.S (Datatypes.S (n_depth p))) (Some (Child s a g f p)) acc)
    with (fill_back n_state (Datatypes.S (n_depth p)) (Some p) (s :: acc)). rewrite IH, <- app_assoc. reflexivity.
Qed.
Lemma trail_head {S A C} (n : node S A C) : trail n = n_state n :: tl (trail n).
Proof. now destruct n. Qed.

Section Simple.
  Context {S A C P : Type}.
  Context (eqs : S -> S -> bool) (ltb : C -> C -> bool) (add : C -> C -> C) (zero : C).
  Context (h : S -> C) (succ : P -> S -> list (S * A * C) * P) (issol : S -> bool) (guard : S -> S -> bool).
  Context (Heqs : equivalence S eqs) (Hlt : strict_weak_order C ltb).
  Notation node := (node S A C).
  Notation distinct := (distinct_states eqs).
  Notation child_of := (child_of add zero h).

  Definition covered (e : list node) (l : list S) : Prop := forall s, In s l -> exists m, In m e /\ eqs (n_state m) s = true.
  Definition simple (e : list node) (y : node) : Prop := distinct (trail y) /\ covered e (tl (trail y)).

  Lemma covered_more e e' l : (forall m, In m e -> In m e') -> covered e l -> covered e' l.
  Proof. intros H Hc s Hs. destruct (Hc s Hs) as (m & Hm & E). eauto. Qed.

  Lemma child_simple n e t : covered e (trail n) -> distinct (trail n) -> e_contains eqs (child_of n t) e = false -> simple e (child_of n t).
  Proof.
    intros Hc Hd He. rewrite (e_contains_false eqs) in He.
    destruct t as [[s a] c]. cbn [AStar_proofs.child_of] in *. split; [|exact Hc].
    cbn [trail]. constructor; auto. apply Forall_forall. intros x Hx. destruct (Hc x Hx) as (m & Hm & E).
    destruct (eqs s x) eqn:F; auto. exfalso.
    assert (G : eqs (n_state m) s = true) by (eapply (eqk_trans _ _ Heqs); [exact E|]; now apply (eqk_sym _ _ Heqs)).
    specialize (He m Hm). unfold n_eq in He. cbn [n_state] in He. congruence.
  Qed.

  Lemma upds_simple n e ts l l' : upds eqs ltb add zero h guard true n e ts l l' -> covered e (trail n) -> distinct (trail n) ->
    (forall y, In y l -> e_contains eqs y e = false /\ simple e y) -> (forall y, In y l' -> e_contains eqs y e = false /\ simple e y).
  Proof.
    intros Hus Hc Hd. induction Hus as [l|t ts l l1 l2 Hu Hus IH]; intros Hl; auto.
    apply IH. clear IH Hus. intros y Hy.
    assert (K : e_contains eqs (child_of n t) e = false -> e_contains eqs (child_of n t) e = false /\ simple e (child_of n t)).
    { intros H. split; auto. now apply child_simple. }
    destruct Hu as [? ? Hm|? ? ? ? Hm|? Hne Hm|fn ? Hin Heq ? ? ? Hm]; apply Hm in Hy; auto.
    - destruct Hy as [->|Hy]; auto.
    - destruct Hy as [->|[Hy _]]; auto. apply K. apply e_contains_false. intros m Hm'.
      destruct (n_eq eqs m (child_of n t)) eqn:E; auto.
      destruct (Hl fn Hin) as [Hf _]. rewrite e_contains_false in Hf. specialize (Hf m Hm').
      rewrite <- Hf. symmetry. unfold n_eq in *. eapply (eqk_trans _ _ Heqs); eauto.
  Qed.

  Definition inv_simple init (st : search S A C P) : Prop :=
    inv_once eqs ltb add zero h succ init st /\
    (forall y, In y (vec (st_front st)) \/ In y (st_expl st) -> simple (st_expl st) y).

  Lemma root_simple e init : simple e (Root init).
  Proof. split; cbn; [repeat constructor|easy]. Qed.

  Lemma inv_simple_step init st n fr fr' p :
      inv_simple init st -> finv (n_cmp ltb zero) (n_eq eqs) fr -> In n (vec (st_front st)) ->
      (forall y, In y (vec (st_front st)) -> leb ltb (n_f zero n) (n_f zero y)) ->
      (forall y, In y (vec (st_front st)) <-> y = n \/ In y (vec fr)) ->
      (forall y, In y (vec fr) -> n_eq eqs n y = false) ->
      issol (n_state n) = false ->
      finv (n_cmp ltb zero) (n_eq eqs) fr' ->
      upds eqs ltb add zero h guard true n (e_insert eqs n (st_expl st)) (fst (succ (st_prop st) (n_state n))) (vec fr) (vec fr') ->
      inv_simple init (Search fr' (e_insert eqs n (st_expl st)) p (n_state n :: st_queried st)).
  Proof.
    intros [Ho Hs] Hfr Hn Hmin Hmem Hne Hsol Hfr' Hu.
    split; [eapply (inv_once_step eqs ltb add zero h succ issol guard true Heqs init eq_refl st n fr); eauto|].
    cbn [st_front st_expl]. set (e := e_insert eqs n (st_expl st)) in *.
    assert (Hsub : forall m, In m (st_expl st) -> In m e).
    { intros m Hm. unfold e, e_insert. destruct (e_contains eqs n (st_expl st)); cbn; auto. }
    destruct (Hs n (or_introl Hn)) as [Dn Cn].
    assert (Hcn : covered e (trail n)).
    { rewrite trail_head. intros s [<-|Hin].
      - unfold e, e_insert. destruct (e_contains eqs n (st_expl st)) eqn:E.
        + apply e_contains_iff in E as (m & Hm & E). exists m. auto.
        + exists n. split; [now left|]. apply (eqk_refl _ _ Heqs).
      - apply (covered_more _ _ _ Hsub Cn s Hin). }
    assert (Hfront : forall y, In y (vec fr) -> e_contains eqs y e = false).
    { destruct Ho as (_ & _ & [(Hq & He & Hv)|[Hq Hdis]]).
      - intros y Hy. assert (Hy' : In y (vec (st_front st))) by (apply Hmem; auto). rewrite Hv in Hy', Hn.
        destruct Hy' as [<-|[]], Hn as [<-|[]]. specialize (Hne _ Hy). unfold n_eq in Hne. now rewrite (eqk_refl _ _ Heqs) in Hne.
      - intros y Hy. apply e_contains_false. intros m Hm. apply e_insert_In in Hm as [->|Hm]; auto.
        assert (Hy' : In y (vec (st_front st))) by (apply Hmem; auto). specialize (Hdis y Hy'). rewrite e_contains_false in Hdis. auto. }
    assert (Hmore : forall y, simple (st_expl st) y -> simple e y).
    { intros y [H1 H2]. split; auto. eapply covered_more; eauto. }
    intros y [Hy|Hy].
    - refine (proj2 (upds_simple _ _ _ _ _ Hu Hcn Dn _ y Hy)). intros z Hz. split; auto. apply Hmore, Hs. left. apply Hmem. auto.
    - apply e_insert_In in Hy as [->|Hy]; auto.
  Qed.

  Lemma search_simple fuel init p r st :
    search_path eqs ltb add zero h succ issol guard true fuel init p = Ok (r, st) ->
    (forall n, r = Some n -> distinct (trail n)) /\ (forall y, In y (vec (st_front st)) \/ In y (st_expl st) -> distinct (trail y)).
  Proof.
    intros H. apply search_path_loop in H as (fr & Hf & Hv & H); auto.
    apply (loop_ind eqs ltb add zero h succ issol guard true Heqs Hlt (inv_simple init)) in H.
    - destruct H as (st0 & [Ho Hs] & Hr). destruct r as [n|].
      + destruct Hr as (Hn & _ & _ & He & _ & Hm). split.
        * intros n' [= <-]. apply Hs. auto.
        * intros y [Hy|Hy]; apply Hs; [left; apply Hm; auto|right; now rewrite <- He].
      + destruct Hr as [_ ->]. split; [discriminate|]. intros y Hy. now apply Hs.
    - intros st0 Hst0. apply Hst0.
    - intros st0 n0 fr0 fr1 p0 ? ? ? ? ? ? ? ? ?. eapply (inv_simple_step init st0 n0 fr0); eauto.
    - split; [now apply inv_once_init|]. cbn. rewrite Hv. intros y [[<-|[]]|[<-|[]]]; apply root_simple.
  Qed.

  Lemma distinct_rev l : distinct l -> distinct (rev l).
  Proof.
    induction 1 as [|a l Hl Hd IH]; cbn; [constructor|]. apply FOP_app. split; [exact IH|]. split; [repeat constructor|].
    intros x y Hx [<-|[]]. apply in_rev in Hx. rewrite Forall_forall in Hl. apply (eqk_false_sym eqs Heqs). auto.
  Qed.

  Lemma search_simple_path fuel init p n st :
    search_path eqs ltb add zero h succ issol guard true fuel init p = Ok (Some n, st) ->
    exists path, get_path (Some n) = Ok path /\ pairwise_distinct eqs path.
  Proof.
    intros H. apply search_simple in H as [H _]. specialize (H n eq_refl). exists (rev (trail n)). split.
    - unfold get_path. rewrite trail_path, app_nil_r. reflexivity.
    - now apply distinct_rev.
  Qed.

  (** Distinct states that are each equal to a member of a list are no more than the list is long. *)
  Lemma distinct_bound (K : list S) : forall l, distinct l -> (forall s, In s l -> exists k, In k K /\ eqs s k = true) -> length l <= length K.
  Proof.
    intros l Hd Hk.
    assert (H : exists f : list S, length f = length l /\ NoDup f /\ incl f K /\ Forall2 (fun s k => eqs s k = true) l f).
    { induction Hd as [|a l Ha Hd IH]; [exists []; repeat split; try constructor; easy|].
      destruct IH as (f & H1 & H2 & H3 & H4); [intros s Hs; apply Hk; now right|].
      destruct (Hk a (or_introl eq_refl)) as (k & Hin & E). exists (k :: f). cbn. repeat split; auto.
      - constructor; auto. intros Hf. assert (exists s, In s l /\ eqs s k = true) as (s & Hs & Es).
        { clear - Hf H4. induction H4 as [|x y l f Hxy Hl IH]; [easy|]. destruct Hf as [->|Hf]; [exists x; cbn; auto|].
          destruct (IH Hf) as (s & Hs & E). exists s. cbn. auto. }
        rewrite Forall_forall in Ha. specialize (Ha s Hs).
        assert (eqs a s = true) by (eapply (eqk_trans _ _ Heqs); [exact E|now apply (eqk_sym _ _ Heqs)]). congruence.
      - intros x [<-|Hx]; auto. }
    destruct H as (f & <- & Hn & Hi & _). now apply NoDup_incl_length.
  Qed.

  Lemma search_path_short fuel init p n st K : finitely_reachable succ eqs init K ->
    search_path eqs ltb add zero h succ issol guard true fuel init p = Ok (Some n, st) -> n_depth n < length K.
  Proof.
    intros HK H. pose proof (search_simple _ _ _ _ _ H) as [Hd _]. specialize (Hd n eq_refl).
    apply search_chain in H as [Hc _]; auto.
    assert (L : length (trail n) = Datatypes.S (n_depth n)) by (clear; induction n; cbn; auto).
    enough (length (trail n) <= length K) by lia. apply distinct_bound; auto.
    assert (G : forall m, chain add zero h succ init m -> forall s, In s (trail m) -> reachable succ init s).
    { clear - Heqs. induction 1 as [|m a c t Hm IH Ht]; intros s Hs.
      - destruct Hs as [<-|[]]. apply reachable_refl.
      - destruct Hs as [<-|Hs]; [|now apply IH]. eapply reachable_step; [|exact Ht]. apply IH. rewrite trail_head. now left. }
    intros s Hs. apply HK. eapply G; eauto.
  Qed.
End Simple.
