(** The graph search only looks at costs through comparison and addition: on related costs it takes the same decisions. *)
From Verif Require Import Base Frontier_model FrontierRel_proofs AStar_model AStar_spec AStar_proofs.

Section Rel.
  Context {S A C C' P : Type}.
  Context (eqs : S -> S -> bool) (ltb : C -> C -> bool) (add : C -> C -> C) (zero : C) (ltb' : C' -> C' -> bool) (add' : C' -> C' -> C') (zero' : C').
  Context (h : S -> C) (succ : P -> S -> list (S * A * C) * P) (h' : S -> C') (succ' : P -> S -> list (S * A * C') * P).
  Context (issol : S -> bool) (guard : S -> S -> bool) (graph : bool).
  (** [Q] holds of the states the search can meet. *)
  Context (RC : C -> C' -> Prop) (Q : S -> Prop).
  Hypothesis Hltb : forall a a' b b', RC a a' -> RC b b' -> ltb a b = ltb' a' b'.
  Hypothesis Hadd : forall a a' b b', RC a a' -> RC b b' -> RC (add a b) (add' a' b').
  Hypothesis Hzero : RC zero zero'.
  Hypothesis Hh : forall s, Q s -> RC (h s) (h' s).
  Definition offer_rel (t : S * A * C) (t' : S * A * C') : Prop := fst t = fst t' /\ RC (snd t) (snd t') /\ Q (fst (fst t)).
  Hypothesis Hsucc : forall p s, Q s -> Forall2 offer_rel (fst (succ p s)) (fst (succ' p s)) /\ snd (succ p s) = snd (succ' p s).

  Inductive node_rel : node S A C -> node S A C' -> Prop :=
  | rel_root s : Q s -> node_rel (Root s) (Root s)
  | rel_child s a g f p g' f' p' : Q s -> RC g g' -> RC f f' -> node_rel p p' -> node_rel (Child s a g f p) (Child s a g' f' p').

  Lemma rel_state n n' : node_rel n n' -> n_state n = n_state n' /\ Q (n_state n).
  Proof. now intros []. Qed.
  Lemma rel_g n n' : node_rel n n' -> RC (n_g zero n) (n_g zero' n').
  Proof. now intros []. Qed.
  Lemma rel_f n n' : node_rel n n' -> RC (n_f zero n) (n_f zero' n').
  Proof. now intros []. Qed.
  Lemma rel_depth n n' : node_rel n n' -> n_depth n = n_depth n'.
  Proof. induction 1; cbn; auto. Qed.

  Lemma rel_cmp a a' b b' : node_rel a a' -> node_rel b b' -> n_cmp ltb zero a b = n_cmp ltb' zero' a' b'.
  Proof. intros Ha Hb. unfold n_cmp. apply Hltb; now apply rel_f. Qed.
  Lemma rel_eq a a' b b' : node_rel a a' -> node_rel b b' -> n_eq eqs a b = n_eq eqs a' b'.
  Proof. intros Ha Hb. unfold n_eq. now rewrite (proj1 (rel_state _ _ Ha)), (proj1 (rel_state _ _ Hb)). Qed.

  Notation frr := (fr_rel _ _ node_rel).
  Lemma push_rel' f f' x x' : frr f f' -> node_rel x x' ->
    res_rel (fun r r' => frr (snd r) (snd r')) (f_push (n_cmp ltb zero) (n_eq eqs) x f) (f_push (n_cmp ltb' zero') (n_eq eqs) x' f').
  Proof. apply push_rel; [apply rel_cmp|apply rel_eq]. Qed.
  Lemma remove_rel' f f' x x' : frr f f' -> node_rel x x' ->
    res_rel (fun r r' => frr (snd r) (snd r')) (f_remove (n_cmp ltb zero) (n_eq eqs) x f) (f_remove (n_cmp ltb' zero') (n_eq eqs) x' f').
  Proof. apply remove_rel; [apply rel_cmp|apply rel_eq]. Qed.

  Lemma contains_rel e e' n n' : Forall2 node_rel e e' -> node_rel n n' -> e_contains eqs n e = e_contains eqs n' e'.
  Proof.
    intros H Hn. unfold e_contains. induction H as [|m m' e e' Hm He IH]; cbn; auto. now rewrite IH, (rel_eq m m' n n').
  Qed.
  Lemma insert_rel e e' n n' : Forall2 node_rel e e' -> node_rel n n' -> Forall2 node_rel (e_insert eqs n e) (e_insert eqs n' e').
  Proof. intros H Hn. unfold e_insert. rewrite (contains_rel _ _ _ _ H Hn). destruct (e_contains eqs n' e'); auto. Qed.

  Lemma shortcut_rel fn fn' ch ch' f f' : node_rel fn fn' -> node_rel ch ch' -> frr f f' ->
    res_rel frr (shortcut eqs ltb zero guard fn ch f) (shortcut eqs ltb' zero' guard fn' ch' f').
  Proof.
    intros Hfn Hch Hf. unfold shortcut. rewrite (proj1 (rel_state _ _ Hfn)), (proj1 (rel_state _ _ Hch)).
    destruct (guard _ _); [|exact Hf]. rewrite (Hltb _ _ _ _ (rel_f _ _ Hch) (rel_f _ _ Hfn)). destruct (ltb' _ _); [|exact Hf].
    eapply bind_rel; [now apply remove_rel'|]. intros [? f1] [? f1'] H1. cbn in H1.
    eapply bind_rel; [now apply push_rel'|]. intros [? f2] [? f2'] H2. exact H2.
  Qed.

  Lemma expand_one_rel n n' e e' f f' t t' : node_rel n n' -> Forall2 node_rel e e' -> frr f f' -> offer_rel t t' ->
    res_rel frr (expand_one eqs ltb add zero h guard graph n e f t) (expand_one eqs ltb' add' zero' h' guard graph n' e' f' t').
  Proof.
    intros Hn He Hf Ht. destruct t as [[s a] c], t' as [[s' a'] c']. destruct Ht as (E & Hc & Hq). cbn in E, Hc, Hq. injection E as <- <-.
    unfold expand_one. set (ch := Child s a _ _ n). set (ch' := Child s a _ _ n').
    assert (Hch : node_rel ch ch').
    { unfold ch, ch'. constructor; auto; repeat apply Hadd; auto; now apply rel_g. }
    assert (Hpush : res_rel frr (do (_, f1) <- f_push (n_cmp ltb zero) (n_eq eqs) ch f; Ok f1) (do (_, f1) <- f_push (n_cmp ltb' zero') (n_eq eqs) ch' f'; Ok f1)).
    { eapply bind_rel; [now apply push_rel'|]. intros [? f1] [? f1'] H1. exact H1. }
    destruct graph; [|exact Hpush]. unfold f_find.
    pose proof (find_rel _ _ node_rel _ _ rel_eq (set f) (set f') ch ch' (proj2 Hf) Hch) as F.
    destruct (set_find (n_eq eqs) ch (set f)), (set_find (n_eq eqs) ch' (set f')); cbn in F; try contradiction.
    - now apply shortcut_rel.
    - rewrite (contains_rel _ _ _ _ He Hch). destruct (e_contains eqs ch' e'); auto.
  Qed.

  Lemma expand_all_rel n n' e e' ts ts' : node_rel n n' -> Forall2 node_rel e e' -> Forall2 offer_rel ts ts' -> forall f f', frr f f' ->
    res_rel frr (expand_all eqs ltb add zero h guard graph n e f ts) (expand_all eqs ltb' add' zero' h' guard graph n' e' f' ts').
  Proof.
    intros Hn He. induction 1 as [|t t' ts ts' Ht Hts IH]; intros f f' Hf; cbn [expand_all]; [exact Hf|].
    eapply bind_rel; [now apply expand_one_rel|]. intros f1 f1' H1. now apply IH.
  Qed.

  Definition search_rel (st : search S A C P) (st' : search S A C' P) : Prop :=
    frr (st_front st) (st_front st') /\ Forall2 node_rel (st_expl st) (st_expl st') /\ st_prop st = st_prop st' /\ st_queried st = st_queried st'.

  Lemma expand_rel n n' st st' : node_rel n n' -> search_rel st st' ->
    res_rel search_rel (expand eqs ltb add zero h succ guard graph n st) (expand eqs ltb' add' zero' h' succ' guard graph n' st').
  Proof.
    intros Hn (Hf & He & Hp & Hq). unfold expand. destruct (rel_state _ _ Hn) as [Es Qs]. rewrite <- Hp, <- Hq, <- Es.
    destruct (Hsucc (st_prop st) (n_state n) Qs) as [H1 H2].
    destruct (succ (st_prop st) (n_state n)) as [ts p], (succ' (st_prop st) (n_state n)) as [ts' p']. cbn [fst snd] in *. subst p'.
    eapply bind_rel; [apply expand_all_rel; auto; now apply insert_rel|]. intros f1 f1' Hf1. cbn.
    split; [exact Hf1|]. split; [now apply insert_rel|]. auto.
  Qed.

  Definition found_rel (r : option (node S A C) * search S A C P) (r' : option (node S A C') * search S A C' P) : Prop :=
    opt_rel _ _ node_rel (fst r) (fst r') /\ search_rel (snd r) (snd r').

  Lemma loop_rel fuel : forall st st', search_rel st st' ->
    res_rel found_rel (search_loop eqs ltb add zero h succ issol guard graph fuel st) (search_loop eqs ltb' add' zero' h' succ' issol guard graph fuel st').
  Proof.
    induction fuel as [|fuel IH]; intros st st' Hst; cbn [search_loop]; [exact I|]. pose proof Hst as (Hf & He & Hp & Hq).
    rewrite (is_empty_rel _ _ node_rel _ _ Hf). destruct (f_is_empty (st_front st')); [now split|].
    eapply bind_rel; [apply (pop_rel _ _ node_rel _ _ rel_eq _ _ Hf)|]. intros [n f] [n' f'] [Hn Hf']. cbn [fst snd] in *.
    rewrite <- (proj1 (rel_state _ _ Hn)). destruct (issol (n_state n)).
    - cbn. split; [exact Hn|]. repeat split; auto; apply Hf'.
    - eapply bind_rel; [apply expand_rel; [exact Hn|]|].
      + repeat split; auto; apply Hf'.
      + intros st1 st1' H1. now apply IH.
  Qed.

  Lemma search_path_rel fuel init p : Q init ->
    res_rel found_rel (search_path eqs ltb add zero h succ issol guard graph fuel init p) (search_path eqs ltb' add' zero' h' succ' issol guard graph fuel init p).
  Proof.
    intros Hq. unfold search_path, init_search. eapply bind_rel.
    - eapply bind_rel; [apply push_rel'; [split; constructor|now constructor]|]. intros [? f] [? f'] Hf. cbn [res_rel].
      instantiate (1 := search_rel). split; [exact Hf|]. split; [apply insert_rel; constructor; auto|]. cbn. auto.
    - intros st st'. apply loop_rel.
  Qed.
End Rel.
