(** Two comparisons of costs that agree on the costs a bidirectional search meets give the same search. *)
From Verif Require Import Base Frontier_model FrontierRel_proofs AStar_model AStar_spec AStar_proofs Bidir_model.

Section One.
  Context {S A C P : Type}.
  Context (eqs : S -> S -> bool) (ltb ltb' : C -> C -> bool) (add : C -> C -> C) (zero : C).
  Context (h : S -> C) (succ : P -> S -> list (S * A * C) * P) (guard : S -> S -> bool) (graph : bool).
  (** [RG] holds of path costs, [RF] of the keys of the frontier, [Q] of the states met. *)
  Context (RG RF : C -> Prop) (Q : S -> Prop).
  Hypothesis Hltb : forall a b, RF a -> RF b -> ltb a b = ltb' a b.
  Hypothesis Hkey : forall g s, RG g -> Q s -> RF (add g (h s)).
  Hypothesis Hzero : RG zero /\ RF zero.
  Hypothesis Hsucc : forall p s, Q s -> Forall (fun t => (forall g, RG g -> RG (add g (snd t))) /\ Q (fst (fst t))) (fst (succ p s)).

  (** Equal nodes, all of whose costs are as they should be. *)
  Inductive same : node S A C -> node S A C -> Prop :=
  | same_root s : Q s -> same (Root s) (Root s)
  | same_child s a g f p : Q s -> RG g -> RF f -> same p p -> same (Child s a g f p) (Child s a g f p).

  Lemma same_eq n n' : same n n' -> n = n'.
  Proof. now intros []. Qed.
  Lemma same_refl n n' : same n n' -> same n n.
  Proof. intros H. now rewrite <- (same_eq _ _ H) in H. Qed.
  Lemma same_q n n' : same n n' -> Q (n_state n).
  Proof. now intros []. Qed.
  Lemma same_g n n' : same n n' -> RG (n_g zero n).
  Proof. intros []; auto. apply Hzero. Qed.
  Lemma same_f n n' : same n n' -> RF (n_f zero n).
  Proof. intros []; auto. apply Hzero. Qed.

  Lemma same_cmp a a' b b' : same a a' -> same b b' -> n_cmp ltb zero a b = n_cmp ltb' zero a' b'.
  Proof.
    intros Ha Hb. rewrite <- (same_eq _ _ Ha), <- (same_eq _ _ Hb). unfold n_cmp. apply Hltb; eapply same_f; eauto.
  Qed.
  Lemma same_neq a a' b b' : same a a' -> same b b' -> n_eq eqs a b = n_eq eqs a' b'.
  Proof. intros Ha Hb. now rewrite <- (same_eq _ _ Ha), <- (same_eq _ _ Hb). Qed.

  Notation frr := (fr_rel _ _ same).
  Lemma push_same f f' x x' : frr f f' -> same x x' ->
    res_rel (fun r r' => frr (snd r) (snd r')) (f_push (n_cmp ltb zero) (n_eq eqs) x f) (f_push (n_cmp ltb' zero) (n_eq eqs) x' f').
  Proof. apply push_rel; [apply same_cmp|apply same_neq]. Qed.
  Lemma remove_same f f' x x' : frr f f' -> same x x' ->
    res_rel (fun r r' => frr (snd r) (snd r')) (f_remove (n_cmp ltb zero) (n_eq eqs) x f) (f_remove (n_cmp ltb' zero) (n_eq eqs) x' f').
  Proof. apply remove_rel; [apply same_cmp|apply same_neq]. Qed.

  Lemma contains_same e e' n n' : Forall2 same e e' -> same n n' -> e_contains eqs n e = e_contains eqs n' e'.
  Proof.
    intros H Hn. unfold e_contains. induction H as [|m m' e e' Hm He IH]; cbn; auto. now rewrite IH, (same_neq m m' n n').
  Qed.
  Lemma insert_same e e' n n' : Forall2 same e e' -> same n n' -> Forall2 same (e_insert eqs n e) (e_insert eqs n' e').
  Proof. intros H Hn. unfold e_insert. rewrite (contains_same _ _ _ _ H Hn). destruct (e_contains eqs n' e'); auto. Qed.

  Lemma shortcut_same fn fn' ch ch' f f' : same fn fn' -> same ch ch' -> frr f f' ->
    res_rel frr (shortcut eqs ltb zero guard fn ch f) (shortcut eqs ltb' zero guard fn' ch' f').
  Proof.
    intros Hfn Hch Hf. unfold shortcut. rewrite <- (same_eq _ _ Hfn), <- (same_eq _ _ Hch).
    destruct (guard _ _); [|exact Hf]. rewrite (Hltb _ _ (same_f _ _ Hch) (same_f _ _ Hfn)). destruct (ltb' _ _); [|exact Hf].
    eapply bind_rel; [apply remove_same; [exact Hf|eapply same_refl; eassumption]|]. intros [? f1] [? f1'] H1. cbn in H1.
    eapply bind_rel; [apply push_same; [exact H1|eapply same_refl; eassumption]|]. intros [? f2] [? f2'] H2. exact H2.
  Qed.

  Lemma expand_one_same n n' e e' f f' t : same n n' -> Forall2 same e e' -> frr f f' ->
    (forall g, RG g -> RG (add g (snd t))) /\ Q (fst (fst t)) ->
    res_rel frr (expand_one eqs ltb add zero h guard graph n e f t) (expand_one eqs ltb' add zero h guard graph n' e' f' t).
  Proof.
    intros Hn He Hf Ht. destruct t as [[s a] c]. destruct Ht as (Hc & Hq). cbn in Hc, Hq.
    unfold expand_one. rewrite <- (same_eq _ _ Hn). set (ch := Child s a _ _ n).
    assert (Hch : same ch ch).
    { pose proof (same_g _ _ Hn) as Hg. unfold ch. constructor; auto. eapply same_refl; eassumption. }
    assert (Hpush : res_rel frr (do (_, f1) <- f_push (n_cmp ltb zero) (n_eq eqs) ch f; Ok f1) (do (_, f1) <- f_push (n_cmp ltb' zero) (n_eq eqs) ch f'; Ok f1)).
    { eapply bind_rel; [now apply push_same|]. intros [? f1] [? f1'] H1. exact H1. }
    destruct graph; [|exact Hpush]. unfold f_find.
    pose proof (find_rel _ _ same _ _ same_neq (set f) (set f') ch ch (proj2 Hf) Hch) as F.
    destruct (set_find (n_eq eqs) ch (set f)), (set_find (n_eq eqs) ch (set f')); cbn in F; try contradiction.
    - now apply shortcut_same.
    - rewrite (contains_same _ _ _ _ He Hch). destruct (e_contains eqs ch e'); auto.
  Qed.

  Lemma expand_all_same n n' e e' ts : same n n' -> Forall2 same e e' ->
    Forall (fun t => (forall g, RG g -> RG (add g (snd t))) /\ Q (fst (fst t))) ts -> forall f f', frr f f' ->
    res_rel frr (expand_all eqs ltb add zero h guard graph n e f ts) (expand_all eqs ltb' add zero h guard graph n' e' f' ts).
  Proof.
    intros Hn He. induction 1 as [|t ts Ht Hts IH]; intros f f' Hf; cbn [expand_all]; [exact Hf|].
    eapply bind_rel; [now apply expand_one_same|]. intros f1 f1' H1. now apply IH.
  Qed.

  Definition same_search (st st' : search S A C P) : Prop :=
    frr (st_front st) (st_front st') /\ Forall2 same (st_expl st) (st_expl st') /\ st_prop st = st_prop st' /\ st_queried st = st_queried st'.

  Lemma F2_same l l' : Forall2 same l l' -> l = l'.
  Proof. induction 1 as [|a b l l' H1 H2 IH]; auto. now rewrite (same_eq _ _ H1), IH. Qed.
  Lemma same_search_eq st st' : same_search st st' -> st = st'.
  Proof.
    destruct st as [[v s] e p q], st' as [[v' s'] e' p' q']. intros ((H1 & H2) & H3 & H4 & H5). cbn in *.
    rewrite (F2_same _ _ H1), (F2_same _ _ H2), (F2_same _ _ H3). congruence.
  Qed.

  Lemma expand_same n n' st st' : same n n' -> same_search st st' ->
    res_rel same_search (expand eqs ltb add zero h succ guard graph n st) (expand eqs ltb' add zero h succ guard graph n' st').
  Proof.
    intros Hn (Hf & He & Hp & Hq). unfold expand. rewrite <- Hp, <- Hq. pose proof (Hsucc (st_prop st) (n_state n) (same_q _ _ Hn)) as Ht.
    rewrite <- (same_eq _ _ Hn). apply same_refl in Hn.
    destruct (succ (st_prop st) (n_state n)) as [ts p]. cbn [fst] in Ht.
    eapply bind_rel; [apply expand_all_same; auto; now apply insert_same|]. intros f1 f1' Hf1. cbn.
    split; [exact Hf1|]. split; [now apply insert_same|]. auto.
  Qed.

  Lemma init_same init p : Q init -> res_rel same_search (init_search eqs ltb zero init p) (init_search eqs ltb' zero init p).
  Proof.
    intros Hq. unfold init_search. eapply bind_rel; [apply push_same; [split; constructor|now constructor]|]. intros [? f] [? f'] Hf. cbn [res_rel].
    split; [exact Hf|]. split; [apply insert_same; constructor; auto|]. cbn. auto.
  Qed.
End One.

Section Both.
  Context {S A C Pf Pr : Type}.
  Context (eqs : S -> S -> bool) (ltb ltb' : C -> C -> bool) (add : C -> C -> C) (zero inf : C).
  Context (hf hr : S -> C) (succf : Pf -> S -> list (S * A * C) * Pf) (succr : Pr -> S -> list (S * A * C) * Pr) (graph : bool).
  Context (RG RF : C -> Prop) (Qf Qr : S -> Prop) (offset : C).
  Hypothesis Hltb : forall a b, RF a -> RF b -> ltb a b = ltb' a b.
  Hypothesis Hzero : RG zero /\ RF zero.
  Hypothesis Hkeyf : forall g s, RG g -> Qf s -> RF (add g (hf s)).
  Hypothesis Hkeyr : forall g s, RG g -> Qr s -> RF (add g (hr s)).
  Hypothesis Hsuccf : forall p s, Qf s -> Forall (fun t => (forall g, RG g -> RG (add g (snd t))) /\ Qf (fst (fst t))) (fst (succf p s)).
  Hypothesis Hsuccr : forall p s, Qr s -> Forall (fun t => (forall g, RG g -> RG (add g (snd t))) /\ Qr (fst (fst t))) (fst (succr p s)).
  (** The cost of two joined paths. *)
  Hypothesis Hjoin : forall a b, RG a -> RG b -> RF (add a b) /\ ltb' (add a b) inf = true /\ RF (add (add a b) offset).

  Notation frr Q := (fr_rel _ _ (same RG RF Q)).
  Notation ssr Q := (same_search RG RF Q).

  (** One search starts with no bound, the other with the bound [inf] that every joined path meets. *)
  Definition same_bi (b b' : bi S A C Pf Pr) : Prop :=
    ssr Qf (b_f b) (b_f b') /\ ssr Qr (b_r b) (b_r b') /\ b_sol b = b_sol b' /\
    (b_best b = None /\ b_best b' = Some inf /\ b_sol b = None \/
     exists x y, RG x /\ RG y /\ b_best b = Some (add x y) /\ b_best b' = Some (add x y)).

  Lemma pop_expand_same {P} (h : S -> C) (succ : P -> S -> list (S * A * C) * P) (Q : S -> Prop) st st' :
    (forall g s, RG g -> Q s -> RF (add g (h s))) ->
    (forall p s, Q s -> Forall (fun t => (forall g, RG g -> RG (add g (snd t))) /\ Q (fst (fst t))) (fst (succ p s))) ->
    ssr Q st st' ->
    res_rel (fun r r' => same RG RF Q (fst r) (fst r') /\ ssr Q (snd r) (snd r'))
      (pop_expand eqs ltb add zero graph h succ st) (pop_expand eqs ltb' add zero graph h succ st').
  Proof.
    intros Hk Hs (Hf & He & Hp & Hq). unfold pop_expand.
    eapply bind_rel; [apply (pop_rel _ _ (same RG RF Q) _ _ (same_neq eqs RG RF Q) _ _ Hf)|]. intros [n f] [n' f'] [Hn Hf']. cbn [fst snd] in *.
    eapply bind_rel; [eapply (expand_same eqs ltb ltb' add zero h succ _ graph RG RF Q); eauto|].
    - repeat split; auto; apply Hf'.
    - intros st1 st1' H1. cbn. auto.
  Qed.

  Lemma intersection_same (Q Q' : S -> Prop) (n : node S A C) e best best' : same RG RF Q n n -> Forall2 (same RG RF Q') e e ->
    (best = None /\ best' = Some inf \/ exists x y, RG x /\ RG y /\ best = Some (add x y) /\ best' = Some (add x y)) ->
    match find_intersection eqs ltb add zero n e best, find_intersection eqs ltb' add zero n e best' with
    | (c, Some m), (c', Some m') => m = m' /\ exists x y, RG x /\ RG y /\ c = Some (add x y) /\ c' = Some (add x y)
    | (c, None), (c', None) => c = best /\ c' = best'
    | _, _ => False
    end.
  Proof.
    intros Hn He Hb. unfold find_intersection. destruct (find _ e) as [m|] eqn:E; [|auto].
    apply find_some in E. destruct E as [E _].
    assert (Hm : same RG RF Q' m m).
    { clear -E He. induction e as [|x e IH]; [destruct E|]. inversion He; subst. destruct E as [->|E]; auto. }
    pose proof (same_g zero RG RF Q Hzero n n Hn) as Gn. pose proof (same_g zero RG RF Q' Hzero m m Hm) as Gm.
    destruct (Hjoin _ _ Gn Gm) as (J1 & J2 & J3).
    destruct Hb as [[-> ->]|(x & y & Hx & Hy & -> & ->)]; unfold lt_best.
    - cbv beta iota zeta. rewrite J2. split; auto. exists (n_g zero n), (n_g zero m). auto.
    - cbv beta iota zeta. rewrite (Hltb _ _ J1 (proj1 (Hjoin _ _ Hx Hy))). destruct (ltb' (add (n_g zero n) (n_g zero m)) (add x y)); [|now split]. split; auto. exists (n_g zero n), (n_g zero m). auto.
  Qed.

  Lemma forward_same b b' : same_bi b b' ->
    res_rel same_bi (forward eqs ltb add zero hf succf graph b) (forward eqs ltb' add zero hf succf graph b').
  Proof.
    intros (Hf & Hr & Hs & Hb). unfold forward.
    eapply bind_rel; [apply (pop_expand_same hf succf Qf); eauto|]. intros [n f] [n' f'] [Hn Hf']. cbn [fst snd] in *.
    pose proof (same_eq _ _ _ _ _ Hn) as <-. pose proof (proj1 (proj2 Hr)) as He. rewrite <- (F2_same _ _ _ _ _ He) in He |- *.
    assert (Hb' : b_best b = None /\ b_best b' = Some inf \/ exists x y, RG x /\ RG y /\ b_best b = Some (add x y) /\ b_best b' = Some (add x y)) by tauto.
    pose proof (intersection_same Qf Qr n _ _ _ Hn He Hb') as J.
    destruct (find_intersection eqs ltb _ _ _ _ _) as [c [m|]], (find_intersection eqs ltb' _ _ _ _ _) as [c' [m'|]]; try contradiction; cbn.
    - destruct J as [<- J]. split; [exact Hf'|]. split; [exact Hr|]. split; [reflexivity|]. right. exact J.
    - destruct J as [-> ->]. split; [exact Hf'|]. split; [exact Hr|]. split; [exact Hs|]. exact Hb.
  Qed.

  Lemma backward_same b b' : same_bi b b' ->
    res_rel same_bi (backward eqs ltb add zero hr succr graph b) (backward eqs ltb' add zero hr succr graph b').
  Proof.
    intros (Hf & Hr & Hs & Hb). unfold backward.
    eapply bind_rel; [apply (pop_expand_same hr succr Qr); eauto|]. intros [n f] [n' f'] [Hn Hf']. cbn [fst snd] in *.
    pose proof (same_eq _ _ _ _ _ Hn) as <-. pose proof (proj1 (proj2 Hf)) as He. rewrite <- (F2_same _ _ _ _ _ He) in He |- *.
    assert (Hb' : b_best b = None /\ b_best b' = Some inf \/ exists x y, RG x /\ RG y /\ b_best b = Some (add x y) /\ b_best b' = Some (add x y)) by tauto.
    pose proof (intersection_same Qr Qf n _ _ _ Hn He Hb') as J.
    destruct (find_intersection eqs ltb _ _ _ _ _) as [c [m|]], (find_intersection eqs ltb' _ _ _ _ _) as [c' [m'|]]; try contradiction; cbn.
    - destruct J as [<- J]. split; [exact Hf|]. split; [exact Hf'|]. split; [reflexivity|]. right. exact J.
    - destruct J as [-> ->]. split; [exact Hf|]. split; [exact Hf'|]. split; [exact Hs|]. exact Hb.
  Qed.

  Lemma either_same b b' : same_bi b b' -> either_empty b = either_empty b'.
  Proof. intros (Hf & Hr & _). unfold either_empty. now rewrite (same_search_eq _ _ _ _ _ Hf), (same_search_eq _ _ _ _ _ Hr). Qed.

  Lemma top_same (Q : S -> Prop) (f f' : frontier (node S A C)) : frr Q f f' -> res_rel (same RG RF Q) (f_top f) (f_top f').
  Proof. intros [Hv _]. unfold f_top. pose proof (rev_rel _ _ _ _ _ Hv) as H. destruct H; cbn; auto. Qed.

  Lemma finished_same b b' : same_bi b b' -> finished ltb add zero offset b = finished ltb' add zero offset b'.
  Proof.
    intros Hb. pose proof (either_same _ _ Hb) as E. destruct Hb as (Hf & Hr & Hs & Hb). unfold finished. rewrite E, <- Hs.
    destruct (b_sol b) as [sol|]; auto. destruct (either_empty b'); auto.
    pose proof (top_same Qf _ _ (proj1 Hf)) as Tf. destruct (f_top (st_front (b_f b))) as [x| | |], (f_top (st_front (b_f b'))) as [x'| | |]; cbn in Tf; try contradiction; auto. cbn [bind].
    pose proof (top_same Qr _ _ (proj1 Hr)) as Tr. destruct (f_top (st_front (b_r b))) as [y| | |], (f_top (st_front (b_r b'))) as [y'| | |]; cbn in Tr; try contradiction; auto. cbn [bind].
    rewrite <- (same_eq _ _ _ _ _ Tf), <- (same_eq _ _ _ _ _ Tr).
    destruct Hb as [(_ & _ & Hn)|(u & v & Hu & Hv & -> & ->)]; [discriminate|].
    pose proof (same_g zero RG RF Qf Hzero _ _ Tf) as Gx. pose proof (same_g zero RG RF Qr Hzero _ _ Tr) as Gy.
    rewrite (Hltb _ _ (proj1 (Hjoin _ _ Gx Gy)) (proj2 (proj2 (Hjoin _ _ Hu Hv)))). reflexivity.
  Qed.

  Lemma bi_loop_same fuel : forall b b', same_bi b b' ->
    res_rel (fun r r' => fst r = fst r' /\ same_bi (snd r) (snd r'))
      (bi_loop eqs ltb add zero hf hr succf succr graph fuel offset b) (bi_loop eqs ltb' add zero hf hr succf succr graph fuel offset b').
  Proof.
    induction fuel as [|fuel IH]; intros b b' Hb; cbn [bi_loop]; [exact I|].
    rewrite (either_same _ _ Hb). destruct (either_empty b'); [now split|].
    eapply bind_rel; [now apply forward_same|]. intros b1 b1' H1.
    eapply bind_rel; [now apply backward_same|]. intros b2 b2' H2.
    rewrite (finished_same _ _ H2). destruct (finished ltb' add zero offset b2') as [[|]| | |]; cbn; auto.
  Qed.

  Lemma bi_search_same fuel init goal pf pr : Qf init -> Qr goal ->
    res_rel (fun r r' => fst r = fst r' /\ same_bi (snd r) (snd r'))
      (do f <- init_search eqs ltb zero init pf; do r <- init_search eqs ltb zero goal pr;
       bi_loop eqs ltb add zero hf hr succf succr graph fuel offset (Bi f r None None))
      (do f <- init_search eqs ltb' zero init pf; do r <- init_search eqs ltb' zero goal pr;
       bi_loop eqs ltb' add zero hf hr succf succr graph fuel offset (Bi f r (Some inf) None)).
  Proof.
    intros Hi Hg. eapply bind_rel; [now apply (init_same eqs ltb ltb' zero RG RF Qf)|]. intros f f' Hf.
    eapply bind_rel; [now apply (init_same eqs ltb ltb' zero RG RF Qr)|]. intros r r' Hr.
    apply bi_loop_same. split; [exact Hf|]. split; [exact Hr|]. split; [reflexivity|]. left. auto.
  Qed.
End Both.
