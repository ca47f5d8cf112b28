(** The bidirectional search only looks at costs through comparison and addition: on related costs it takes the same decisions. *)
From Verif Require Import Base Frontier_model FrontierRel_proofs AStar_model AStar_spec AStar_proofs SearchRel_proofs Bidir_model.

Section Both.
  Context {S A C C' Pf Pr : Type}.
  Context (eqs : S -> S -> bool) (ltb : C -> C -> bool) (add : C -> C -> C) (zero : C) (ltb' : C' -> C' -> bool) (add' : C' -> C' -> C') (zero' : C').
  Context (hf hr : S -> C) (succf : Pf -> S -> list (S * A * C) * Pf) (succr : Pr -> S -> list (S * A * C) * Pr).
  Context (hf' hr' : S -> C') (succf' : Pf -> S -> list (S * A * C') * Pf) (succr' : Pr -> S -> list (S * A * C') * Pr) (graph : bool).
  Context (RC : C -> C' -> Prop) (Qf Qr : S -> Prop).
  Hypothesis Hltb : forall a a' b b', RC a a' -> RC b b' -> ltb a b = ltb' a' b'.
  Hypothesis Hadd : forall a a' b b', RC a a' -> RC b b' -> RC (add a b) (add' a' b').
  Hypothesis Hzero : RC zero zero'.
  Hypothesis Hhf : forall s, Qf s -> RC (hf s) (hf' s).
  Hypothesis Hhr : forall s, Qr s -> RC (hr s) (hr' s).
  Hypothesis Hsf : forall p s, Qf s -> Forall2 (offer_rel RC Qf) (fst (succf p s)) (fst (succf' p s)) /\ snd (succf p s) = snd (succf' p s).
  Hypothesis Hsr : forall p s, Qr s -> Forall2 (offer_rel RC Qr) (fst (succr p s)) (fst (succr' p s)) /\ snd (succr p s) = snd (succr' p s).

  Definition bi_rel (b : bi S A C Pf Pr) (b' : bi S A C' Pf Pr) : Prop :=
    search_rel RC Qf (b_f b) (b_f b') /\ search_rel RC Qr (b_r b) (b_r b') /\ opt_rel _ _ RC (b_best b) (b_best b') /\
    opt_rel _ _ (fun p p' => node_rel RC Qf (fst p) (fst p') /\ node_rel RC Qr (snd p) (snd p')) (b_sol b) (b_sol b').

  Lemma pop_expand_rel {P} (h : S -> C) (h' : S -> C') (succ : P -> S -> list (S * A * C) * P) (succ' : P -> S -> list (S * A * C') * P) (Q : S -> Prop) st st' :
    (forall s, Q s -> RC (h s) (h' s)) ->
    (forall p s, Q s -> Forall2 (offer_rel RC Q) (fst (succ p s)) (fst (succ' p s)) /\ snd (succ p s) = snd (succ' p s)) ->
    search_rel RC Q st st' ->
    res_rel (fun r r' => node_rel RC Q (fst r) (fst r') /\ search_rel RC Q (snd r) (snd r'))
      (pop_expand eqs ltb add zero graph h succ st) (pop_expand eqs ltb' add' zero' graph h' succ' st').
  Proof.
    intros Hh Hs (Hf & He & Hp & Hq). unfold pop_expand.
    eapply bind_rel; [apply (pop_rel _ _ (node_rel RC Q) _ _ (rel_eq eqs RC Q) _ _ Hf)|]. intros [n f] [n' f'] [Hn Hf']. cbn [fst snd] in *.
    eapply bind_rel; [eapply (expand_rel eqs ltb add zero ltb' add' zero' h succ h' succ' _ graph RC Q); eauto|].
    - repeat split; auto; apply Hf'.
    - intros st1 st1' H1. cbn. auto.
  Qed.

  Lemma intersection_rel (Q Q' : S -> Prop) (n : node S A C) (n' : node S A C') e e' best best' : node_rel RC Q n n' -> Forall2 (node_rel RC Q') e e' ->
    opt_rel _ _ RC best best' ->
    opt_rel _ _ RC (fst (find_intersection eqs ltb add zero n e best)) (fst (find_intersection eqs ltb' add' zero' n' e' best')) /\
    opt_rel _ _ (node_rel RC Q') (snd (find_intersection eqs ltb add zero n e best)) (snd (find_intersection eqs ltb' add' zero' n' e' best')).
  Proof.
    intros Hn He Hb. unfold find_intersection.
    assert (F : opt_rel _ _ (node_rel RC Q') (find (fun m => eqs (n_state m) (n_state n)) e) (find (fun m => eqs (n_state m) (n_state n')) e')).
    { induction He as [|m m' e e' Hm He IH]; cbn; auto. rewrite (proj1 (rel_state _ _ _ _ Hm)), (proj1 (rel_state _ _ _ _ Hn)) in *.
      destruct (eqs (n_state m') (n_state n')); auto. }
    destruct (find _ e) as [m|], (find _ e') as [m'|]; cbn in F; try contradiction; [|now split].
    assert (J : RC (add (n_g zero n) (n_g zero m)) (add' (n_g zero' n') (n_g zero' m'))).
    { apply Hadd; [apply (rel_g zero zero' RC Q Hzero)|apply (rel_g zero zero' RC Q' Hzero)]; assumption. }
    cbv zeta. destruct best as [x|], best' as [x'|]; cbn in Hb; try contradiction; unfold lt_best.
    - rewrite (Hltb _ _ _ _ J Hb). destruct (ltb' _ _); split; auto; exact I.
    - split; auto.
  Qed.

  Lemma forward_rel b b' : bi_rel b b' ->
    res_rel bi_rel (forward eqs ltb add zero hf succf graph b) (forward eqs ltb' add' zero' hf' succf' graph b').
  Proof.
    intros (Hf & Hr & Hb & Hs). unfold forward.
    eapply bind_rel; [apply (pop_expand_rel hf hf' succf succf' Qf); eauto|]. intros [n f] [n' f'] [Hn Hf']. cbn [fst snd] in *.
    destruct (intersection_rel Qf Qr n n' _ _ _ _ Hn (proj1 (proj2 Hr)) Hb) as [J1 J2].
    destruct (find_intersection eqs ltb _ _ _ _ _) as [c m], (find_intersection eqs ltb' _ _ _ _ _) as [c' m']. cbn [fst snd] in *. cbn.
    split; [exact Hf'|]. split; [exact Hr|]. split; [exact J1|]. cbn [b_sol]. destruct m as [m|], m' as [m'|]; cbn in J2; try contradiction; cbn; auto.
  Qed.

  Lemma backward_rel b b' : bi_rel b b' ->
    res_rel bi_rel (backward eqs ltb add zero hr succr graph b) (backward eqs ltb' add' zero' hr' succr' graph b').
  Proof.
    intros (Hf & Hr & Hb & Hs). unfold backward.
    eapply bind_rel; [apply (pop_expand_rel hr hr' succr succr' Qr); eauto|]. intros [n f] [n' f'] [Hn Hf']. cbn [fst snd] in *.
    destruct (intersection_rel Qr Qf n n' _ _ _ _ Hn (proj1 (proj2 Hf)) Hb) as [J1 J2].
    destruct (find_intersection eqs ltb _ _ _ _ _) as [c m], (find_intersection eqs ltb' _ _ _ _ _) as [c' m']. cbn [fst snd] in *. cbn.
    split; [exact Hf|]. split; [exact Hf'|]. split; [exact J1|]. cbn [b_sol]. destruct m as [m|], m' as [m'|]; cbn in J2; try contradiction; cbn; auto.
  Qed.

  Lemma either_rel b b' : bi_rel b b' -> either_empty b = either_empty b'.
  Proof.
    intros (Hf & Hr & _). unfold either_empty.
    now rewrite (is_empty_rel _ _ _ _ _ (proj1 Hf)), (is_empty_rel _ _ _ _ _ (proj1 Hr)).
  Qed.

  Lemma top_rel (Q : S -> Prop) (f : frontier (node S A C)) (f' : frontier (node S A C')) : fr_rel _ _ (node_rel RC Q) f f' -> res_rel (node_rel RC Q) (f_top f) (f_top f').
  Proof. intros [Hv _]. unfold f_top. pose proof (rev_rel _ _ _ _ _ Hv) as H. destruct H; cbn; auto. Qed.

  Lemma finished_rel o o' b b' : RC o o' -> bi_rel b b' -> finished ltb add zero o b = finished ltb' add' zero' o' b'.
  Proof.
    intros Ho Hb. pose proof (either_rel _ _ Hb) as E. destruct Hb as (Hf & Hr & Hb & Hs). unfold finished. rewrite E.
    destruct (b_sol b) as [sol|], (b_sol b') as [sol'|]; cbn in Hs; try contradiction; auto. destruct (either_empty b'); auto.
    pose proof (top_rel Qf _ _ (proj1 Hf)) as Tf. destruct (f_top (st_front (b_f b))) as [x| | |], (f_top (st_front (b_f b'))) as [x'| | |]; cbn in Tf; try contradiction; auto. cbn [bind].
    pose proof (top_rel Qr _ _ (proj1 Hr)) as Tr. destruct (f_top (st_front (b_r b))) as [y| | |], (f_top (st_front (b_r b'))) as [y'| | |]; cbn in Tr; try contradiction; auto. cbn [bind].
    destruct (b_best b) as [c|], (b_best b') as [c'|]; cbn in Hb; try contradiction; auto. do 2 f_equal.
    apply Hltb; apply Hadd; auto; [apply (rel_g zero zero' RC Qf Hzero)|apply (rel_g zero zero' RC Qr Hzero)]; assumption.
  Qed.

  Lemma bi_loop_rel fuel o o' : RC o o' -> forall b b', bi_rel b b' ->
    res_rel (fun r r' => fst r = fst r' /\ bi_rel (snd r) (snd r'))
      (bi_loop eqs ltb add zero hf hr succf succr graph fuel o b) (bi_loop eqs ltb' add' zero' hf' hr' succf' succr' graph fuel o' b').
  Proof.
    intros Ho. induction fuel as [|fuel IH]; intros b b' Hb; cbn [bi_loop]; [exact I|].
    rewrite (either_rel _ _ Hb). destruct (either_empty b'); [now split|].
    eapply bind_rel; [now apply forward_rel|]. intros b1 b1' H1.
    eapply bind_rel; [now apply backward_rel|]. intros b2 b2' H2.
    rewrite (finished_rel _ _ _ _ Ho H2). destruct (finished ltb' add' zero' o' b2') as [[|]| | |]; cbn; auto.
  Qed.

  Lemma init_rel {P} (Q : S -> Prop) s (p : P) : Q s ->
    res_rel (search_rel (A := A) RC Q) (init_search eqs ltb zero s p) (init_search eqs ltb' zero' s p).
  Proof.
    intros Hq. unfold init_search.
    eapply bind_rel; [apply (push_rel' eqs ltb zero ltb' zero' RC Q Hltb Hzero); [split; constructor|now constructor]|]. intros [? f] [? f'] Hf. cbn [res_rel].
    split; [exact Hf|]. split; [apply insert_rel; constructor; auto|]. cbn. auto.
  Qed.

  Lemma bi_search_rel fuel init goal pf pr : Qf init -> Qr goal -> RC (add (hf goal) (hr goal)) (add' (hf' goal) (hr' goal)) ->
    res_rel (fun r r' => fst r = fst r' /\ bi_rel (snd r) (snd r'))
      (bi_search eqs ltb add zero hf hr succf succr graph fuel init goal pf pr)
      (bi_search eqs ltb' add' zero' hf' hr' succf' succr' graph fuel init goal pf pr).
  Proof.
    intros Hi Hg Ho. unfold bi_search. eapply bind_rel; [now apply (init_rel Qf)|]. intros f f' Hf.
    eapply bind_rel; [now apply (init_rel Qr)|]. intros r r' Hr.
    apply bi_loop_rel; [exact Ho|]. split; [exact Hf|]. split; [exact Hr|]. cbn. auto.
  Qed.
End Both.
