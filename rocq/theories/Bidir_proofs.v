From Verif Require Import Base Frontier_model Frontier_spec Frontier_proofs AStar_model AStar_spec AStar_proofs
  AStar_opt_proofs Bidir_model.

(** ** One step of a unidirectional search *)
Section Step.
  Context {S A C P : Type} (eqs : S -> S -> bool) (ltb : C -> C -> bool) (add : C -> C -> C) (zero : C).
  Context (h : S -> C) (succ : P -> S -> list (S * A * C) * P) (graph : bool).
  Context (Heqs : equivalence S eqs) (Hlt : strict_weak_order C ltb).
  Notation neq := (@n_eq S A C eqs).
  Notation finv := (finv (@n_cmp S A C ltb zero) neq).
  Notation upds := (upds eqs ltb add zero h (fun _ _ => true) graph).

  Definition sstep (st : search S A C P) (n : node S A C) (st' : search S A C P) : Prop :=
    exists fr fr' p,
      finv fr /\ In n (vec (st_front st)) /\
      (forall y, In y (vec (st_front st)) -> leb ltb (n_f zero n) (n_f zero y)) /\
      (forall y, In y (vec (st_front st)) <-> y = n \/ In y (vec fr)) /\
      (forall y, In y (vec fr) -> neq n y = false) /\
      finv fr' /\
      upds n (e_insert eqs n (st_expl st)) (fst (succ (st_prop st) (n_state n))) (vec fr) (vec fr') /\
      st' = Search fr' (e_insert eqs n (st_expl st)) p (n_state n :: st_queried st).

  Lemma pop_expand_step st : finv (st_front st) -> f_is_empty (st_front st) = false ->
    exists n st', pop_expand eqs ltb add zero graph h succ st = Ok (n, st') /\ sstep st n st'.
  Proof.
    intros Hf He. destruct (pop_some eqs ltb add zero Heqs Hlt (st_front st) Hf He) as (n & fr & Hp & Hfr & Hn & Hmin & Hmem & Hne).
    unfold pop_expand. rewrite Hp. cbn [bind].
    destruct (expand_upds eqs ltb add zero h succ (fun _ _ => true) graph Heqs Hlt n
      (Search fr (st_expl st) (st_prop st) (st_queried st))) as (fr' & p & Hex & Hfr' & Hu); auto.
    rewrite Hex. cbn [bind st_front st_expl st_prop st_queried] in *. eexists n, _. split; [reflexivity|].
    exists fr, fr', p. repeat (split; [assumption|]). reflexivity.
  Qed.

  Lemma sstep_expl st n st' : sstep st n st' -> st_expl st' = e_insert eqs n (st_expl st).
  Proof. intros (fr & fr' & p & _ & _ & _ & _ & _ & _ & _ & ->). reflexivity. Qed.
  Lemma sstep_queried st n st' : sstep st n st' -> st_queried st' = n_state n :: st_queried st.
  Proof. intros (fr & fr' & p & _ & _ & _ & _ & _ & _ & _ & ->). reflexivity. Qed.
  Lemma sstep_finv st n st' : sstep st n st' -> finv (st_front st').
  Proof. intros (fr & fr' & p & _ & _ & _ & _ & _ & Hf & _ & ->). exact Hf. Qed.
  Lemma sstep_In st n st' : sstep st n st' -> In n (vec (st_front st)).
  Proof. intros (fr & fr' & p & _ & Hf & _). exact Hf. Qed.

  Lemma sstep_sound init st n st' : inv_sound eqs ltb add zero h succ init st -> sstep st n st' ->
    inv_sound eqs ltb add zero h succ init st'.
  Proof.
    intros Hi (fr & fr' & p & H1 & H2 & H3 & H4 & H5 & H6 & H7 & ->).
    eapply (inv_sound_step eqs ltb add zero h succ (fun _ => false) (fun _ _ => true) graph init st n fr); eauto.
  Qed.

  Lemma sstep_once init st n st' : graph = true -> inv_once eqs ltb add zero h succ init st -> sstep st n st' ->
    inv_once eqs ltb add zero h succ init st'.
  Proof.
    intros Hg Hi (fr & fr' & p & H1 & H2 & H3 & H4 & H5 & H6 & H7 & ->).
    eapply (inv_once_step eqs ltb add zero h succ (fun _ => false) _ graph Heqs init Hg st n fr); eauto.
  Qed.

  Lemma top_min fr : finv fr -> f_is_empty fr = false -> exists x, f_top fr = Ok x /\ In x (vec fr) /\
    forall y, In y (vec fr) -> leb ltb (n_f zero x) (n_f zero y).
  Proof.
    intros Hf He. destruct (pop_some eqs ltb add zero Heqs Hlt fr Hf He) as (n & fr' & Hp & _ & Hn & Hmin & _).
    unfold f_pop in Hp. destruct (f_top fr) as [x| | |]; try discriminate. cbn [bind] in Hp.
    assert (x = n) by congruence. subst. eauto.
  Qed.
End Step.

Section StepOpt.
  Context {S A C P : Type} (eqs : S -> S -> bool) (ltb : C -> C -> bool) (add : C -> C -> C) (zero : C).
  Context (h : S -> C) (succ : P -> S -> list (S * A * C) * P) (nb : S -> list (S * A * C)).
  Context (Heq : decides_eq eqs) (Hdet : deterministic succ nb).

  Lemma sstep_cover graph init st n st' :
    inv_cover eqs ltb zero (fun _ => false) nb init st ->
    sstep eqs ltb add zero h succ graph st n st' -> inv_cover eqs ltb zero (fun _ => false) nb init st'.
  Proof.
    intros Hi (fr & fr' & p & H1 & H2 & H3 & H4 & H5 & H6 & H7 & ->).
    eapply (inv_cover_step eqs ltb add zero h succ (fun _ => false) (fun _ _ => true) graph nb Heq Hdet init st n fr); eauto.
  Qed.

  Lemma sstep_opt init st n st' : cost_laws ltb add -> consistent_from succ ltb add h init -> cancellable ltb add h ->
    inv_opt eqs ltb add zero h succ nb init st -> sstep eqs ltb add zero h succ true st n st' ->
    inv_opt eqs ltb add zero h succ nb init st'.
  Proof.
    intros Hc Hcons Hcan Hi (fr & fr' & p & H1 & H2 & H3 & H4 & H5 & H6 & H7 & ->).
    eapply (inv_opt_step eqs ltb add zero h succ (fun _ => false) nb Heq Hc Hdet init Hcons Hcan st n fr); eauto.
  Qed.
End StepOpt.

(** ** Induction over the loop *)
Section BiInd.
  Context {S A C Pf Pr : Type} (eqs : S -> S -> bool) (ltb : C -> C -> bool) (add : C -> C -> C) (zero : C).
  Context (hf hr : S -> C) (succf : Pf -> S -> list (S * A * C) * Pf) (succr : Pr -> S -> list (S * A * C) * Pr)
    (graph : bool).
  Context (Heqs : equivalence S eqs) (Hlt : strict_weak_order C ltb).
  Notation node := (node S A C).
  Notation finv := (finv (@n_cmp S A C ltb zero) (@n_eq S A C eqs)).
  Notation stepf := (sstep eqs ltb add zero hf succf graph).
  Notation stepr := (sstep eqs ltb add zero hr succr graph).
  Notation meet := (@find_intersection S A C eqs ltb add zero).

  Variable J : bi S A C Pf Pr -> Prop.
  Hypothesis J_finv : forall b, J b -> finv (st_front (b_f b)) /\ finv (st_front (b_r b)).
  Hypothesis J_fwd : forall f r best sol n f', J (Bi f r best sol) -> stepf f n f' ->
    J (Bi f' r (fst (meet n (st_expl r) best))
          (match snd (meet n (st_expl r) best) with Some m => Some (n, m) | None => sol end)).
  Hypothesis J_rev : forall f r best sol n r', J (Bi f r best sol) -> st_queried f <> [] -> stepr r n r' ->
    J (Bi f r' (fst (meet n (st_expl f) best))
          (match snd (meet n (st_expl f) best) with Some m => Some (m, n) | None => sol end)).

  Lemma iteration_ok b : J b -> either_empty b = false ->
    exists b1 b2, forward eqs ltb add zero hf succf graph b = Ok b1 /\ backward eqs ltb add zero hr succr graph b1 = Ok b2 /\
      J b2 /\ (exists s, st_queried (b_f b2) = s :: st_queried (b_f b)) /\ (exists s, st_queried (b_r b2) = s :: st_queried (b_r b)).
  Proof.
    intros Hb He. destruct b as [f r best sol]. unfold either_empty in He. cbn [b_f b_r] in He.
    apply orb_false_iff in He as [Hef Her]. destruct (J_finv _ Hb) as [Hff Hfr]. cbn [b_f b_r] in *.
    destruct (pop_expand_step eqs ltb add zero hf succf graph Heqs Hlt f Hff Hef) as (n & f' & Hp & Hs).
    assert (H1 := J_fwd _ _ _ _ _ _ Hb Hs).
    unfold forward. cbn [b_f b_r b_best b_sol]. rewrite Hp. cbn [bind].
    destruct (meet n (st_expl r) best) as [best1 m1] eqn:E1. cbn [fst snd] in H1.
    destruct (pop_expand_step eqs ltb add zero hr succr graph Heqs Hlt r Hfr Her) as (n' & r' & Hp' & Hs').
    assert (Hq : st_queried f' <> []) by (rewrite (sstep_queried _ _ _ _ _ _ _ _ _ _ Hs); discriminate).
    assert (H2 := J_rev _ _ _ _ _ _ H1 Hq Hs').
    destruct (meet n' (st_expl f') best1) as [best2 m2] eqn:E2. cbn [fst snd] in H2.
    eexists _, _. split; [reflexivity|].
    unfold backward. cbn [b_f b_r b_best b_sol]. rewrite Hp'. cbn [bind]. rewrite E2.
    split; [reflexivity|]. split; [exact H2|]. cbn [b_f b_r].
    rewrite (sstep_queried _ _ _ _ _ _ _ _ _ _ Hs), (sstep_queried _ _ _ _ _ _ _ _ _ _ Hs'). eauto.
  Qed.

  Lemma finished_ok offset b : J b -> exists fin, finished ltb add zero offset b = Ok fin /\
    (b_sol b <> None -> either_empty b = true -> fin = true) /\
    (fin = true -> b_sol b <> None /\
      (either_empty b = true \/ exists ft rt best, b_best b = Some best /\
         In ft (vec (st_front (b_f b))) /\ In rt (vec (st_front (b_r b))) /\
         (forall y, In y (vec (st_front (b_f b))) -> leb ltb (n_f zero ft) (n_f zero y)) /\
         (forall y, In y (vec (st_front (b_r b))) -> leb ltb (n_f zero rt) (n_f zero y)) /\
         leb ltb (add best offset) (add (n_g zero ft) (n_g zero rt)))).
  Proof.
    intros Hb. destruct (J_finv _ Hb) as [Hff Hfr]. unfold finished. destruct (b_sol b) as [sol|].
    - destruct (either_empty b) eqn:Ee.
      + exists true. split; auto. split; [auto|]. intros _. split; [discriminate|]. auto.
      + pose proof Ee as Ee'. unfold either_empty in Ee'. apply orb_false_iff in Ee' as [Hef Her].
        destruct (top_min eqs ltb add zero Heqs Hlt _ Hff Hef) as (ft & Htf & Hinf & Hminf).
        destruct (top_min eqs ltb add zero Heqs Hlt _ Hfr Her) as (rt & Htr & Hinr & Hminr).
        rewrite Htf, Htr. cbn [bind]. eexists. split; [reflexivity|].
        split; [congruence|]. destruct (b_best b) as [best|]; [|discriminate].
        intros Hfin. split; [discriminate|]. right. exists ft, rt, best. repeat (split; [auto|]).
        unfold leb. now destruct (ltb (add (n_g zero ft) (n_g zero rt)) (add best offset)).
    - exists false. split; auto. split; [congruence|discriminate].
  Qed.

  Lemma bi_loop_ind offset fuel : forall b ok b', J b -> (b_sol b <> None -> either_empty b = false) ->
    bi_loop eqs ltb add zero hf hr succf succr graph fuel offset b = Ok (ok, b') ->
    J b' /\
    if ok then
      st_queried (b_f b') <> [] /\ st_queried (b_r b') <> [] /\ b_sol b' <> None /\
      (either_empty b' = true \/ exists ft rt best, b_best b' = Some best /\
         In ft (vec (st_front (b_f b'))) /\ In rt (vec (st_front (b_r b'))) /\
         (forall y, In y (vec (st_front (b_f b'))) -> leb ltb (n_f zero ft) (n_f zero y)) /\
         (forall y, In y (vec (st_front (b_r b'))) -> leb ltb (n_f zero rt) (n_f zero y)) /\
         leb ltb (add best offset) (add (n_g zero ft) (n_g zero rt)))
    else b_sol b' = None /\ either_empty b' = true.
  Proof.
    induction fuel as [|fuel IH]; intros b ok b' Hb Hsol H; [discriminate|].
    cbn [bi_loop] in H. destruct (either_empty b) eqn:Ee.
    - injection H as <- <-. split; auto. split; auto. destruct (b_sol b); auto.
      assert (true = false) by (apply Hsol; discriminate). discriminate.
    - destruct (iteration_ok b Hb Ee) as (b1 & b2 & H1 & H2 & Hb2 & (sf & Hqf) & (sr & Hqr)).
      rewrite H1 in H. cbn [bind] in H. rewrite H2 in H. cbn [bind] in H.
      destruct (finished_ok offset b2 Hb2) as (fin & H3 & Hfin1 & Hfin2). rewrite H3 in H. cbn [bind] in H.
      destruct fin.
      + injection H as <- <-. split; auto. split; [congruence|]. split; [congruence|]. auto.
      + apply (IH b2); auto. intros Hs. destruct (either_empty b2); auto. specialize (Hfin1 Hs eq_refl). discriminate.
  Qed.

  Lemma bi_loop_no_ub offset fuel : forall b, J b ->
    match bi_loop eqs ltb add zero hf hr succf succr graph fuel offset b with
    | Ok _ => True | NoFuel => True | UB => False | Throw => False end.
  Proof.
    induction fuel as [|fuel IH]; intros b Hb; cbn [bi_loop]; auto.
    destruct (either_empty b) eqn:Ee; auto.
    destruct (iteration_ok b Hb Ee) as (b1 & b2 & -> & H2 & Hb2 & _). cbn [bind]. rewrite H2. cbn [bind].
    destruct (finished_ok offset b2 Hb2) as (fin & -> & _). cbn [bind]. destruct fin; auto. now apply IH.
  Qed.

  Lemma bi_loop_ends offset N : (forall b, J b -> length (st_queried (b_f b)) <= N) -> forall fuel b, J b ->
    N < length (st_queried (b_f b)) + fuel ->
    exists ok b', bi_loop eqs ltb add zero hf hr succf succr graph fuel offset b = Ok (ok, b').
  Proof.
    intros HN. induction fuel as [|fuel IH]; intros b Hb Hl.
    - specialize (HN b Hb). lia.
    - cbn [bi_loop]. destruct (either_empty b) eqn:Ee; [eauto|].
      destruct (iteration_ok b Hb Ee) as (b1 & b2 & -> & H2 & Hb2 & (s & Hq) & _). cbn [bind]. rewrite H2. cbn [bind].
      destruct (finished_ok offset b2 Hb2) as (fin & -> & _). cbn [bind]. destruct fin; [eauto|].
      apply IH; auto. rewrite Hq. cbn [length]. lia.
  Qed.
End BiInd.

(** ** What FindIntersection does *)
Section Meet.
  Context {S A C : Type} (eqs : S -> S -> bool) (ltb : C -> C -> bool) (add : C -> C -> C) (zero : C).
  Context (Heqs : equivalence S eqs) (Hlt : strict_weak_order C ltb).
  Notation meet := (@find_intersection S A C eqs ltb add zero).

  Lemma leb_trans a b c : leb ltb a b -> leb ltb b c -> leb ltb a c.
  Proof. unfold leb. intros H1 H2. eapply (swo_incomp _ _ Hlt); eauto. Qed.
  Lemma leb_refl a : leb ltb a a.
  Proof. apply (swo_irrefl _ _ Hlt). Qed.
  Lemma ltb_leb a b : ltb a b = true -> leb ltb a b.
  Proof.
    unfold leb. intros H. destruct (ltb b a) eqn:E; auto.
    pose proof (swo_trans _ _ Hlt _ _ _ H E). rewrite (swo_irrefl _ _ Hlt) in *. congruence.
  Qed.

  (** A new pair is a meeting pair and its cost is recorded. *)
  Lemma meet_new n e best m : snd (meet n e best) = Some m ->
    In m e /\ eqs (n_state m) (n_state n) = true /\ fst (meet n e best) = Some (add (n_g zero n) (n_g zero m)).
  Proof.
    unfold find_intersection. destruct (find _ e) as [m'|] eqn:E; cbn; [|discriminate].
    apply find_some in E as [E1 E2]. destruct (lt_best ltb _ best); cbn; [|discriminate]. intros H. injection H as <-. auto.
  Qed.
  Lemma meet_old n e best : snd (meet n e best) = None -> fst (meet n e best) = best.
  Proof.
    unfold find_intersection. destruct (find _ e) as [m'|]; cbn; auto. destruct (lt_best ltb _ best); cbn; [discriminate|auto].
  Qed.
  (** The best cost never increases. *)
  Lemma meet_mono n e best c : best = Some c -> exists c', fst (meet n e best) = Some c' /\ leb ltb c' c.
  Proof.
    intros ->. unfold find_intersection. destruct (find _ e) as [m'|]; cbn; [|exists c; split; auto; apply leb_refl].
    destruct (ltb (add (n_g zero n) (n_g zero m')) c) eqn:E; cbn.
    - eexists. split; [reflexivity|]. now apply ltb_leb.
    - exists c. split; auto. apply leb_refl.
  Qed.
  (** If the popped state is explored in the other search, the best cost is at most that of the pair. *)
  Lemma meet_found n e best m0 : In m0 e -> eqs (n_state m0) (n_state n) = true ->
    exists m c, In m e /\ eqs (n_state m) (n_state n) = true /\ fst (meet n e best) = Some c /\
      leb ltb c (add (n_g zero n) (n_g zero m)).
  Proof.
    intros Hm0 He. unfold find_intersection. destruct (find _ e) as [m|] eqn:E.
    - apply find_some in E as [E1 E2]. exists m. destruct best as [b|]; cbn [lt_best].
      + destruct (ltb (add (n_g zero n) (n_g zero m)) b) eqn:El; cbn [fst]; eexists; repeat (split; [eauto|]).
        * apply leb_refl.
        * exact El.
      + cbn [fst]. eexists. repeat (split; [eauto|]). apply leb_refl.
    - apply (find_none _ _ E) in Hm0. congruence.
  Qed.
End Meet.

(** ** Soundness *)
Section Sound.
  Context {S A C Pf Pr : Type} (eqs : S -> S -> bool) (ltb : C -> C -> bool) (add : C -> C -> C) (zero : C) (dflt : A).
  Context (hf hr : S -> C) (succf : Pf -> S -> list (S * A * C) * Pf) (succr : Pr -> S -> list (S * A * C) * Pr)
    (graph : bool).
  Context (Heqs : equivalence S eqs) (Hlt : strict_weak_order C ltb).
  Context (init goal : S).

  Definition pair_ok (best : option C) (sol : option (node S A C * node S A C)) : Prop :=
    match sol with
    | None => best = None
    | Some (x, y) => chain add zero hf succf init x /\ chain add zero hr succr goal y /\
        eqs (n_state x) (n_state y) = true /\
        (best = Some (add (n_g zero x) (n_g zero y)) \/ best = Some (add (n_g zero y) (n_g zero x)))
    end.
  Definition J_sound (b : bi S A C Pf Pr) : Prop :=
    inv_sound eqs ltb add zero hf succf init (b_f b) /\ inv_sound eqs ltb add zero hr succr goal (b_r b) /\
    pair_ok (b_best b) (b_sol b).

  Lemma J_sound_fwd f r best sol n f' : J_sound (Bi f r best sol) -> sstep eqs ltb add zero hf succf graph f n f' ->
    J_sound (Bi f' r (fst (find_intersection eqs ltb add zero n (st_expl r) best))
      (match snd (find_intersection eqs ltb add zero n (st_expl r) best) with Some m => Some (n, m) | None => sol end)).
  Proof.
    intros (Hf & Hr & Hp) Hs. cbn [b_f b_r b_best b_sol] in *.
    split; [|split]; cbn [b_f b_r b_best b_sol]; auto.
    - eapply sstep_sound; eauto.
    - destruct (snd (find_intersection eqs ltb add zero n (st_expl r) best)) as [m|] eqn:E.
      + apply meet_new in E as (H1 & H2 & H3). destruct Hf as (_ & Hc & _). destruct Hr as (_ & _ & Hc').
        rewrite Forall_forall in *. cbn [pair_ok]. split; [apply Hc; eapply sstep_In; eauto|]. split; [auto|].
        split; [now apply (eqk_sym _ _ Heqs)|auto].
      + rewrite (meet_old _ _ _ _ _ _ _ E). exact Hp.
  Qed.

  Lemma J_sound_rev f r best sol n r' : J_sound (Bi f r best sol) -> st_queried f <> [] ->
    sstep eqs ltb add zero hr succr graph r n r' ->
    J_sound (Bi f r' (fst (find_intersection eqs ltb add zero n (st_expl f) best))
      (match snd (find_intersection eqs ltb add zero n (st_expl f) best) with Some m => Some (m, n) | None => sol end)).
  Proof.
    intros (Hf & Hr & Hp) _ Hs. cbn [b_f b_r b_best b_sol] in *.
    split; [|split]; cbn [b_f b_r b_best b_sol]; auto.
    - eapply sstep_sound; eauto.
    - destruct (snd (find_intersection eqs ltb add zero n (st_expl f) best)) as [m|] eqn:E.
      + apply meet_new in E as (H1 & H2 & H3). destruct Hf as (_ & _ & Hc). destruct Hr as (_ & Hc' & _).
        rewrite Forall_forall in *. cbn [pair_ok]. split; [auto|]. split; [apply Hc'; eapply sstep_In; eauto|]. auto.
      + rewrite (meet_old _ _ _ _ _ _ _ E). exact Hp.
  Qed.

  Lemma bi_search_loop fuel pf pr :
    exists frf frr, bi_search eqs ltb add zero hf hr succf succr graph fuel init goal pf pr =
      bi_loop eqs ltb add zero hf hr succf succr graph fuel (add (hf goal) (hr goal))
        (Bi (Search frf [Root init] pf []) (Search frr [Root goal] pr []) None None) /\
      finv (@n_cmp S A C ltb zero) (@n_eq S A C eqs) frf /\ vec frf = [Root init] /\
      finv (@n_cmp S A C ltb zero) (@n_eq S A C eqs) frr /\ vec frr = [Root goal].
  Proof.
    unfold bi_search.
    destruct (@init_search_ok S A C Pf eqs ltb zero Heqs Hlt init pf) as (frf & -> & Hf & Hvf). cbn [bind].
    destruct (@init_search_ok S A C Pr eqs ltb zero Heqs Hlt goal pr) as (frr & -> & Hr & Hvr). cbn [bind].
    exists frf, frr. auto.
  Qed.

  Lemma J_sound_init frf frr pf pr :
    finv (@n_cmp S A C ltb zero) (@n_eq S A C eqs) frf -> vec frf = [Root init] ->
    finv (@n_cmp S A C ltb zero) (@n_eq S A C eqs) frr -> vec frr = [Root goal] ->
    J_sound (Bi (Search frf [Root init] pf []) (Search frr [Root goal] pr []) None None).
  Proof.
    intros. split; [|split]; cbn; auto; now apply inv_sound_init.
  Qed.

  Lemma J_sound_finv b : J_sound b -> finv (@n_cmp S A C ltb zero) (@n_eq S A C eqs) (st_front (b_f b)) /\
    finv (@n_cmp S A C ltb zero) (@n_eq S A C eqs) (st_front (b_r b)).
  Proof. intros (Hf & Hr & _). split; [apply Hf|apply Hr]. Qed.

  Lemma bi_sound fuel pf pr b :
    bi_search eqs ltb add zero hf hr succf succr graph fuel init goal pf pr = Ok (true, b) ->
    exists lf lr s s', is_path succf init lf s /\ is_path succr goal lr s' /\ eqs s s' = true /\
      bi_path (b_sol b) = Ok (path_states init lf ++ rev (path_states goal lr)) /\
      bi_cost add zero (b_sol b) = Some (add (path_cost add zero lf) (path_cost add zero lr)).
  Proof.
    intros H. destruct (bi_search_loop fuel pf pr) as (frf & frr & Hb & Hf & Hvf & Hr & Hvr). rewrite Hb in H.
    eapply (bi_loop_ind eqs ltb add zero hf hr succf succr graph Heqs Hlt J_sound) in H;
      try first [exact J_sound_finv | exact J_sound_fwd | exact J_sound_rev | now apply J_sound_init | cbn; congruence].
    destruct H as [(_ & _ & HJ) (_ & _ & Hs & _)]. destruct (b_sol b) as [[x y]|]; [|congruence].
    destruct HJ as (Hx & Hy & He & _).
    destruct (chain_results add zero dflt hf succf init x Hx) as (lf & Hlf & Hcf & Hgf & _).
    destruct (chain_results add zero dflt hr succr goal y Hy) as (lr & Hlr & Hcr & Hgr & _).
    exists lf, lr, (n_state x), (n_state y). repeat (split; [assumption|]). split.
    - unfold bi_path, get_path. cbn [option_map fst snd]. rewrite Hgf, Hgr. cbn [bind]. now rewrite !app_nil_r.
    - unfold bi_cost. cbn [option_map fst snd get_optimal_cost]. congruence.
  Qed.

  Lemma bi_failure_empty fuel pf pr b :
    bi_search eqs ltb add zero hf hr succf succr graph fuel init goal pf pr = Ok (false, b) ->
    bi_path (b_sol b) = Ok [] /\ bi_cost add zero (b_sol b) = None.
  Proof.
    intros H. destruct (bi_search_loop fuel pf pr) as (frf & frr & Hb & Hf & Hvf & Hr & Hvr). rewrite Hb in H.
    eapply (bi_loop_ind eqs ltb add zero hf hr succf succr graph Heqs Hlt J_sound) in H;
      try first [exact J_sound_finv | exact J_sound_fwd | exact J_sound_rev | now apply J_sound_init | cbn; congruence].
    destruct H as [_ [-> _]]. split; reflexivity.
  Qed.

  Lemma bi_no_ub fuel pf pr :
    match bi_search eqs ltb add zero hf hr succf succr graph fuel init goal pf pr with
    | Ok _ => True | NoFuel => True | UB => False | Throw => False end.
  Proof.
    destruct (bi_search_loop fuel pf pr) as (frf & frr & -> & Hf & Hvf & Hr & Hvr).
    apply (bi_loop_no_ub eqs ltb add zero hf hr succf succr graph Heqs Hlt J_sound);
      first [exact J_sound_finv | exact J_sound_fwd | exact J_sound_rev | now apply J_sound_init].
  Qed.

  Lemma bi_terminates K : graph = true -> finitely_reachable succf eqs init K ->
    forall fuel pf pr, length K < fuel ->
    exists ok b, bi_search eqs ltb add zero hf hr succf succr graph fuel init goal pf pr = Ok (ok, b).
  Proof.
    intros Hg HK fuel pf pr Hfuel.
    destruct (bi_search_loop fuel pf pr) as (frf & frr & -> & Hf & Hvf & Hr & Hvr).
    apply (bi_loop_ends eqs ltb add zero hf hr succf succr graph Heqs Hlt
      (fun b => inv_once eqs ltb add zero hf succf init (b_f b) /\ finv (@n_cmp S A C ltb zero) (@n_eq S A C eqs) (st_front (b_r b)))) with (N := length K).
    - intros b [H1 H2]. split; [apply H1|auto].
    - intros f r best sol n f' [H1 H2] Hs. cbn in *. split; auto. eapply sstep_once; eauto.
    - intros f r best sol n r' [H1 H2] _ Hs. cbn in *. split; auto. eapply sstep_finv; eauto.
    - intros b [H1 _]. apply (inv_once_bound eqs ltb add zero dflt hf succf (fun _ => false) (fun _ _ => true) Heqs init _ K HK H1).
    - cbn. split; auto. now apply inv_once_init.
    - cbn. lia.
  Qed.
End Sound.
