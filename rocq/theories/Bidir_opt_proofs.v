From Coq Require Import Reals Lra.
From Verif Require Import Base Frontier_model Frontier_spec Frontier_proofs AStar_model AStar_spec AStar_proofs
  AStar_opt_proofs Bidir_model Bidir_spec Bidir_proofs Heuristic_model Heuristic_proofs.

(** ** The best cost is at most that of every meeting pair *)
Section Meeting.
  Context {S A C Pf Pr : Type} (eqs : S -> S -> bool) (ltb : C -> C -> bool) (add : C -> C -> C) (zero : C).
  Context (hf hr : S -> C) (succf : Pf -> S -> list (S * A * C) * Pf) (succr : Pr -> S -> list (S * A * C) * Pr)
    (graph : bool).
  Context (Heq : decides_eq eqs) (Hlt : strict_weak_order C ltb).
  Let Heqs : equivalence S eqs := decides_eq_equiv eqs Heq.
  Context (init goal : S).

  Definition best_le (b : bi S A C Pf Pr) : Prop :=
    forall m m', In m (st_expl (b_f b)) -> In m' (st_expl (b_r b)) -> n_state m = n_state m' ->
      exists k k' c, In k (st_expl (b_f b)) /\ In k' (st_expl (b_r b)) /\ n_state k = n_state m /\ n_state k' = n_state m /\
        b_best b = Some c /\ (leb ltb c (add (n_g zero k) (n_g zero k')) \/ leb ltb c (add (n_g zero k') (n_g zero k))).
  Definition J_meet (b : bi S A C Pf Pr) : Prop :=
    (st_queried (b_f b) = [] -> st_expl (b_f b) = [Root init] /\ vec (st_front (b_f b)) = [Root init]) /\
    (st_queried (b_r b) = [] -> vec (st_front (b_r b)) = [Root goal]) /\
    (st_queried (b_r b) <> [] -> st_queried (b_f b) <> []) /\
    (st_queried (b_f b) <> [] -> best_le b).

  Lemma J_meet_fwd f r best sol n f' : J_meet (Bi f r best sol) -> sstep eqs ltb add zero hf succf graph f n f' ->
    J_meet (Bi f' r (fst (find_intersection eqs ltb add zero n (st_expl r) best))
      (match snd (find_intersection eqs ltb add zero n (st_expl r) best) with Some m => Some (n, m) | None => sol end)).
  Proof.
    intros (H1 & H2 & H3 & H4) Hs. unfold J_meet, best_le in *. cbn [b_f b_r b_best b_sol] in *.
    rewrite (sstep_queried _ _ _ _ _ _ _ _ _ _ Hs), (sstep_expl _ _ _ _ _ _ _ _ _ _ Hs).
    split; [discriminate|]. split; [exact H2|]. split; [discriminate|]. intros _ m m' Hm Hm' Hmm.
    assert (Hn : n_state m = n_state n -> In n (e_insert eqs n (st_expl f)) ->
      exists k k' c, In k (e_insert eqs n (st_expl f)) /\ In k' (st_expl r) /\ n_state k = n_state m /\ n_state k' = n_state m /\
        fst (find_intersection eqs ltb add zero n (st_expl r) best) = Some c /\
        (leb ltb c (add (n_g zero k) (n_g zero k')) \/ leb ltb c (add (n_g zero k') (n_g zero k)))).
    { intros He Hin. destruct (meet_found eqs ltb add zero Hlt n (st_expl r) best m') as (k' & c & Hk & Hke & Hc & Hle);
        [auto|apply Heq; congruence|].
      exists n, k', c. apply Heq in Hke. repeat (split; [first [assumption|congruence]|]). auto. }
    destruct (st_queried f) as [|q qs].
    - destruct (H1 eq_refl) as [He Hv]. pose proof (sstep_In _ _ _ _ _ _ _ _ _ _ Hs) as Hin. rewrite Hv in Hin.
      destruct Hin as [<-|[]]. rewrite He in *. unfold e_insert, e_contains, n_eq in Hm, Hn |- *. cbn [n_state] in *.
      cbn [existsb n_state] in *. rewrite (eqk_refl _ _ Heqs) in *. cbn [orb] in *.
      destruct Hm as [<-|[]]. apply Hn; cbn; auto.
    - pose proof Hm as Hm0. apply e_insert_In in Hm0 as [->|Hm0]; [auto|].
      destruct (H4 ltac:(discriminate) m m' Hm0 Hm' Hmm) as (k & k' & c & Hk & Hk' & Hks & Hks' & -> & Hle).
      destruct (meet_mono eqs ltb add zero Hlt n (st_expl r) (Some c) c eq_refl) as (c' & Hc' & Hle').
      exists k, k', c'. split; [|repeat (split; [auto|])].
      + unfold e_insert. destruct (e_contains eqs n (st_expl f)); cbn; auto.
      + destruct Hle as [Hle|Hle]; [left|right]; eapply leb_trans; eauto.
  Qed.

  Lemma J_meet_rev f r best sol n r' : J_meet (Bi f r best sol) -> st_queried f <> [] ->
    sstep eqs ltb add zero hr succr graph r n r' ->
    J_meet (Bi f r' (fst (find_intersection eqs ltb add zero n (st_expl f) best))
      (match snd (find_intersection eqs ltb add zero n (st_expl f) best) with Some m => Some (m, n) | None => sol end)).
  Proof.
    intros (H1 & H2 & H3 & H4) Hq Hs. unfold J_meet, best_le in *. cbn [b_f b_r b_best b_sol] in *.
    rewrite (sstep_queried _ _ _ _ _ _ _ _ _ _ Hs), (sstep_expl _ _ _ _ _ _ _ _ _ _ Hs).
    split; [exact H1|]. split; [discriminate|]. split; [auto|]. intros _ m m' Hm Hm' Hmm.
    pose proof Hm' as Hm0. apply e_insert_In in Hm0 as [->|Hm0].
    - destruct (meet_found eqs ltb add zero Hlt n (st_expl f) best m) as (k & c & Hk & Hke & Hc & Hle);
        [auto|apply Heq; congruence|].
      exists k, n, c. apply Heq in Hke. repeat (split; [first [assumption|congruence]|]). auto.
    - destruct (H4 Hq m m' Hm Hm0 Hmm) as (k & k' & c & Hk & Hk' & Hks & Hks' & -> & Hle).
      destruct (meet_mono eqs ltb add zero Hlt n (st_expl f) (Some c) c eq_refl) as (c' & Hc' & Hle').
      exists k, k', c'. split; [auto|]. split; [|repeat (split; [auto|])].
      + unfold e_insert. destruct (e_contains eqs n (st_expl r)); cbn; auto.
      + destruct Hle as [Hle|Hle]; [left|right]; eapply leb_trans; eauto.
  Qed.

  Lemma J_meet_init frf frr pf pr : vec frf = [Root init] -> vec frr = [Root goal] ->
    J_meet (Bi (Search frf [Root init] pf []) (Search frr [Root goal] pr []) None None).
  Proof. intros H1 H2. unfold J_meet. cbn. repeat split; auto; congruence. Qed.
End Meeting.

(** ** Completeness *)
Section Complete.
  Context {S A C Pf Pr : Type} (eqs : S -> S -> bool) (ltb : C -> C -> bool) (add : C -> C -> C) (zero : C).
  Context (hf hr : S -> C) (succf : Pf -> S -> list (S * A * C) * Pf) (succr : Pr -> S -> list (S * A * C) * Pr)
    (graph : bool) (nbf nbr : S -> list (S * A * C)).
  Context (Heq : decides_eq eqs) (Hlt : strict_weak_order C ltb).
  Context (Hdf : deterministic succf nbf) (Hdr : deterministic succr nbr).
  Let Heqs : equivalence S eqs := decides_eq_equiv eqs Heq.

  Lemma cover_closed {P} (succ : P -> S -> list (S * A * C) * P) nb init (st : search S A C P) :
    deterministic succ nb -> inv_cover eqs ltb zero (fun _ => false) nb init st -> vec (st_front st) = [] ->
    forall t, reachable succ init t -> covers (st_expl st) t.
  Proof.
    intros Hdet (Hf & [[_ Hv]|(H0 & H1 & H2)]) Hv0 t [l Hl]; [congruence|].
    assert (Hgen : forall l s, covers (st_expl st) s -> is_path succ s l t -> covers (st_expl st) t).
    { clear l Hl. induction l as [|e l IH]; intros s Hc Hl; cbn [is_path] in Hl; [now subst|].
      destruct Hl as [Htr Hl]. apply (IH (step_state e)); auto.
      destruct Hc as (m & Hm & Hms). apply (trans_det succ nb Hdet) in Htr. rewrite <- Hms in Htr.
      destruct (H2 m _ Hm Htr) as [Hc|(y & Hy & _)]; auto. now rewrite Hv0 in Hy. }
    eauto.
  Qed.

  Lemma cover_root {P} nb init (st : search S A C P) : inv_cover eqs ltb zero (fun _ => false) nb init st ->
    covers (st_expl st) init.
  Proof. intros (_ & [[He _]|(H & _)]); auto. rewrite He. exists (Root init). cbn. auto. Qed.

  Lemma is_empty_vec (fr : frontier (node S A C)) : f_is_empty fr = true -> vec fr = [].
  Proof. unfold f_is_empty. destruct (vec fr); auto. discriminate. Qed.

  Lemma back_reachable : can_go_back succf succr -> forall l s t, is_path succf s l t -> reachable succr t s.
  Proof.
    intros Hb. induction l as [|e l IH]; intros s t Hl; cbn [is_path] in Hl.
    - subst. apply reachable_refl.
    - destruct Hl as [Htr Hl]. apply Hb in Htr as (a' & c' & Htr).
      eapply reachable_step; [apply IH; eauto|eauto].
  Qed.

  Lemma bi_complete fuel init goal pf pr b :
    bi_search eqs ltb add zero hf hr succf succr graph fuel init goal pf pr = Ok (false, b) ->
    can_go_back succf succr -> ~ reachable succf init goal.
  Proof.
    intros H Hback Hreach.
    destruct (bi_search_loop eqs ltb add zero hf hr succf succr graph Heqs Hlt init goal fuel pf pr)
      as (frf & frr & Hb & Hf & Hvf & Hr & Hvr). rewrite Hb in H.
    apply (bi_loop_ind eqs ltb add zero hf hr succf succr graph Heqs Hlt
      (fun b => J_meet ltb add zero init goal b /\ J_sound eqs ltb add zero hf hr succf succr init goal b /\
        inv_cover eqs ltb zero (fun _ => false) nbf init (b_f b) /\
        inv_cover eqs ltb zero (fun _ => false) nbr goal (b_r b))) in H.
    - destruct H as [(Hm & (_ & _ & Hp) & Hcf & Hcr) [Hs He]]. unfold pair_ok in Hp. rewrite Hs in Hp.
      destruct Hm as (M1 & M2 & M3 & M4).
      unfold either_empty in He. apply orb_true_iff in He as [He|He]; apply is_empty_vec in He.
      + assert (Hq : st_queried (b_f b) <> []).
        { intros Hq. destruct (M1 Hq) as [_ Hv]. congruence. }
        destruct (cover_closed succf nbf init _ Hdf Hcf He goal Hreach) as (m & Hm & Hms).
        destruct (cover_root _ _ _ Hcr) as (m' & Hm' & Hms').
        destruct (M4 Hq m m' Hm Hm' ltac:(congruence)) as (_ & _ & c & _ & _ & _ & _ & Hc & _). congruence.
      + assert (Hq : st_queried (b_f b) <> []).
        { apply M3. intros Hq. specialize (M2 Hq). congruence. }
        destruct Hreach as [l Hl]. apply (back_reachable Hback) in Hl.
        destruct (cover_closed succr nbr goal _ Hdr Hcr He init Hl) as (m' & Hm' & Hms').
        destruct (cover_root _ _ _ Hcf) as (m & Hm & Hms).
        destruct (M4 Hq m m' Hm Hm' ltac:(congruence)) as (_ & _ & c & _ & _ & _ & _ & Hc & _). congruence.
    - intros b0 (_ & Hs & _). eapply J_sound_finv; eauto.
    - intros f r best sol n f' (Hm & Hs & H1 & H2) Hst. cbn [b_f b_r] in *.
      split; [eapply J_meet_fwd; eauto|]. split; [eapply J_sound_fwd; eauto|].
      split; [eapply sstep_cover; eauto|auto].
    - intros f r best sol n r' (Hm & Hs & H1 & H2) Hq Hst. cbn [b_f b_r] in *.
      split; [eapply J_meet_rev; eauto|]. split; [eapply J_sound_rev; eauto|].
      split; [auto|eapply sstep_cover; eauto].
    - split; [now apply J_meet_init|]. split; [now apply J_sound_init|]. cbn.
      split; (split; [assumption|left; auto]).
    - cbn. congruence.
  Qed.
End Complete.

(** ** Bound on the excess cost, over the reals *)
Section Bound.
  Local Open Scope R_scope.
  Context {S A Pf Pr : Type} (eqs : S -> S -> bool).
  Context (hf hr : S -> R) (succf : Pf -> S -> list (S * A * R) * Pf) (succr : Pr -> S -> list (S * A * R) * Pr)
    (nbf nbr : S -> list (S * A * R)).
  Context (Heq : decides_eq eqs) (Hdf : deterministic succf nbf) (Hdr : deterministic succr nbr).
  Context (Hcf : forall u a c v, trans succf u a c v -> hf u - hf v <= c).
  Context (Hcr : forall u a c v, trans succr u a c v -> hr u - hr v <= c).
  Context (Hback : can_go_back_same_cost succf succr).
  Context (init goal : S).
  Let Heqs : equivalence S eqs := decides_eq_equiv eqs Heq.
  Let Hlt : strict_weak_order R Rltb := cost_laws_swo _ _ R_cost_laws.
  Notation cost := (path_cost Rplus 0).
  Notation ng := (n_g 0).
  Notation nf := (n_f 0).

  Lemma cost_from (l : list (step S A R)) : forall g, path_cost Rplus g l = g + cost l.
  Proof.
    induction l as [|e l IH]; intros g; cbn.
    - lra.
    - unfold path_cost in IH. rewrite (IH (g + step_cost e)), (IH (0 + step_cost e)). lra.
  Qed.
  Lemma cost_app (l1 l2 : list (step S A R)) : cost (l1 ++ l2) = cost l1 + cost l2.
  Proof. rewrite path_cost_app. apply cost_from. Qed.
  Lemma cost_cons e (l : list (step S A R)) : cost (e :: l) = step_cost e + cost l.
  Proof. change (e :: l) with ([e] ++ l). rewrite cost_app. unfold path_cost at 1. cbn. lra. Qed.

  Lemma rev_path : forall l s t, is_path succf s l t -> exists l', is_path succr t l' s /\ cost l' = cost l.
  Proof.
    induction l as [|e l IH]; intros s t Hl; cbn [is_path] in Hl.
    - exists []. subst. cbn. auto.
    - destruct Hl as [Htr Hl]. apply Hback in Htr as (a' & Htr). destruct (IH _ _ Hl) as (l' & Hl' & Hc).
      exists (l' ++ [(a', step_cost e, s)]). split.
      + apply is_path_app. exists (step_state e). split; auto. cbn. auto.
      + rewrite cost_app, cost_cons, Hc, cost_cons. cbn. lra.
  Qed.

  Lemma hf_path : forall l s t, is_path succf s l t -> hf s <= cost l + hf t.
  Proof.
    induction l as [|e l IH]; intros s t Hl; cbn [is_path] in Hl.
    - subst. cbn. lra.
    - destruct Hl as [Htr Hl]. specialize (IH _ _ Hl). specialize (Hcf _ _ _ _ Htr). rewrite cost_cons. lra.
  Qed.

  Section State.
    Context (ef er lf lr : list (node S A R)).
    Context (Kf : closed_ok Rltb Rplus 0 hf succf nbf init ef lf).
    Context (Kr : closed_ok Rltb Rplus 0 hr succr nbr goal er lr).

    Lemma exit_fwd : forall l p s, is_path succf init p s -> covers ef s -> is_path succf s l goal ->
      covers ef goal \/
      exists p1 e p2 z, l = p1 ++ e :: p2 /\ (forall x, In x (path_states s p1) -> covers ef x) /\
        In z lf /\ n_state z = step_state e /\ ng z <= cost p + cost p1 + step_cost e.
    Proof.
      induction l as [|e l IH]; intros p s Hp Hs Hl; cbn [is_path] in Hl.
      - subst. auto.
      - destruct Hl as [Htr Hl]. destruct Hs as (m & Hm & Hms).
        pose proof (trans_det succf nbf Hdf _ _ _ _ Htr) as Hin. rewrite <- Hms in Hin.
        destruct (k_next _ _ _ _ _ _ _ _ _ Kf m _ Hm Hin) as [Hc|(z & Hz & Hzs & Hzg)]; cbn [fst snd] in *.
        + destruct (IH (p ++ [e]) (step_state e)) as [H|(p1 & e1 & p2 & z & -> & Hall & Hz & Hzs & Hzg)]; auto.
          * apply is_path_app. exists s. cbn. auto.
          * right. exists (e :: p1), e1, p2, z. split; auto. split.
            -- intros x [<-|Hx]; [exists m; auto|]. apply Hall. exact Hx.
            -- repeat (split; [assumption|]). rewrite cost_app, (cost_cons e []) in Hzg. rewrite (cost_cons e p1). cbn in Hzg. cbn. lra.
        + right. exists [], e, l, z. split; auto. split.
          * intros x [<-|[]]. exists m. auto.
          * repeat (split; [assumption|]). apply leb_R in Hzg.
            assert (Ho : leb Rltb (ng m) (cost p)) by (apply (k_opt _ _ _ _ _ _ _ _ _ Kf); auto; now rewrite Hms).
            apply leb_R in Ho. cbn. lra.
    Qed.

    Lemma exit_rev : forall l s, is_path succf s l goal ->
      (forall x, In x (path_states s l) -> covers er x) \/
      exists q1 e q2 z s', l = q1 ++ e :: q2 /\ is_path succf s q1 s' /\
        (forall x, In x (path_states (step_state e) q2) -> covers er x) /\
        In z lr /\ n_state z = s' /\ ng z <= step_cost e + cost q2.
    Proof.
      induction l as [|e l IH]; intros s Hl; cbn [is_path] in Hl.
      - subst. left. intros x [<-|[]]. apply (k_root _ _ _ _ _ _ _ _ _ Kr).
      - destruct Hl as [Htr Hl]. destruct (IH _ Hl) as [Hall|(q1 & e1 & q2 & z & s' & -> & Hq & H)].
        + destruct (Hall (step_state e)) as (m & Hm & Hms); [cbn; auto|].
          destruct (Hback _ _ _ _ Htr) as (a' & Hb). pose proof (trans_det succr nbr Hdr _ _ _ _ Hb) as Hin.
          rewrite <- Hms in Hin.
          destruct (k_next _ _ _ _ _ _ _ _ _ Kr m _ Hm Hin) as [Hc|(z & Hz & Hzs & Hzg)]; cbn [fst snd] in *.
          * left. intros x [<-|Hx]; auto.
          * right. exists [], e, l, z, s. split; auto. split; [reflexivity|]. split; auto.
            repeat (split; [assumption|]). apply leb_R in Hzg.
            destruct (rev_path _ _ _ Hl) as (l' & Hl' & Hcl). rewrite <- Hms in Hl'.
            pose proof (k_opt _ _ _ _ _ _ _ _ _ Kr m l' Hm Hl') as Ho. apply leb_R in Ho. lra.
        + right. exists (e :: q1), e1, q2, z, s'. split; auto. split; auto. cbn. auto.
    Qed.

    Context (mu : R).
    Context (Hmu : forall m m', In m ef -> In m' er -> n_state m = n_state m' ->
      exists k k', In k ef /\ In k' er /\ n_state k = n_state m /\ n_state k' = n_state m /\ mu <= ng k + ng k').

    Lemma meet_le l1 l2 s : is_path succf init l1 s -> is_path succf s l2 goal -> covers ef s -> covers er s ->
      mu <= cost (l1 ++ l2).
    Proof.
      intros H1 H2 (m & Hm & Hms) (m' & Hm' & Hms').
      destruct (Hmu m m' Hm Hm' ltac:(congruence)) as (k & k' & Hk & Hk' & Hks & Hks' & Hle).
      destruct (rev_path _ _ _ H2) as (l' & Hl' & Hc).
      assert (O1 : leb Rltb (ng k) (cost l1)) by (apply (k_opt _ _ _ _ _ _ _ _ _ Kf); auto; congruence).
      assert (O2 : leb Rltb (ng k') (cost l')).
      { apply (k_opt _ _ _ _ _ _ _ _ _ Kr); auto. rewrite Hks', Hms. exact Hl'. }
      apply leb_R in O1, O2. rewrite cost_app. lra.
    Qed.

    Lemma split3 {X} (p2 q1 : list X) e e' q2 : forall p1, p1 ++ e :: p2 = q1 ++ e' :: q2 ->
      (p1 = q1 /\ e = e' /\ p2 = q2) \/ (exists k, q1 = p1 ++ e :: k /\ p2 = k ++ e' :: q2) \/
      (exists k, p1 = q1 ++ e' :: k /\ q2 = k ++ e :: p2).
    Proof.
      induction q1 as [|x q1 IH]; intros [|y p1] H; cbn in H; injection H as -> H.
      - subst. auto.
      - right. right. exists p1. cbn. auto.
      - right. left. exists q1. cbn. auto.
      - destruct (IH _ H) as [(-> & -> & ->)|[(k & -> & ->)|(k & -> & ->)]]; [auto| |]; right; [left|right]; exists k; auto.
    Qed.

    Lemma path_edges_In (p1 : list (step S A R)) e p2 : forall s s', is_path succf s p1 s' -> In (s', e) (path_edges s (p1 ++ e :: p2)).
    Proof.
      induction p1 as [|x p1 IH]; intros s s' H; cbn [is_path] in H; cbn.
      - subst. auto.
      - right. now apply IH.
    Qed.

    Lemma closed_bound : (lf = [] \/ lr = [] -> forall l, is_path succf init l goal -> mu <= cost l).
    Proof.
      intros Hemp l Hl.
      destruct (exit_fwd l [] init) as [Hg|(p1 & e & p2 & z & -> & _ & Hz & _)]; auto.
      - reflexivity.
      - apply (k_root _ _ _ _ _ _ _ _ _ Kf).
      - replace l with (l ++ []) by apply app_nil_r.
        apply (meet_le l [] goal); auto; [reflexivity|]. apply (k_root _ _ _ _ _ _ _ _ _ Kr).
      - destruct Hemp as [->|Hemp]; [easy|].
        destruct (exit_rev _ _ Hl) as [Hall|(_ & _ & _ & z' & _ & _ & _ & _ & Hz' & _)].
        + apply (meet_le [] (p1 ++ e :: p2) init); auto; [reflexivity|apply (k_root _ _ _ _ _ _ _ _ _ Kf)|].
          apply Hall. cbn. auto.
        + rewrite Hemp in Hz'. easy.
    Qed.

    Lemma open_bound ft rt : In ft lf -> In rt lr ->
      (forall y, In y lf -> nf ft <= nf y) -> (forall y, In y lr -> nf rt <= nf y) ->
      (forall u v, hf u + hr u = hf v + hr v) -> (forall s, 0 <= hf s) -> (forall s, 0 <= hr s) ->
      mu + (hf goal + hr goal) <= ng ft + ng rt ->
      forall l, is_path succf init l goal ->
        mu <= cost l \/
        exists u e, In (u, e) (path_edges init l) /\ mu <= cost l + step_cost e + (hf (step_state e) - hf u).
    Proof.
      intros Hft Hrt Hmf Hmr Hsum Hpf Hpr Hstop l Hl.
      pose proof (k_total _ _ _ _ _ _ _ _ _ Kf) as Tf. pose proof (k_total _ _ _ _ _ _ _ _ _ Kr) as Tr.
      rewrite Forall_forall in Tf, Tr. unfold total_ok in Tf, Tr.
      destruct (exit_fwd l [] init) as [Hg|(p1 & e & p2 & z & El & Hall & Hz & Hzs & Hzg)]; auto.
      { reflexivity. }
      { apply (k_root _ _ _ _ _ _ _ _ _ Kf). }
      { left. replace l with (l ++ []) by apply app_nil_r.
        apply (meet_le l [] goal); auto; [reflexivity|]. apply (k_root _ _ _ _ _ _ _ _ _ Kr). }
      destruct (exit_rev _ _ Hl) as [Hall'|(q1 & e' & q2 & z' & s' & El' & Hq1 & Hall' & Hz' & Hzs' & Hzg')].
      { left. apply (meet_le [] l init); auto; [reflexivity|apply (k_root _ _ _ _ _ _ _ _ _ Kf)|].
        apply Hall'. cbn. auto. }
      pose proof (Hmf z Hz) as F1. pose proof (Hmr z' Hz') as F2.
      rewrite (Tf ft Hft), (Tf z Hz) in F1. rewrite (Tr rt Hrt), (Tr z' Hz') in F2.
      pose proof (Hpf (n_state ft)). pose proof (Hpr (n_state rt)).
      rewrite Hzs in F1. rewrite Hzs' in F2. cbn [path_cost fold_left] in Hzg.
      rewrite El in El'. apply split3 in El' as [(-> & -> & ->)|[(k & -> & ->)|(k & -> & ->)]].
      - right. exists s', e'. split; [rewrite El; now apply path_edges_In|].
        rewrite El, cost_app, cost_cons. pose proof (Hsum goal s'). lra.
      - left. rewrite El. apply is_path_app in Hq1 as (u & Hp1 & Hk). cbn [is_path] in Hk. destruct Hk as [Htr Hk].
        pose proof (hf_path _ _ _ Hk). rewrite cost_app, cost_cons, cost_app, cost_cons.
        pose proof (Hsum goal s'). lra.
      - left. rewrite El. rewrite El in Hl.
        replace ((q1 ++ e' :: k) ++ e :: p2) with ((q1 ++ [e']) ++ (k ++ e :: p2)) in *
          by (rewrite <- !app_assoc; reflexivity).
        pose proof Hl as Hl0. apply is_path_app in Hl0 as (v & H1 & H2).
        assert (v = step_state e').
        { apply is_path_app in H1 as (w & _ & H1). cbn [is_path] in H1. destruct H1; congruence. }
        subst v. apply (meet_le _ _ (step_state e')); auto.
        + apply Hall. cbn. right. rewrite map_app. apply in_or_app. right. cbn. auto.
        + apply Hall'. cbn. auto.
    Qed.
  End State.

  Lemma R_consistent_from {P} (succ : P -> S -> list (S * A * R) * P) h i :
    (forall u a c v, trans succ u a c v -> h u - h v <= c) -> consistent_from succ Rltb Rplus h i.
  Proof. intros H g s a c t _ Ht. specialize (H _ _ _ _ Ht). apply leb_R. lra. Qed.

  Lemma bi_bound_gen fuel pf pr b :
    bi_search eqs Rltb Rplus 0 hf hr succf succr true fuel init goal pf pr = Ok (true, b) ->
    exists mu, bi_cost Rplus 0 (b_sol b) = Some mu /\
      ((vec (st_front (b_f b)) = [] \/ vec (st_front (b_r b)) = [] ->
        forall l, is_path succf init l goal -> mu <= cost l) /\
       ((forall u v, hf u + hr u = hf v + hr v) -> (forall s, 0 <= hf s) -> (forall s, 0 <= hr s) ->
        forall l, is_path succf init l goal ->
        mu <= cost l \/
        exists u e, In (u, e) (path_edges init l) /\ mu <= cost l + step_cost e + (hf (step_state e) - hf u))).
  Proof.
    intros H.
    destruct (bi_search_loop eqs Rltb Rplus 0 hf hr succf succr true Heqs Hlt init goal fuel pf pr)
      as (frf & frr & Hb & Hf & Hvf & Hr & Hvr). rewrite Hb in H.
    apply (bi_loop_ind eqs Rltb Rplus 0 hf hr succf succr true Heqs Hlt
      (fun b => J_meet Rltb Rplus 0 init goal b /\ J_sound eqs Rltb Rplus 0 hf hr succf succr init goal b /\
        inv_opt eqs Rltb Rplus 0 hf succf nbf init (b_f b) /\
        inv_opt eqs Rltb Rplus 0 hr succr nbr goal (b_r b))) in H.
    - destruct H as [((_ & _ & _ & Hm) & (_ & _ & Hp) & [_ Hof] & [_ Hor]) (Hqf & Hqr & Hs & Hend)].
      destruct Hof as [(_ & _ & Hq)|[_ Kf]]; [congruence|]. destruct Hor as [(_ & _ & Hq)|[_ Kr]]; [congruence|].
      specialize (Hm Hqf). unfold pair_ok in Hp. destruct (b_sol b) as [[x y]|]; [|congruence].
      destruct Hp as (_ & _ & _ & Hbest). exists (ng x + ng y). split; [reflexivity|].
      assert (Hb' : b_best b = Some (ng x + ng y)) by (destruct Hbest as [E|E]; rewrite E; auto; f_equal; lra).
      assert (Hmu : forall m m', In m (st_expl (b_f b)) -> In m' (st_expl (b_r b)) -> n_state m = n_state m' ->
        exists k k', In k (st_expl (b_f b)) /\ In k' (st_expl (b_r b)) /\ n_state k = n_state m /\
          n_state k' = n_state m /\ ng x + ng y <= ng k + ng k').
      { intros m m' H1 H2 H3. destruct (Hm m m' H1 H2 H3) as (k & k' & c & Hk & Hk' & Hks & Hks' & Hc & Hle).
        assert (c = ng x + ng y) by congruence. subst c.
        exists k, k'. repeat (split; [assumption|]). rewrite !leb_R in Hle. destruct Hle; lra. }
      split; [eapply closed_bound; eauto|]. intros Hsum Hpf Hpr l Hl.
      destruct Hend as [He|(ft & rt & best & E & Hft & Hrt & Hmf & Hmr & Hle)].
      + left. eapply closed_bound; eauto. unfold either_empty in He. apply orb_true_iff in He as [He|He];
          apply is_empty_vec in He; auto.
      + assert (best = ng x + ng y) by congruence. subst best. apply leb_R in Hle.
        eapply (open_bound _ _ _ _ Kf Kr _ Hmu ft rt); eauto.
        * intros z Hz. apply leb_R. auto.
        * intros z Hz. apply leb_R. auto.
    - intros b0 (_ & Hs & _). eapply J_sound_finv; eauto.
    - intros f r best sol n f' (Hm & Hs & H1 & H2) Hst. cbn [b_f b_r] in *.
      split; [eapply J_meet_fwd; eauto|]. split; [eapply J_sound_fwd; eauto|].
      split; [|auto]. eapply sstep_opt; eauto using R_cost_laws, R_consistent_from, R_cancellable.
    - intros f r best sol n r' (Hm & Hs & H1 & H2) Hq Hst. cbn [b_f b_r] in *.
      split; [eapply J_meet_rev; eauto|]. split; [eapply J_sound_rev; eauto|].
      split; [auto|]. eapply sstep_opt; eauto using R_cost_laws, R_consistent_from, R_cancellable.
    - split; [now apply J_meet_init|]. split; [now apply J_sound_init|]. cbn.
      split; now apply inv_opt_init.
    - cbn. congruence.
  Qed.
End Bound.

(** ** The returned list of states *)
Section Path.
  Context {S A C Pf Pr : Type} (eqs : S -> S -> bool) (ltb : C -> C -> bool) (add : C -> C -> C) (zero : C) (dflt : A).
  Context (hf hr : S -> C) (succf : Pf -> S -> list (S * A * C) * Pf) (succr : Pr -> S -> list (S * A * C) * Pr)
    (graph : bool).
  Context (Heq : decides_eq eqs) (Hlt : strict_weak_order C ltb).
  Let Heqs : equivalence S eqs := decides_eq_equiv eqs Heq.

  Lemma path_states_last {P} (succ : P -> S -> list (S * A * C) * P) : forall l s t, is_path succ s l t ->
    exists q, path_states s l = q ++ [t].
  Proof.
    induction l as [|e l IH]; intros s t H; cbn [is_path] in H.
    - subst. exists []. reflexivity.
    - destruct H as [_ H]. destruct (IH _ _ H) as [q Hq]. exists (s :: q). unfold path_states in *. cbn [map app].
      cbn in Hq. now rewrite Hq.
  Qed.

  Lemma bi_path_repeats init goal fuel pf pr b :
    bi_search eqs ltb add zero hf hr succf succr graph fuel init goal pf pr = Ok (true, b) ->
    exists p x q, bi_path (b_sol b) = Ok (p ++ x :: x :: q).
  Proof.
    intros H. apply (bi_sound eqs ltb add zero dflt) in H; auto.
    destruct H as (lf & lr & s & s' & Hf & Hr & He & Hp & _). apply Heq in He. subst s'.
    destruct (path_states_last succf _ _ _ Hf) as [q Hq]. destruct (path_states_last succr _ _ _ Hr) as [q' Hq'].
    exists q, s, (rev q'). rewrite Hp, Hq, Hq', rev_app_distr, <- app_assoc. reflexivity.
  Qed.

  Lemma turn_path : can_go_back_same_cost succr succf -> forall l s t, is_path succr s l t ->
    exists l', is_path succf t l' s /\ path_states t l' = rev (path_states s l) /\
      map step_cost l' = rev (map step_cost l).
  Proof.
    intros Hb. induction l as [|e l IH]; intros s t H; cbn [is_path] in H.
    - subst. exists []. cbn. auto.
    - destruct H as [Htr H]. destruct (IH _ _ H) as (l' & Hl' & Hs & Hc). apply Hb in Htr as (a' & Htr).
      exists (l' ++ [(a', step_cost e, s)]). split; [|split].
      + apply is_path_app. exists (step_state e). cbn. auto.
      + unfold path_states in *. cbn [map rev] in *. rewrite map_app. cbn [map].
        rewrite app_comm_cons, Hs. reflexivity.
      + rewrite map_app. cbn. now rewrite Hc.
  Qed.

  Lemma bi_path_forward init goal fuel pf pr b :
    can_go_back_same_cost succr succf ->
    bi_search eqs ltb add zero hf hr succf succr graph fuel init goal pf pr = Ok (true, b) ->
    exists l1 l2 s, is_path succf init l1 s /\ is_path succf s l2 goal /\
      bi_path (b_sol b) = Ok (path_states init l1 ++ path_states s l2) /\
      bi_cost add zero (b_sol b) = Some (add (path_cost add zero l1) (fold_right (fun c g => add g c) zero (map step_cost l2))).
  Proof.
    intros Hb H. apply (bi_sound eqs ltb add zero dflt) in H; auto.
    destruct H as (lf & lr & s & s' & Hf & Hr & He & Hp & Hc). apply Heq in He. subst s'.
    destruct (turn_path Hb _ _ _ Hr) as (l' & Hl' & Hs & Hcl). exists lf, l', s.
    repeat (split; [assumption|]). split; [now rewrite Hs|]. rewrite Hc. do 2 f_equal.
    rewrite Hcl, fold_left_rev_right. unfold path_cost.
    generalize zero. clear. induction lr as [|e lr IH]; intros z; cbn; auto.
  Qed.
End Path.

Section PathR.
  Local Open Scope R_scope.
  Context {S A Pf Pr : Type} (eqs : S -> S -> bool) (dflt : A).
  Context (hf hr : S -> R) (succf : Pf -> S -> list (S * A * R) * Pf) (succr : Pr -> S -> list (S * A * R) * Pr)
    (graph : bool).
  Context (Heq : decides_eq eqs).

  Lemma fold_cost (l : list (step S A R)) : fold_right (fun c g => g + c) 0 (map step_cost l) = path_cost Rplus 0 l.
  Proof. induction l as [|e l IH]; [reflexivity|]. rewrite cost_cons. cbn. rewrite IH. lra. Qed.

  Lemma bi_path_forward_R init goal fuel pf pr b :
    can_go_back_same_cost succr succf ->
    bi_search eqs Rltb Rplus 0 hf hr succf succr graph fuel init goal pf pr = Ok (true, b) ->
    exists l1 l2 s, is_path succf init (l1 ++ l2) goal /\
      is_path succf init l1 s /\
      bi_path (b_sol b) = Ok (path_states init l1 ++ path_states s l2) /\
      bi_cost Rplus 0 (b_sol b) = Some (path_cost Rplus 0 (l1 ++ l2)).
  Proof.
    intros Hb H. apply (bi_path_forward eqs Rltb Rplus 0 dflt) in H; auto using (cost_laws_swo _ _ R_cost_laws).
    destruct H as (l1 & l2 & s & H1 & H2 & Hp & Hc). exists l1, l2, s. split; [apply is_path_app; eauto|].
    split; auto. split; auto. rewrite Hc, cost_app, fold_cost. reflexivity.
  Qed.
End PathR.

(** ** Averaged heuristics *)
Section Average.
  Local Open Scope R_scope.
  Context {S A Pf Pr : Type} (f r : concrete S) (s0 : S) (c0 : R) (init goal : S).
  Let hf := a_value (fst (searched_pair f r s0 c0 init goal)).
  Let hr := a_value (snd (searched_pair f r s0 c0 init goal)).

  Lemma avg_sum s : hf s + hr s = (c_value r goal + c_value f init) / 2.
  Proof. unfold hf, hr, a_value. cbn. lra. Qed.
  Lemma avg_f s : hf s = (c_value r goal + c_value f s - c_value r s) / 2.
  Proof. unfold hf, a_value. cbn. lra. Qed.
  Lemma avg_r s : hr s = (c_value f init + c_value r s - c_value f s) / 2.
  Proof. unfold hr, a_value. cbn. lra. Qed.

  Lemma avg_consistent (succf : Pf -> S -> list (S * A * R) * Pf) (succr : Pr -> S -> list (S * A * R) * Pr) :
    can_go_back_same_cost succf succr -> can_go_back_same_cost succr succf ->
    consistent_R succf (c_value f) -> consistent_R succr (c_value r) ->
    consistent_R succf hf /\ consistent_R succr hr.
  Proof.
    intros Hb1 Hb2 Hf Hr. split; intros u a c v Ht.
    - destruct (Hb1 _ _ _ _ Ht) as (a' & Ht'). pose proof (Hf _ _ _ _ Ht). pose proof (Hr _ _ _ _ Ht').
      rewrite !avg_f. lra.
    - destruct (Hb2 _ _ _ _ Ht) as (a' & Ht'). pose proof (Hr _ _ _ _ Ht). pose proof (Hf _ _ _ _ Ht').
      rewrite !avg_r. lra.
  Qed.

  Lemma avg_nonneg : (forall s, c_value r s <= c_value r goal + c_value f s) ->
    (forall s, c_value f s <= c_value f init + c_value r s) -> forall s, 0 <= hf s /\ 0 <= hr s.
  Proof. intros H1 H2 s. rewrite avg_f, avg_r. specialize (H1 s). specialize (H2 s). lra. Qed.
End Average.
