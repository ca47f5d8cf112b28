(** Completeness (graph and tree search) and optimality (graph search) of the A* model. *)
From Verif Require Import Base Frontier_model Frontier_spec Frontier_proofs AStar_model AStar_spec AStar_proofs.
From Coq Require Import ZifyBool ZifyNat Permutation.

Lemma decides_eq_equiv {S} (eqs : S -> S -> bool) : decides_eq eqs -> equivalence S eqs.
Proof.
  intros H. split; intros.
  - now apply H.
  - apply H. symmetry. now apply H.
  - apply H. transitivity y; now apply H.
Qed.

Lemma cost_laws_swo {C} (ltb : C -> C -> bool) add : cost_laws ltb add -> strict_weak_order C ltb.
Proof. intros [H1 H2 H3 _]. now split. Qed.

Section Complete.
  Context {S A C P : Type}.
  Context (eqs : S -> S -> bool) (ltb : C -> C -> bool) (add : C -> C -> C) (zero : C).
  Context (h : S -> C) (succ : P -> S -> list (S * A * C) * P) (issol : S -> bool)
          (guard : S -> S -> bool) (graph : bool) (nb : S -> list (S * A * C)).
  Context (Heq : decides_eq eqs) (Hlt : strict_weak_order C ltb) (Hdet : deterministic succ nb).
  Let Heqs : equivalence S eqs := decides_eq_equiv eqs Heq.

  Notation node := (node S A C).
  Notation neq := (@n_eq S A C eqs).
  Notation finv := (finv (@n_cmp S A C ltb zero) neq).
  Notation upd := (upd eqs ltb add zero h guard graph).
  Notation upds := (upds eqs ltb add zero h guard graph).

  Lemma trans_det s a c t : trans succ s a c t -> In (t, a, c) (nb s).
  Proof. intros [p H]. now rewrite Hdet in H. Qed.

  Lemma neq_state (m n : node) : neq m n = true <-> n_state m = n_state n.
  Proof. apply Heq. Qed.

  (** A state is covered by a list of nodes. *)
  Definition covers (l : list node) (s : S) : Prop := exists y, In y l /\ n_state y = s.

  Lemma upds_keep n e ts l l' : upds n e ts l l' -> forall s, covers l s -> covers l' s.
  Proof.
    induction 1 as [l|t ts l l1 l2 Hu Hus IH]; intros s Hs; auto. apply IH.
    destruct Hs as (y & Hy & Hys). destruct Hu as [? ? Hm|? ? ? ? Hm|? ? Hm|fn ? Hin He ? ? ? Hm].
    - exists y. split; auto. now apply Hm.
    - exists y. split; auto. now apply Hm.
    - exists y. split; auto. apply Hm. auto.
    - destruct (neq (child_of add zero h n t) y) eqn:E.
      + exists (child_of add zero h n t). split; [apply Hm; auto|]. apply neq_state in E. congruence.
      + exists y. split; auto. apply Hm. auto.
  Qed.

  Lemma upds_cover n e ts l l' : upds n e ts l l' ->
    forall t, In t ts -> covers e (fst (fst t)) \/ covers l' (fst (fst t)).
  Proof.
    induction 1 as [l|t ts l l1 l2 Hu Hus IH]; intros t' Ht'; [easy|].
    destruct Ht' as [<-|Ht']; auto.
    assert (Hst := child_state add zero h n t).
    destruct Hu as [? Hc Hm|fn Hin He ? Hm|? ? Hm|fn ? Hin He ? ? ? Hm].
    - left. apply e_contains_iff in Hc as (m & Hm1 & Hm2). exists m. split; auto.
      apply neq_state in Hm2. congruence.
    - right. eapply upds_keep; eauto. exists fn. split; [now apply Hm|]. apply neq_state in He. congruence.
    - right. eapply upds_keep; eauto. exists (child_of add zero h n t). split; [apply Hm; auto|auto].
    - right. eapply upds_keep; eauto. exists (child_of add zero h n t). split; [apply Hm; auto|auto].
  Qed.

  Definition inv_cover init (st : search S A C P) : Prop :=
    finv (st_front st) /\
    ((st_expl st = [Root init] /\ vec (st_front st) = [Root init]) \/
     (covers (st_expl st) init /\
      (forall m, In m (st_expl st) -> issol (n_state m) = false) /\
      (forall m t, In m (st_expl st) -> In t (nb (n_state m)) ->
         covers (st_expl st) (fst (fst t)) \/ covers (vec (st_front st)) (fst (fst t))))).

  Lemma covers_insert (n : node) e s : covers e s -> covers (e_insert eqs n e) s.
  Proof.
    intros (y & Hy & Hs). unfold e_insert. destruct (e_contains eqs n e); exists y; cbn; auto.
  Qed.

  Lemma covers_inserted (n : node) e : covers (e_insert eqs n e) (n_state n).
  Proof.
    unfold e_insert. destruct (e_contains eqs n e) eqn:E.
    - apply e_contains_iff in E as (m & H1 & H2). exists m. split; auto. now apply neq_state.
    - exists n. cbn. auto.
  Qed.

  Lemma inv_cover_step init st n fr fr' p :
      inv_cover init st -> finv fr -> In n (vec (st_front st)) ->
      (forall y, In y (vec (st_front st)) -> leb ltb (n_f zero n) (n_f zero y)) ->
      (forall y, In y (vec (st_front st)) <-> y = n \/ In y (vec fr)) ->
      (forall y, In y (vec fr) -> neq n y = false) ->
      issol (n_state n) = false ->
      finv fr' ->
      upds n (e_insert eqs n (st_expl st)) (fst (succ (st_prop st) (n_state n))) (vec fr) (vec fr') ->
      inv_cover init (Search fr' (e_insert eqs n (st_expl st)) p (n_state n :: st_queried st)).
  Proof.
    intros (Hf & Hph) Hfr Hn Hmin Hmem Hne Hs Hfr' Hu. rewrite Hdet in Hu.
    split; [exact Hfr'|]. right. cbn [st_front st_expl].
    destruct Hph as [[He Hv]|(H0 & H1 & H2)].
    - rewrite Hv in Hn. destruct Hn as [<-|[]]. rewrite He in *.
      assert (Hins : e_insert eqs (Root init) [Root init] = [@Root S A C init]).
      { unfold e_insert, e_contains, n_eq. cbn. now rewrite (eqk_refl _ _ Heqs). }
      rewrite Hins in *. split; [|split].
      + exists (Root init). cbn. auto.
      + intros m [<-|[]]. auto.
      + intros m t [<-|[]] Ht. eapply upds_cover; eauto.
    - split; [|split].
      + now apply covers_insert.
      + intros m Hm. apply e_insert_In in Hm as [->|Hm]; auto.
      + intros m t Hm Ht.
        pose proof Hm as Hm'. apply e_insert_In in Hm' as [->|Hm']; [eapply upds_cover; eauto|].
        destruct (H2 m t Hm' Ht) as [Hc|Hc].
        * left. now apply covers_insert.
        * destruct Hc as (y & Hy & Hys). apply Hmem in Hy as [->|Hy].
          -- left. rewrite <- Hys. apply covers_inserted.
          -- right. eapply upds_keep; eauto. exists y. auto.
  Qed.

  Lemma inv_cover_closed init st : inv_cover init st -> vec (st_front st) = [] ->
    forall t, reachable succ init t -> issol t = false.
  Proof.
    intros (Hf & [[_ Hv]|(H0 & H1 & H2)]) Hv0 t [l Hl]; [congruence|].
    assert (Hgen : forall l s, covers (st_expl st) s -> is_path succ s l t -> covers (st_expl st) t).
    { clear l Hl. induction l as [|e l IH]; intros s Hc Hl; cbn [is_path] in Hl; [now subst|].
      destruct Hl as [Htr Hl]. apply (IH (step_state e)); auto.
      destruct Hc as (m & Hm & Hms). apply trans_det in Htr. rewrite <- Hms in Htr.
      destruct (H2 m _ Hm Htr) as [Hc|(y & Hy & _)]; auto. now rewrite Hv0 in Hy. }
    destruct (Hgen l init H0 Hl) as (m & Hm & <-). auto.
  Qed.

  Lemma search_complete fuel init p st :
    search_path eqs ltb add zero h succ issol guard graph fuel init p = Ok (None, st) ->
    forall t, reachable succ init t -> issol t = false.
  Proof.
    intros H. apply search_path_loop in H as (fr & Hf & Hv & H); auto.
    apply (loop_ind eqs ltb add zero h succ issol guard graph Heqs Hlt (inv_cover init)) in H.
    - destruct H as (st0 & Hinv & Hv0 & ->). intros t Ht. eapply inv_cover_closed; eauto.
    - intros st0 Hst0. apply Hst0.
    - intros st0 n0 fr0 fr1 p0 ? ? ? ? ? ? ? ? ?. eapply (inv_cover_step init st0 n0 fr0); eauto.
    - split; [exact Hf|]. left. auto.
  Qed.
End Complete.

Section Optimal.
  Context {S A C P : Type}.
  Context (eqs : S -> S -> bool) (ltb : C -> C -> bool) (add : C -> C -> C) (zero : C).
  Context (h : S -> C) (succ : P -> S -> list (S * A * C) * P) (issol : S -> bool)
          (nb : S -> list (S * A * C)).
  Context (Heq : decides_eq eqs) (Hcost : cost_laws ltb add) (Hdet : deterministic succ nb).
  Context (init : S) (Hcons : consistent_from succ ltb add h init) (Hcan : cancellable ltb add h).
  Let Heqs : equivalence S eqs := decides_eq_equiv eqs Heq.
  Let Hlt : strict_weak_order C ltb := cost_laws_swo ltb add Hcost.
  Let guard (_ _ : S) : bool := true.

  Notation node := (node S A C).
  Notation n_g := (@AStar_model.n_g S A C zero).
  Notation n_f := (@AStar_model.n_f S A C zero).
  Notation neq := (@n_eq S A C eqs).
  Notation finv := (finv (@n_cmp S A C ltb zero) neq).
  Notation upd := (upd eqs ltb add zero h guard true).
  Notation upds := (upds eqs ltb add zero h guard true).
  Notation le := (leb ltb).
  Notation child_of := (child_of add zero h).
  Notation cost := (path_cost add zero).

  Lemma le_refl a : le a a.
  Proof. apply (c_irrefl _ _ _ Hcost). Qed.
  Lemma le_trans a b c : le a b -> le b c -> le a c.
  Proof. unfold leb. intros H1 H2. eapply (c_incomp _ _ _ Hcost); eauto. Qed.
  Lemma lt_le a b : ltb a b = true -> le a b.
  Proof.
    unfold leb. intros H. destruct (ltb b a) eqn:E; auto.
    pose proof (c_trans _ _ _ Hcost _ _ _ H E). rewrite (c_irrefl _ _ _ Hcost) in *. congruence.
  Qed.
  Hint Resolve le_refl : core.

  Lemma path_cost_mono (l : list (step S A C)) : forall g g', le g g' -> le (path_cost add g l) (path_cost add g' l).
  Proof.
    induction l as [|e l IH]; intros g g' Hg; cbn; auto. apply IH. now apply (c_mono _ _ _ Hcost).
  Qed.

  Lemma consistent_path l : forall s t g, reachable succ init s -> is_path succ s l t -> le (add g (h s)) (add (path_cost add g l) (h t)).
  Proof.
    induction l as [|e l IH]; intros s t g Hs Hl; cbn [is_path] in Hl.
    - subst. apply le_refl.
    - destruct Hl as [Ht Hl]. eapply le_trans; [apply (Hcons g _ _ _ _ Hs Ht)|].
      specialize (IH _ _ (add g (step_cost e)) (reachable_step _ _ _ _ _ _ Hs Ht) Hl). exact IH.
  Qed.

  Definition total_ok (y : node) : Prop := n_f y = add (n_g y) (h (n_state y)).
  Definition improves (l l' : list node) : Prop :=
    forall y, In y l -> exists y', In y' l' /\ n_state y' = n_state y /\ le (n_g y') (n_g y).

  Lemma improves_refl l : improves l l.
  Proof. intros y Hy. eauto. Qed.
  Lemma improves_trans l1 l2 l3 : improves l1 l2 -> improves l2 l3 -> improves l1 l3.
  Proof.
    intros H1 H2 y Hy. destruct (H1 y Hy) as (y1 & Hy1 & Hs1 & Hg1). destruct (H2 y1 Hy1) as (y2 & Hy2 & Hs2 & Hg2).
    exists y2. repeat split; auto; [congruence|]. eapply le_trans; eauto.
  Qed.

  Lemma child_total n t : total_ok (child_of n t).
  Proof. destruct t as [[s a] c]. reflexivity. Qed.

  Lemma child_g n t : n_g (child_of n t) = add (n_g n) (snd t).
  Proof. destruct t as [[s a] c]. reflexivity. Qed.

  Lemma same_state_g y z : total_ok y -> total_ok z -> n_state y = n_state z -> le (n_f y) (n_f z) -> le (n_g y) (n_g z).
  Proof.
    unfold total_ok. intros Hy Hz Hs Hf. rewrite Hy, Hz, Hs in Hf. eapply Hcan; eauto.
  Qed.

  Lemma upd_total n e t l l' : upd n e t l l' -> Forall total_ok l -> Forall total_ok l'.
  Proof.
    intros Hu Hl. rewrite Forall_forall in *. intros y Hy. pose proof (child_total n t) as Hct.
    destruct Hu as [? ? Hm|? ? ? ? Hm|? ? Hm|? ? ? ? ? ? ? Hm]; apply Hm in Hy; auto.
    - destruct Hy as [->|Hy]; auto.
    - destruct Hy as [->|[Hy _]]; auto.
  Qed.

  Lemma upd_improves n e t l l' : Forall total_ok l -> upd n e t l l' -> improves l l'.
  Proof.
    intros Htot Hu y Hy. rewrite Forall_forall in Htot.
    destruct Hu as [? ? Hm|? ? ? ? Hm|? ? Hm|fn ? Hin He ? Hbt Hun Hm].
    - exists y. rewrite Hm. auto.
    - exists y. rewrite Hm. auto.
    - exists y. rewrite Hm. auto.
    - destruct (neq (child_of n t) y) eqn:E.
      + assert (n_state (child_of n t) = n_state y) by now apply Heq.
        exists (child_of n t). split; [apply Hm; auto|]. split; auto.
        apply same_state_g; auto using child_total.
        rewrite (Hun y) by auto. now apply lt_le.
      + exists y. rewrite Hm. auto.
  Qed.

  Lemma upd_covers n e t l l' : Forall total_ok l -> upd n e t l l' ->
    covers e (fst (fst t)) \/
    exists y, In y l' /\ n_state y = fst (fst t) /\ le (n_g y) (add (n_g n) (snd t)).
  Proof.
    intros Htot Hu. rewrite Forall_forall in Htot.
    assert (Hst := child_state add zero h n t). assert (Hg := child_g n t).
    destruct Hu as [? Hc Hm|fn Hin He Hno Hm|? ? Hm|fn ? Hin He ? Hbt Hun Hm].
    - left. apply e_contains_iff in Hc as (m & Hm1 & Hm2). exists m. split; auto.
      rewrite <- Hst. now apply Heq.
    - right. exists fn. split; [now apply Hm|].
      assert (Hs : n_state (child_of n t) = n_state fn) by now apply Heq.
      split; [congruence|]. rewrite <- Hg. apply same_state_g; auto using child_total.
      destruct (Hno eq_refl) as [Hc|Hc]; [discriminate|exact Hc].
    - right. exists (child_of n t). split; [apply Hm; auto|]. split; auto. rewrite Hg. auto.
    - right. exists (child_of n t). split; [apply Hm; auto|]. split; auto. rewrite Hg. auto.
  Qed.

  Lemma upds_all n e ts l l' : upds n e ts l l' -> Forall total_ok l ->
    Forall total_ok l' /\ improves l l' /\
    forall t, In t ts -> covers e (fst (fst t)) \/
      exists y, In y l' /\ n_state y = fst (fst t) /\ le (n_g y) (add (n_g n) (snd t)).
  Proof.
    induction 1 as [l|t ts l l1 l2 Hu Hus IH]; intros Htot.
    - repeat split; auto; [apply improves_refl|easy].
    - pose proof (upd_total _ _ _ _ _ Hu Htot) as Htot1. destruct (IH Htot1) as (Htot2 & Himp & Hcov).
      split; [exact Htot2|]. split.
      + eapply improves_trans; [eapply upd_improves; eauto|exact Himp].
      + intros t' [<-|Ht']; auto. destruct (upd_covers _ _ _ _ _ Htot Hu) as [Hc|(y & Hy & Hs & Hg)]; auto.
        right. destruct (Himp y Hy) as (y' & Hy' & Hs' & Hg'). exists y'. repeat split; auto; [congruence|].
        eapply le_trans; eauto.
  Qed.

  (** The closed nodes [e] and the frontier [l] between two iterations, once the root is closed. *)
  Record closed_ok (init : S) (e l : list node) : Prop := {
    k_root : covers e init;
    k_next : forall m t, In m e -> In t (nb (n_state m)) ->
      covers e (fst (fst t)) \/
      exists y, In y l /\ n_state y = fst (fst t) /\ le (n_g y) (add (n_g m) (snd t));
    k_opt : forall m p, In m e -> is_path succ init p (n_state m) -> le (n_g m) (cost p);
    k_total : Forall total_ok l
  }.

  Lemma path_leaves e l : closed_ok init e l -> forall p2 p1 m t,
    In m e -> is_path succ init p1 (n_state m) -> is_path succ (n_state m) p2 t ->
    (forall m', In m' e -> n_state m' <> t) ->
    exists z, In z l /\ le (n_f z) (add (cost (p1 ++ p2)) (h t)).
  Proof.
    intros K. induction p2 as [|ed p2 IH]; intros p1 m t Hm H1 H2 Ht; cbn [is_path] in H2.
    - exfalso. eapply Ht; eauto.
    - destruct H2 as [Htr H2].
      pose proof (trans_det succ nb Hdet _ _ _ _ Htr) as Hin.
      assert (H1' : is_path succ init (p1 ++ [ed]) (step_state ed)).
      { apply is_path_app. exists (n_state m). cbn. auto. }
      assert (Happ : p1 ++ ed :: p2 = (p1 ++ [ed]) ++ p2) by now rewrite <- app_assoc.
      destruct (k_next _ _ _ K m _ Hm Hin) as [(m' & Hm' & Hs')|(z & Hz & Hzs & Hzg)]; cbn [fst snd] in *.
      + rewrite Happ. rewrite <- Hs' in H2, H1'. apply (IH (p1 ++ [ed]) m'); auto.
      + exists z. split; auto. rewrite Happ.
        pose proof (k_total _ _ _ K) as Htot. rewrite Forall_forall in Htot. rewrite (Htot z Hz), Hzs.
        eapply le_trans.
        { apply (c_mono _ _ _ Hcost). eapply le_trans; [exact Hzg|].
          apply (c_mono _ _ _ Hcost). apply (k_opt _ _ _ K m p1); auto. }
        rewrite path_cost_app.
        replace (add (cost p1) (step_cost ed)) with (cost (p1 ++ [ed])) by (rewrite path_cost_app; reflexivity).
        apply consistent_path; auto. now exists (p1 ++ [ed]).
  Qed.

  Lemma pop_optimal e l n p : closed_ok init e l -> In n l ->
    (forall y, In y l -> le (n_f n) (n_f y)) -> (forall m, In m e -> n_state m <> n_state n) ->
    is_path succ init p (n_state n) -> le (n_g n) (cost p).
  Proof.
    intros K Hn Hmin Hdis Hp. destruct (k_root _ _ _ K) as (r & Hr & Hrs).
    destruct (path_leaves e l K p [] r (n_state n)) as (z & Hz & Hzf); auto.
    - cbn. auto.
    - now rewrite Hrs.
    - cbn [app] in Hzf. pose proof (k_total _ _ _ K) as Htot. rewrite Forall_forall in Htot.
      specialize (Hmin z Hz). rewrite (Htot n Hn) in Hmin. eapply Hcan. eapply le_trans; eauto.
  Qed.

  Lemma root_optimal p : is_path succ init p init -> le zero (cost p).
  Proof. intros Hp. eapply Hcan. apply (consistent_path p init init zero (reachable_refl succ init) Hp). Qed.

  Definition inv_opt init (st : search S A C P) : Prop :=
    inv_once eqs ltb add zero h succ init st /\
    ((st_expl st = [Root init] /\ vec (st_front st) = [Root init] /\ st_queried st = []) \/
     ((forall y, In y (vec (st_front st)) -> e_contains eqs y (st_expl st) = false) /\
      closed_ok init (st_expl st) (vec (st_front st)))).

  Lemma contains_false_state (y : node) e : e_contains eqs y e = false -> forall m, In m e -> n_state m <> n_state y.
  Proof.
    intros H m Hm He. rewrite e_contains_false in H. specialize (H m Hm). unfold n_eq in H.
    assert (eqs (n_state m) (n_state y) = true) by now apply Heq. congruence.
  Qed.

  Lemma inv_opt_pop st n p : inv_opt init st -> In n (vec (st_front st)) ->
    (forall y, In y (vec (st_front st)) -> le (n_f n) (n_f y)) ->
    is_path succ init p (n_state n) -> le (n_g n) (cost p).
  Proof.
    intros [_ [(He & Hv & _)|(Hdis & K)]] Hn Hmin Hp.
    - rewrite Hv in Hn. destruct Hn as [<-|[]]. cbn in *. now apply root_optimal.
    - eapply pop_optimal; eauto. apply contains_false_state. auto.
  Qed.

  Lemma closed_ok_expand e0 e l0 l l' n :
    (forall m, In m e <-> m = n \/ In m e0) -> (covers e0 init \/ n_state n = init) ->
    (forall m t, In m e0 -> In t (nb (n_state m)) ->
      covers e0 (fst (fst t)) \/
      exists y, In y l0 /\ n_state y = fst (fst t) /\ le (n_g y) (add (n_g m) (snd t))) ->
    (forall m p, In m e -> is_path succ init p (n_state m) -> le (n_g m) (cost p)) ->
    (forall y, In y l0 <-> y = n \/ In y l) ->
    Forall total_ok l -> upds n e (nb (n_state n)) l l' ->
    closed_ok init e l'.
  Proof.
    intros He Hroot Hnext Hopt Hmem Htot Hu. destruct (upds_all _ _ _ _ _ Hu Htot) as (Htot' & Himp & Hcov).
    split; auto.
    - destruct Hroot as [(y & Hy & Hys)|Hs].
      + exists y. split; auto. apply He. auto.
      + exists n. split; auto. apply He. auto.
    - intros m t Hm Ht. destruct (He m) as [He1 _]. destruct (He1 Hm) as [->|Hm0]; [auto|].
      destruct (Hnext m t Hm0 Ht) as [(y & Hy & Hys)|(y & Hy & Hys & Hyg)].
      + left. exists y. split; auto. apply He. auto.
      + apply Hmem in Hy as [->|Hy].
        * left. exists n. split; auto. apply He. auto.
        * right. destruct (Himp y Hy) as (y' & Hy' & Hs' & Hg'). exists y'. repeat split; auto; [congruence|].
          eapply le_trans; eauto.
  Qed.

  Lemma inv_opt_step st n fr fr' p :
      inv_opt init st -> finv fr -> In n (vec (st_front st)) ->
      (forall y, In y (vec (st_front st)) -> leb ltb (n_f n) (n_f y)) ->
      (forall y, In y (vec (st_front st)) <-> y = n \/ In y (vec fr)) ->
      (forall y, In y (vec fr) -> neq n y = false) ->
      issol (n_state n) = false ->
      finv fr' ->
      upds n (e_insert eqs n (st_expl st)) (fst (succ (st_prop st) (n_state n))) (vec fr) (vec fr') ->
      inv_opt init (Search fr' (e_insert eqs n (st_expl st)) p (n_state n :: st_queried st)).
  Proof.
    intros Hinv Hfr Hn Hmin Hmem Hne Hs Hfr' Hu.
    assert (Honce : inv_once eqs ltb add zero h succ init
              (Search fr' (e_insert eqs n (st_expl st)) p (n_state n :: st_queried st))).
    { eapply (inv_once_step eqs ltb add zero h succ issol guard true Heqs init eq_refl st n fr); eauto. apply Hinv. }
    split; [exact Honce|]. right. cbn [st_front st_expl]. rewrite Hdet in Hu.
    split.
    - destruct Honce as (_ & _ & [(Hq & _)|[_ Hd]]); [discriminate|exact Hd].
    - pose proof (inv_opt_pop st n) as Hnopt.
      destruct Hinv as [Ho Hph]. destruct Hph as [(He & Hv & _)|(Hdis & K)].
      + rewrite Hv in Hn. destruct Hn as [<-|[]].
        assert (Hins : e_insert eqs (Root init) (st_expl st) = [@Root S A C init]).
        { rewrite He. unfold e_insert, e_contains, n_eq. cbn. now rewrite (eqk_refl _ _ Heqs). }
        assert (Hno : forall y, ~ In y (vec fr)).
        { intros y Hy. assert (Hy' : In y (vec (st_front st))) by (apply Hmem; auto).
          rewrite Hv in Hy'. destruct Hy' as [<-|[]]. specialize (Hne _ Hy). unfold n_eq in Hne.
          now rewrite (eqk_refl _ _ Heqs) in Hne. }
        rewrite Hins in *.
        apply (closed_ok_expand [] [Root init] (vec (st_front st)) (vec fr) _ (Root init)); auto.
        * intros m. cbn. intuition.
        * easy.
        * intros m q [<-|[]] Hq. cbn in *. now apply root_optimal.
        * apply Forall_forall. intros y Hy. destruct (Hno y Hy).
      + assert (Hins : e_insert eqs n (st_expl st) = n :: st_expl st).
        { unfold e_insert. now rewrite Hdis. }
        rewrite Hins in *.
        apply (closed_ok_expand (st_expl st) (n :: st_expl st) (vec (st_front st)) (vec fr) _ n); auto.
        * intros m. cbn. intuition.
        * left. apply (k_root _ _ _ K).
        * apply (k_next _ _ _ K).
        * intros m q [<-|Hm] Hq; [|now apply (k_opt _ _ _ K m)].
          eapply (pop_optimal (st_expl st) (vec (st_front st))); eauto.
          apply contains_false_state. auto.
        * pose proof (k_total _ _ _ K) as Htot. rewrite Forall_forall in *. intros y Hy. apply Htot, Hmem. auto.
  Qed.

  Lemma inv_opt_init p fr : finv fr -> vec fr = [Root init] ->
    inv_opt init (Search fr [Root init] p []).
  Proof.
    intros Hf Hv. split; [now apply inv_once_init|]. left. auto.
  Qed.

  Lemma search_optimal_from fuel p n st :
    search_path eqs ltb add zero h succ issol guard true fuel init p = Ok (Some n, st) ->
    forall l, is_path succ init l (n_state n) -> le (n_g n) (cost l).
  Proof.
    intros H l Hl. apply search_path_loop in H as (fr & Hf & Hv & H); auto.
    apply (loop_ind eqs ltb add zero h succ issol guard true Heqs Hlt (inv_opt init)) in H.
    - destruct H as (st0 & Hinv & Hn & Hs & Hmin & _). eapply inv_opt_pop; eauto.
    - intros st0 Hst0. apply Hst0.
    - intros st0 n0 fr0 fr1 p0 ? ? ? ? ? ? ? ? ?. eapply (inv_opt_step st0 n0 fr0); eauto.
    - now apply inv_opt_init.
  Qed.

  (** With several solutions: what is found is no more expensive, with the heuristic, than any way to any of them. *)
  Definition inv_any (st : search S A C P) : Prop := inv_opt init st /\
    ((st_expl st = [Root init] /\ vec (st_front st) = [Root init]) \/ forall m, In m (st_expl st) -> issol (n_state m) = false).

  Lemma inv_any_step st n fr fr' p :
      inv_any st -> finv fr -> In n (vec (st_front st)) ->
      (forall y, In y (vec (st_front st)) -> leb ltb (n_f n) (n_f y)) ->
      (forall y, In y (vec (st_front st)) <-> y = n \/ In y (vec fr)) ->
      (forall y, In y (vec fr) -> neq n y = false) ->
      issol (n_state n) = false ->
      finv fr' ->
      upds n (e_insert eqs n (st_expl st)) (fst (succ (st_prop st) (n_state n))) (vec fr) (vec fr') ->
      inv_any (Search fr' (e_insert eqs n (st_expl st)) p (n_state n :: st_queried st)).
  Proof.
    intros [Hinv Hex] Hfr Hn Hmin Hmem Hne Hs Hfr' Hu. split; [eapply (inv_opt_step st n fr); eauto|]. right. cbn [st_expl].
    intros m Hm. assert (Hm' : m = n \/ In m (st_expl st)) by (unfold e_insert in Hm; destruct (e_contains eqs n (st_expl st)); cbn in Hm; intuition).
    destruct Hm' as [->|Hm']; auto. destruct Hex as [[He Hv]|Hex]; auto.
    rewrite He in Hm'. destruct Hm' as [<-|[]]. rewrite Hv in Hn. destruct Hn as [<-|[]]. exact Hs.
  Qed.

  Lemma inv_any_pop st n p t : inv_any st -> In n (vec (st_front st)) ->
    (forall y, In y (vec (st_front st)) -> le (n_f n) (n_f y)) -> issol t = true ->
    is_path succ init p t -> le (add (n_g n) (h (n_state n))) (add (cost p) (h t)).
  Proof.
    intros [[_ Hph] Hex] Hn Hmin Ht Hp.
    assert (Hroot : n = Root init -> le (add (n_g n) (h (n_state n))) (add (cost p) (h t))).
    { intros ->. apply (consistent_path p init t zero (reachable_refl succ init) Hp). }
    destruct Hph as [(_ & Hv & _)|(Hdis & K)]; [rewrite Hv in Hn; destruct Hn as [<-|[]]; auto|].
    destruct Hex as [[_ Hv]|Hex]; [rewrite Hv in Hn; destruct Hn as [<-|[]]; auto|].
    destruct (k_root _ _ _ K) as (r & Hr & Hrs).
    destruct (path_leaves _ _ K p [] r t) as (z & Hz & Hzf); auto.
    - cbn. auto.
    - now rewrite Hrs.
    - intros m Hm E. rewrite <- E, (Hex m Hm) in Ht. discriminate.
    - cbn [app] in Hzf. pose proof (k_total _ _ _ K) as Htot. rewrite Forall_forall in Htot.
      specialize (Hmin z Hz). rewrite (Htot n Hn) in Hmin. eapply le_trans; eauto.
  Qed.

  Lemma search_optimal_any_from fuel p n st :
    search_path eqs ltb add zero h succ issol guard true fuel init p = Ok (Some n, st) ->
    forall l t, is_path succ init l t -> issol t = true -> le (add (n_g n) (h (n_state n))) (add (cost l) (h t)).
  Proof.
    intros H l t Hl Ht. apply search_path_loop in H as (fr & Hf & Hv & H); auto.
    apply (loop_ind eqs ltb add zero h succ issol guard true Heqs Hlt inv_any) in H.
    - destruct H as (st0 & Hinv & Hn & Hs & Hmin & _). eapply inv_any_pop; eauto.
    - intros st0 Hst0. apply Hst0.
    - intros st0 n0 fr0 fr1 p0 ? ? ? ? ? ? ? ? ?. eapply (inv_any_step st0 n0 fr0); eauto.
    - split; [now apply inv_opt_init|]. left. auto.
  Qed.
End Optimal.

Lemma search_optimal_any {S A C P} (eqs : S -> S -> bool) (ltb : C -> C -> bool) (add : C -> C -> C) (zero : C)
    (h : S -> C) (succ : P -> S -> list (S * A * C) * P) (issol : S -> bool) (nb : S -> list (S * A * C)) :
  decides_eq eqs -> cost_laws ltb add -> deterministic succ nb ->
  consistent succ ltb add h -> cancellable ltb add h ->
  forall fuel init p n st,
    search_path eqs ltb add zero h succ issol (fun _ _ => true) true fuel init p = Ok (Some n, st) ->
    forall l t, is_path succ init l t -> issol t = true ->
    leb ltb (add (n_g zero n) (h (n_state n))) (add (path_cost add zero l) (h t)).
Proof.
  intros Heq Hc Hd Hcons Hcan fuel init p n st H l t Hl Ht.
  eapply (search_optimal_any_from eqs ltb add zero h succ issol nb); eauto.
  intros g s a c t' _ Ht'. now apply (Hcons g s a).
Qed.

Lemma search_optimal {S A C P} (eqs : S -> S -> bool) (ltb : C -> C -> bool) (add : C -> C -> C) (zero : C)
    (h : S -> C) (succ : P -> S -> list (S * A * C) * P) (issol : S -> bool) (nb : S -> list (S * A * C)) :
  decides_eq eqs -> cost_laws ltb add -> deterministic succ nb ->
  consistent succ ltb add h -> cancellable ltb add h ->
  forall fuel init p n st,
    search_path eqs ltb add zero h succ issol (fun _ _ => true) true fuel init p = Ok (Some n, st) ->
    forall l, is_path succ init l (n_state n) -> leb ltb (n_g zero n) (path_cost add zero l).
Proof.
  intros Heq Hc Hd Hcons Hcan fuel init p n st H l Hl.
  eapply (search_optimal_from eqs ltb add zero h succ issol nb); eauto.
  intros g s a c t _ Ht. now apply (Hcons g s a).
Qed.
