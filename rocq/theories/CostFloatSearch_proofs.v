(** The graph search on doubles, through the search on the subset of costs. *)
From Coq Require Import Reals ZArith Lra Lia.
From Flocq Require Import Core BinarySingleNaN.
From Verif Require Import Base Frontier_model Frontier_spec AStar_model AStar_spec AStar_proofs AStar_opt_proofs Rounded_spec RoundedSearch_proofs
  FrontierRel_proofs SearchRel_proofs CostFloat_model CostFloat_spec CostFloat_proofs.
Local Open Scope R_scope.

Lemma d_cost_dec (x : double) : {d_cost x} + {~ d_cost x}.
Proof. destruct x as [s|s| |s m e H]; cbn; auto; destruct s; auto; right; discriminate. Defined.
Definition lift (x : double) : costs := match d_cost_dec x with left H => exist _ x H | right _ => c_zero end.
Lemma lift_ok x : d_cost x -> c_dbl (lift x) = x.
Proof. intros H. unfold lift. destruct (d_cost_dec x); [reflexivity|contradiction]. Qed.

Section Search.
  Context {S A P : Type} (eqs : S -> S -> bool) (dflt : A) (h : S -> double) (succ : P -> S -> list (S * A * double) * P) (issol : S -> bool).
  Context (init : S) (Hin : cost_inputs h succ init).

  Definition h' (s : S) : costs := lift (h s).
  Definition succ' (p : P) (s : S) : list (S * A * costs) * P := (map (fun t => (fst t, lift (snd t))) (fst (succ p s)), snd (succ p s)).
  Definition up (e : step S A double) : step S A costs := (step_action e, lift (step_cost e), step_state e).
  Definition down (e : step S A costs) : step S A double := (step_action e, c_dbl (step_cost e), step_state e).
  Notation RC := (fun (c : costs) (d : double) => c_dbl c = d).
  Notation Q := (reachable succ init).
  Notation search' := (search_path eqs c_ltb c_add c_zero h' succ' issol (fun _ _ => true) true).

  Lemma succ_rel p s : Q s -> Forall2 (offer_rel RC Q) (fst (succ' p s)) (fst (succ p s)) /\ snd (succ' p s) = snd (succ p s).
  Proof.
    intros Hs. split; [|reflexivity]. cbn [succ' fst]. destruct Hin as [Hc _].
    assert (G : forall t, In t (fst (succ p s)) -> d_cost (snd t) /\ Q (fst (fst t))).
    { intros [[t a] c] Ht. cbn. assert (trans succ s a c t) by now exists p. split; [eauto|]. eapply reachable_step; eauto. }
    induction (fst (succ p s)) as [|t l IH]; cbn; constructor.
    - destruct (G t (or_introl eq_refl)). unfold offer_rel. cbn. repeat split; auto. now apply lift_ok.
    - apply IH. intros t' Ht'. apply G. now right.
  Qed.

  Lemma same_search fuel p : res_rel (found_rel RC Q) (search' fuel init p) (double_search eqs h succ issol fuel init p).
  Proof.
    apply search_path_rel; auto.
    - intros a a' b b' <- <-. reflexivity.
    - intros a a' b b' <- <-. reflexivity.
    - intros s Hs. apply lift_ok. now apply Hin.
    - apply succ_rel.
    - apply reachable_refl.
  Qed.

  Lemma trans_up s a c t : Q s -> trans succ s a c t -> trans succ' s a (lift c) t.
  Proof. intros Hs [p Hp]. exists p. cbn. apply in_map_iff. exists (t, a, c). auto. Qed.
  Lemma path_up l : forall s t, Q s -> is_path succ s l t -> is_path succ' s (map up l) t /\ map down (map up l) = l.
  Proof.
    induction l as [|e l IH]; intros s t Hs Hl; cbn in *; auto. destruct Hl as [He Hl].
    assert (Hq : Q (step_state e)) by (eapply reachable_step; eauto). destruct (IH _ _ Hq Hl) as [H1 H2].
    split; [split; [|exact H1]|].
    - apply (trans_up s _ _ _ Hs He).
    - f_equal; auto. destruct e as [[a c] t']. unfold up, down, step_action, step_cost, step_state. cbn. f_equal. f_equal. apply lift_ok. apply (proj1 Hin s a c t' Hs He).
  Qed.
  Lemma trans_down s a c t : Q s -> trans succ' s a c t -> trans succ s a (c_dbl c) t.
  Proof.
    intros Hs [p Hp]. cbn in Hp. apply in_map_iff in Hp as ([[t0 a0] c0] & E & Hp). cbn in E. injection E as <- <- <-. exists p.
    rewrite lift_ok; auto. apply (proj1 Hin s a0 c0 t0 Hs). now exists p.
  Qed.
  Lemma path_down l : forall s t, Q s -> is_path succ' s l t -> is_path succ s (map down l) t.
  Proof.
    induction l as [|e l IH]; intros s t Hs Hl; cbn in *; auto. destruct Hl as [He Hl]. apply trans_down in He; auto.
    split; [exact He|]. apply IH; auto. eapply reachable_step; eauto.
  Qed.
  Lemma reach_down s t : Q s -> reachable succ' s t -> reachable succ s t.
  Proof. intros Hs [l Hl]. exists (map down l). now apply path_down. Qed.

  Lemma cost_down (l : list (step S A costs)) : forall g, c_dbl (path_cost c_add g l) = path_cost d_add (c_dbl g) (map down l).
  Proof. unfold path_cost. induction l as [|e l IH]; intros g; cbn; auto. now rewrite IH. Qed.
  Lemma exact_down (l : list (step S A costs)) : exact_cost c_val l = exact_cost d_value (map down l).
  Proof. induction l as [|e l IH]; cbn; auto. now rewrite IH. Qed.
  Lemma fin_down (l : list (step S A costs)) : finite_steps c_fin l <-> finite_steps d_finite (map down l).
  Proof. unfold finite_steps. rewrite Forall_map. reflexivity. Qed.

  Lemma node_path (n : node S A costs) (n' : node S A double) : node_rel RC Q n n' ->
    n_state n = n_state n' /\ c_dbl (n_g c_zero n) = n_g d_zero n' /\ n_depth n = n_depth n' /\
    (forall k acc, fill_back n_state k (Some n) acc = fill_back n_state k (Some n') acc) /\
    (forall k acc, fill_back (n_action dflt) k (Some n) acc = fill_back (n_action dflt) k (Some n') acc).
  Proof.
    induction 1 as [s Hs|s a g f p g' f' p' Hs Hg Hf Hp (IH1 & IH2 & IH3 & IH4 & IH5)]; cbn [n_state n_g n_depth].
    - repeat split; auto; intros [|k] acc; cbn; auto; destruct k; auto.
    - repeat split; auto; intros [|k] acc; cbn [fill_back n_parent n_state n_action]; auto.
  Qed.

  Lemma swo : strict_weak_order costs c_ltb.
  Proof. apply (cost_laws_swo c_ltb c_add costs_laws). Qed.

  Lemma double_no_ub fuel p : equivalence S eqs -> match double_search eqs h succ issol fuel init p with
    | Ok _ => True | NoFuel => True | UB => False | Throw => False end.
  Proof.
    intros He. pose proof (same_search fuel p) as H.
    pose proof (search_no_ub eqs c_ltb c_add c_zero h' succ' issol (fun _ _ => true) true He swo fuel init p) as N.
    destruct (search' fuel init p), (double_search eqs h succ issol fuel init p); cbn in *; auto.
  Qed.

  Lemma double_found fuel p n st : double_search eqs h succ issol fuel init p = Ok (Some n, st) ->
    exists n0 st0, search' fuel init p = Ok (Some n0, st0) /\ node_rel RC Q n0 n.
  Proof.
    intros E. pose proof (same_search fuel p) as H. rewrite E in H. destruct (search' fuel init p) as [[[n0|] st0]| | |]; cbn in H; try contradiction.
    - exists n0, st0. split; auto. apply H.
    - destruct H as [[] _].
  Qed.

  Lemma double_sound fuel p n st : equivalence S eqs -> double_search eqs h succ issol fuel init p = Ok (Some n, st) ->
    exists l, is_path succ init l (n_state n) /\ issol (n_state n) = true /\
      get_path (Some n) = Ok (path_states init l) /\ get_actions dflt (Some n) = Ok (path_actions l) /\
      get_optimal_cost d_zero (Some n) = Some (path_cost d_add d_zero l).
  Proof.
    intros He E. destruct (double_found _ _ _ _ E) as (n0 & st0 & E0 & Hn).
    destruct (search_sound eqs c_ltb c_add c_zero dflt h' succ' issol (fun _ _ => true) true He swo _ _ _ _ _ E0) as (l & Hl & Hs & H1 & H2 & H3).
    destruct (node_path _ _ Hn) as (N1 & N2 & N3 & N4 & N5). exists (map down l). rewrite <- N1.
    split; [apply path_down; auto; apply reachable_refl|]. split; [exact Hs|].
    unfold get_path, get_actions, get_optimal_cost in *. rewrite <- N4, <- N5, <- N3, H1, H2. split; [f_equal; unfold path_states; now rewrite map_map|].
    split; [f_equal; unfold path_actions; now rewrite map_map|]. injection H3 as H3. rewrite <- N2, H3, cost_down. reflexivity.
  Qed.

  Lemma det_up nb : deterministic succ nb -> deterministic succ' (fun s => map (fun t => (fst t, lift (snd t))) (nb s)).
  Proof. intros H p s. cbn. now rewrite H. Qed.

  Lemma double_complete nb fuel p st : decides_eq eqs -> deterministic succ nb ->
    double_search eqs h succ issol fuel init p = Ok (None, st) -> forall t, Q t -> issol t = false.
  Proof.
    intros He Hd E t [l Hl]. pose proof (same_search fuel p) as H. rewrite E in H.
    destruct (search' fuel init p) as [[[n0|] st0]| | |] eqn:E0; cbn in H; try contradiction; [destruct H as [[] _]|].
    apply (search_complete eqs c_ltb c_add c_zero h' succ' issol (fun _ _ => true) true _ He swo (det_up nb Hd) _ _ _ _ E0).
    exists (map up l). apply path_up; auto. apply reachable_refl.
  Qed.

  Lemma double_near nb eta fuel p n st : decides_eq eqs -> deterministic succ nb -> 0 <= eta -> estimate succ d_value d_finite h eta init ->
    double_search eqs h succ issol fuel init p = Ok (Some n, st) ->
    forall l t, is_path succ init l t -> issol t = true -> finite_steps d_finite l ->
    growth d_unit eta ^ length l * (exact_cost d_value l + d_value (h t)) <= d_max ->
    d_finite (n_g d_zero n) /\
    d_value (n_g d_zero n) + d_value (h (n_state n)) <= growth d_unit eta ^ length l * (exact_cost d_value l + d_value (h t)).
  Proof.
    intros He Hd Heta Hest E l t Hl Ht Hf Hb. destruct (double_found _ _ _ _ E) as (n0 & st0 & E0 & Hn).
    assert (Q0 : Q init) by apply reachable_refl.
    destruct (path_up l init t Q0 Hl) as [Hl' El].
    assert (Vh : forall s, Q s -> c_val (h' s) = d_value (h s)).
    { intros s Hs. unfold c_val, h'. rewrite lift_ok; auto. now apply Hin. }
    pose proof (search_near eqs c_ltb c_add c_zero c_val c_fin d_unit d_max eta h' succ' issol _ He costs_rounded (det_up nb Hd) Heta init) as X.
    assert (Qt : Q t) by now exists l.
    destruct (rel_state RC Q _ _ Hn) as [Hns Hnq].
    specialize (X ltac:(intros s Hs; apply reach_down in Hs; auto; unfold c_fin, h'; rewrite lift_ok; now apply Hin)).
    specialize (X ltac:(intros s k v Hs Hk Hfk; apply reach_down in Hs; auto; rewrite !Vh; auto;
      [rewrite exact_down; apply Hest; auto; [now apply path_down|now apply fin_down]
      |destruct Hs as [k0 Hk0]; exists (k0 ++ map down k); apply is_path_app; exists s; split; auto; apply path_down; auto; now exists k0])).
    specialize (X fuel p n0 st0 E0 (map up l) t Hl' Ht). rewrite exact_down, El, map_length in X.
    destruct (node_path _ _ Hn) as (_ & N2 & _). unfold c_fin, c_val in X. rewrite N2 in X. unfold c_val in Vh. rewrite !Vh in X by (auto; congruence). rewrite Hns in X.
    apply X; auto. apply fin_down. now rewrite El.
  Qed.

  Lemma double_exact (l : list (step S A double)) t : is_path succ init l t -> d_finite (path_cost d_add d_zero l) ->
    finite_steps d_finite l /\
    (1 - d_unit) ^ length l * exact_cost d_value l <= d_value (path_cost d_add d_zero l) <= (1 + d_unit) ^ length l * exact_cost d_value l.
  Proof.
    intros Hl Hf. destruct (path_up l init t (reachable_refl _ _) Hl) as [Hl' El].
    pose proof (path_cost_exact c_ltb c_add c_zero c_val c_fin d_unit d_max costs_rounded (map up l) c_zero) as X.
    unfold c_fin at 1 in X. rewrite cost_down, El in X. specialize (X Hf). destruct X as (_ & F & X).
    split; [apply fin_down in F; now rewrite El in F|]. rewrite exact_down, El, map_length in X.
    assert (V : c_val (path_cost c_add c_zero (map up l)) = d_value (path_cost d_add d_zero l)) by (unfold c_val; now rewrite cost_down, El).
    rewrite V in X. change (c_val c_zero) with 0 in X. rewrite Rplus_0_l in X. exact X.
  Qed.
End Search.

(** ** Without a heuristic *)
Lemma add_zero_val x : d_cost x -> d_finite x -> d_finite (d_add x d_zero) /\ B2R (d_add x d_zero) = B2R x.
Proof. unfold d_finite. destruct x as [s|s| |s m e H]; cbn; try easy; destruct s; auto. Qed.
Lemma add_zero_inf : d_add (B754_infinity false) d_zero = B754_infinity false.
Proof. reflexivity. Qed.

Lemma c_leb (x y : costs) : leb c_ltb x y <-> c_dbl y = B754_infinity false \/ (d_finite (c_dbl x) /\ d_finite (c_dbl y) /\ B2R (c_dbl x) <= B2R (c_dbl y)).
Proof. apply ltb_false; apply c_ok. Qed.

Lemma zero_equiv (x : costs) : leb c_ltb x (c_add x c_zero) /\ leb c_ltb (c_add x c_zero) x.
Proof.
  rewrite !c_leb. cbn [c_add c_dbl proj1_sig c_zero]. change (proj1_sig x) with (c_dbl x).
  destruct (cost_cases _ (c_ok x)) as [F|F]; [|rewrite F, add_zero_inf; auto].
  destruct (add_zero_val _ (c_ok x) F) as [F' E]. split; right; repeat split; auto; lra.
Qed.

Lemma add_grows (x y : costs) : leb c_ltb x (c_add x y).
Proof.
  apply c_leb. cbn [c_add c_dbl proj1_sig]. change (proj1_sig x) with (c_dbl x). change (proj1_sig y) with (c_dbl y).
  destruct (cost_cases _ (c_ok x)) as [F|F]; [|left; rewrite F; apply add_inf_l, c_ok].
  destruct (cost_cases _ (c_ok y)) as [G|G]; [|left; rewrite G; apply add_inf_r, c_ok].
  destruct (add_fin _ _ (c_ok x) (c_ok y) F G) as [(_ & F' & E)|[_ E]]; auto. right. repeat split; auto. rewrite E.
  pose proof (cost_pos _ (c_ok y)). apply round_ge_generic; auto with typeclass_instances; [apply fmt|lra].
Qed.

Lemma zero_cancellable {S} : cancellable c_ltb c_add (fun _ : S => c_zero).
Proof.
  intros g1 g2 _ H. eapply (le_trans c_ltb c_add costs_laws); [apply zero_equiv|]. eapply (le_trans c_ltb c_add costs_laws); [exact H|apply zero_equiv].
Qed.
Lemma zero_consistent {S A P} (succ : P -> S -> list (S * A * costs) * P) : consistent succ c_ltb c_add (fun _ => c_zero).
Proof. intros g s a c t _. apply (c_mono _ _ _ costs_laws). apply add_grows. Qed.

Lemma double_dijkstra {S A P} eqs (succ : P -> S -> list (S * A * double) * P) issol nb init :
  decides_eq eqs -> deterministic succ nb -> (forall s a c t, reachable succ init s -> trans succ s a c t -> d_cost c) ->
  forall fuel p n st, double_search eqs (fun _ => d_zero) succ issol fuel init p = Ok (Some n, st) ->
  forall l t, is_path succ init l t -> issol t = true -> d_ltb (path_cost d_add d_zero l) (n_g d_zero n) = false.
Proof.
  intros He Hd Hc fuel p n st E l t Hl Ht.
  assert (Hin : cost_inputs (fun _ : S => d_zero) succ init) by (split; [auto|intros s _; split; [exact I|reflexivity]]).
  destruct (double_found eqs _ succ issol init Hin _ _ _ _ E) as (n0 & st0 & E0 & Hn).
  assert (Z : lift d_zero = c_zero) by reflexivity.
  destruct (path_up _ succ init Hin l init _ (reachable_refl succ init) Hl) as [Hl' El].
  pose proof (search_optimal_any eqs c_ltb c_add c_zero (fun _ => c_zero) (succ' succ) issol _ He costs_laws (det_up succ nb Hd)
    (zero_consistent _) zero_cancellable fuel init p n0 st0 E0 (map up l) t Hl' Ht) as X.
  assert (Y : leb c_ltb (n_g c_zero n0) (path_cost c_add c_zero (map up l))).
  { eapply (le_trans c_ltb c_add costs_laws); [apply (proj1 (zero_equiv _))|].
    eapply (le_trans c_ltb c_add costs_laws); [exact X|]. apply (proj2 (zero_equiv _)). }
  unfold leb, c_ltb in Y. rewrite cost_down, El in Y.
  replace (c_dbl (n_g c_zero n0)) with (n_g d_zero n) in Y; [exact Y|]. symmetry. exact (rel_g _ _ _ _ eq_refl _ _ Hn).
Qed.
