(** The motions found by the graph search of Hybrid A* end in pairwise different cells. *)
From Coq Require Import Reals.
From Verif Require Import Base RealBase Grid_model Coords_model Pose_model Pose_spec Straight_model Bicycle_model Rs_model PathCost_model Validator_model
  Frontier_model Frontier_spec AStar_model AStar_spec AStar_proofs AStarSimple_proofs Hybrid_model Hybrid_spec Hybrid_proofs.
Local Open Scope R_scope.

Section Simple.
  Variables (m : params) (f : frames) (field : cell -> res (option R)) (vres : R) (validate : path -> res (bool * R)) (heur : pose -> res xreal)
    (Rng : Type) (draw : Rng -> R * Rng) (goal : pose).
  Notation h_succ := (h_succ m f field vres validate heur Rng draw goal).
  Notation graph_search := (graph_search m f field vres validate heur Rng draw goal).

  Lemma ends_cells fuel : forall l s t, is_path (h_succ fuel) s l t ->
    Forall2 (fun p c => discretize m p = Ok c) (map dp_final (path_actions l)) (map (fun e => hs_cell (step_state e)) l).
  Proof.
    induction l as [|e l IH]; intros s t H; cbn in *; constructor.
    - destruct H as [[g I] _]. apply succ_spec in I. destruct I as (E1 & E2 & _). rewrite <- E1. exact E2.
    - destruct H as [_ H]. eapply IH; eauto.
  Qed.

  Lemma distinct_cells l : pairwise_distinct hs_eqb l -> NoDup (map hs_cell l).
  Proof.
    induction 1 as [|s l Hs Hl IH]; cbn; constructor; auto. intros I. apply in_map_iff in I as (s' & E & I). rewrite Forall_forall in Hs.
    specialize (Hs s' I). unfold hs_eqb in Hs. rewrite E in Hs. unfold ipose_eqb in Hs. now rewrite !Z.eqb_refl in Hs.
  Qed.

  Lemma motions_distinct vfuel fuel init g n st : graph_search vfuel fuel init g = Ok (Some n, st) ->
    exists l cells, search_motions (Some n) = Ok l /\ Forall2 (fun p c => discretize m p = Ok c) (init :: map dp_final l) cells /\ NoDup cells.
  Proof.
    unfold Hybrid_model.graph_search, state_of_pose. destruct (discretize m init) as [ci| | |] eqn:Ei; try discriminate. cbn [bind].
    destruct (discretize m goal) as [cg| | |]; try discriminate. cbn [bind].
    destruct (search_path _ _ _ _ _ _ _ _ _ _ _ _) as [[sol st']| | |] eqn:E; try discriminate. cbn [bind].
    destruct (st_prop st'); try discriminate. cbn [bind]. intros K. assert (sol = Some n) as -> by congruence.
    pose proof (search_simple_path _ _ _ _ _ _ _ _ hs_equiv x_swo _ _ _ _ _ E) as (path & Ep & Hd).
    apply (@search_sound _ _ _ _ _ _ _ _ dflt_path _ _ _ _ _ hs_equiv x_swo) in E as (l & Hp & Hs & Hg & Ha & _).
    exists (path_actions l), (ci :: map (fun e => hs_cell (step_state e)) l). split; [exact Ha|]. split; [constructor; [exact Ei|eapply ends_cells; eauto]|].
    rewrite Ep in Hg. injection Hg as ->. apply distinct_cells in Hd. unfold path_states in Hd. cbn in Hd. now rewrite map_map in Hd.
  Qed.
End Simple.
