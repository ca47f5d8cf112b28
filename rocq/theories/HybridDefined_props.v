(** Property C124: Hybrid A* always returns. *)
From Coq Require Import Reals Lra.
From Verif Require Import Base RealBase Grid_model Coords_model Pose_model Straight_model Validator_model AStar_model Hybrid_model HybridDemo_proofs
  HybridDefined_spec HybridDefined_proofs HybridOutside_proofs.
Local Open Scope R_scope.

(** Full statement: if the map covers the bounds of the state space, the search from a valid start to a valid goal returns, without
    undefined behaviour.

    It does not hold: motions may leave the bounds by up to the interpolation distance of the validator, and the Voronoi cost of such
    a motion is read at a cell outside the map. *)
Theorem C124_returns_refuted :
  exists m f field vres clearance lb ub minSafe minStep heur Rng draw goal init (g : Rng) k,
  prepared m f field vres clearance lb ub minStep heur 0 /\
  within lb ub 0 (position init) /\ within lb ub 0 (position goal) /\
  is_state_valid f clearance lb ub minSafe init = Ok true /\ is_state_valid f clearance lb ub minSafe goal = Ok true /\
  forall i j n, (k <= i)%nat -> (k <= j)%nat -> (k <= n)%nat ->
  graph_search m f field vres (is_path_valid f clearance lb ub minSafe minStep i) heur Rng draw goal j n init g = UB.
Proof.
  exists demo_params, demo_frames, out_field, 1, out_clear, out_lb, out_ub, (1 / 2), (1 / 10), demo_heur, unit, demo_draw, out_goal, out_init, tt, 2%nat.
  split; [exact out_prepared|]. split; [unfold within; cbn; lra|]. split; [unfold within; cbn; lra|]. split; [apply out_valid; lra|]. split; [apply out_valid; lra|]. exact out_search.
Qed.
Print Assumptions C124_returns_refuted.

(** It holds if the map also covers what is up to the interpolation distance outside the bounds: all loops of the search end, and
    their result is defined. The numbers [i], [j] and [n] bound the samples of the validator, those of the Voronoi cost, and the
    expanded states. *)
Theorem C124_returns_partial :
  forall m f field vres clearance lb ub minSafe minStep heur Rng draw goal init (g : Rng),
  prepared m f field vres clearance lb ub minStep heur minStep ->
  within lb ub minStep (position init) -> within lb ub minStep (position goal) ->
  exists result st k, forall i j n, (k <= i)%nat -> (k <= j)%nat -> (k <= n)%nat ->
  graph_search m f field vres (is_path_valid f clearance lb ub minSafe minStep i) heur Rng draw goal j n init g = Ok (result, st).
Proof.
  intros m f field vres clearance lb ub minSafe minStep heur Rng draw goal init g [H1 H2 H3 H4 H5 H6 H7 H8 H9 H10] Hi Hg. now apply search_returns.
Qed.
Print Assumptions C124_returns_partial.

Example C124_prepared : prepared demo_params demo_frames out_field 1 out_clear in_lb in_ub (1 / 10) demo_heur (1 / 10) /\
  within in_lb in_ub (1 / 10) (position (Pose 2 2 0)) /\ within in_lb in_ub (1 / 10) (position (Pose 8 8 0)).
Proof. split; [exact in_prepared|]. unfold within. cbn. lra. Qed.
