(** Property C128: the path cost of the Voronoi diagram in single precision.

    As in C27, the theorems hold for every resolution of ties in the two queues, every size of map whose squared distances are representable,
    and every history of the operations of the maps in which edges are set by the updates only. *)
From Coq Require Import Reals ZArith Lra Lia.
From Flocq Require Import Core BinarySingleNaN.
From Verif Require Import Base Grid_model Grid_spec Gvd_model Gvd_spec PathCost_model Gvd_api_proofs Gvd_props
  CoordsFloat_model ObstHeurFloat_spec PathCostFloat_model PathCostFloat_proofs.
Local Open Scope R_scope.

(** The distances that the maps report: finite, zero on obstacles only and otherwise a cell or more, and the distance of the cells up to two
    roundings. *)
Theorem C128_distance : forall (resolution : single) d, s_finite resolution -> 0 < s_value resolution <= bpow radix2 30 -> (0 <= d <= inf)%Z ->
  s_finite (float_distance resolution d) /\ (d = 0%Z -> s_value (float_distance resolution d) = 0) /\
  ((1 <= d)%Z -> s_value resolution <= s_value (float_distance resolution d)) /\
  Rabs (s_value (float_distance resolution d) - sqrt (IZR d) * s_value resolution) <= 2 * s_unit * (sqrt (IZR d) * s_value resolution) + bpow radix2 (-149).
Proof.
  intros r d F H D. destruct (float_distance_real r d F H D) as (A & _ & B & C & G). do 3 (split; [assumption|]). exact G.
Qed.
Print Assumptions C128_distance.

(** The cost of a cell: never NaN, between 0 and 1 without any error, 0 from [dMax] on and on the edges, 1 on obstacles, and elsewhere the formula
    applied to the reported distances up to twelve roundings. *)
Theorem C128_path_cost :
  forall R C, representable R C -> forall alpha dMax resolution : single, s_finite alpha -> s_finite dMax -> s_finite resolution ->
  0 < s_value alpha <= bpow radix2 100 -> 0 < s_value dMax <= bpow radix2 100 -> 0 < s_value resolution <= bpow radix2 30 ->
  forall top topv, priority top -> priority topv -> forall occ, sized R C occ -> forall ops,
  well_used R C false (ops ++ [GUpdateObstacles; GUpdateVoronoi]) -> existsb is_edge ops = false ->
  reaches top topv occ (ops ++ [GUpdateObstacles; GUpdateVoronoi]) (fun st => forall c, inside R C c ->
    exists x, get_float_cost alpha dMax resolution st c = Ok x /\ s_finite x /\ 0 <= s_value x <= 1 /\
      (forall d, squared_distance_to_obstacle (g_obs st) c = Ok d -> s_value dMax <= s_value (float_distance resolution d) -> s_value x = 0) /\
      (forall w, g_vor st = Some w -> nearest_obstacle w c = Ok c -> s_value x = 0) /\
      (obstacle ops c -> s_value x = 1) /\
      (forall w d v y, g_vor st = Some w -> squared_distance_to_obstacle (g_obs st) c = Ok d -> squared_distance_to_obstacle w c = Ok v ->
        path_cost (s_value alpha) (s_value dMax) (s_value (float_distance resolution d)) (s_value (float_distance resolution v)) = Some y ->
        Rabs (s_value x - y) <= 12 * s_unit * y + bpow radix2 (-140))).
Proof. exact float_api_costs. Qed.
Print Assumptions C128_path_cost.

(** The constants of the diagram and an ordinary resolution meet the hypotheses. *)
Example C128_constants : s_finite gvd_alpha /\ s_finite gvd_dMax /\ s_finite (s_of 1 (-1)) /\
  s_value gvd_alpha = 20 /\ s_value gvd_dMax = 30 /\ s_value (s_of 1 (-1)) = / 2 /\ 30 <= bpow radix2 30 /\ bpow radix2 30 <= bpow radix2 100.
Proof.
  do 3 (split; [reflexivity|]). split; [|split; [|split; [|split]]].
  - change (s_value gvd_alpha) with (F2R (Float radix2 10485760 (-19))). unfold F2R. cbn [Fnum Fexp]. change (bpow radix2 (-19)) with (/ 524288). lra.
  - change (s_value gvd_dMax) with (F2R (Float radix2 15728640 (-19))). unfold F2R. cbn [Fnum Fexp]. change (bpow radix2 (-19)) with (/ 524288). lra.
  - change (s_value (s_of 1 (-1))) with (F2R (Float radix2 8388608 (-24))). unfold F2R. cbn [Fnum Fexp]. change (bpow radix2 (-24)) with (/ 16777216). lra.
  - change (bpow radix2 30) with 1073741824. lra.
  - apply bpow_le. lia.
Qed.

(** Two obstacles of different objects, cells of half a metre: the obstacle, the cell beside it, the edge between them. *)
Definition float_cost_at (c : cell) : res SpecFloat.spec_float :=
  do st0 <- g_new two_objects;
  do st <- g_run oldest oldest 5000 st0 ([GVoronoi; GSet (Cell 1 0); GSet (Cell 1 6)] ++ [GUpdateObstacles; GUpdateVoronoi]);
  do x <- get_float_cost gvd_alpha gvd_dMax (s_of 1 (-1)) st c;
  Ok (B2SF x).
Example C128_costs : float_cost_at (Cell 1 0) = Ok (SpecFloat.S754_finite false 8388608 (-23)) /\
  float_cost_at (Cell 1 1) = Ok (SpecFloat.S754_finite false 10551308 (-24)) /\ float_cost_at (Cell 1 3) = Ok (SpecFloat.S754_zero false).
Proof. repeat split; vm_compute; reflexivity. Qed.

(** Why the edges must be set by the updates only: an obstacle that a caller also makes an edge has the cost NaN. *)
Example C128_foreign_edge_is_nan :
  (do st0 <- g_new (empty_occ 2 2);
   do st <- g_run oldest oldest 100 st0 ([GSet (Cell 0 0); GUpdateObstacles; GVoronoi; GSetEdge (Cell 0 0)] ++ [GUpdateObstacles; GUpdateVoronoi]);
   do x <- get_float_cost gvd_alpha gvd_dMax (s_of 1 (-1)) st (Cell 0 0);
   Ok (B2SF x)) = Ok SpecFloat.S754_nan.
Proof. vm_compute. reflexivity. Qed.
