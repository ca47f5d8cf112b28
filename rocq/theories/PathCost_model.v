(** Model of the path cost of the generalized Voronoi diagram, /repo/planner/src/state_validator/gvd.{h,cpp}.
    Floats are modelled by real numbers. *)
From Coq Require Import Reals.
From Verif Require Import Base RealBase Grid_model Gvd_model.
Local Open Scope R_scope.

(** gvd.h:38 and 78: [GetDistanceToNearestObstacle] and [GetDistanceToNearestVoronoiEdge]. *)
Definition reported_distance (resolution : R) (d : Z) : R := sqrt (IZR d) * resolution.

(** gvd.cpp:272-280, [PathCostMap::Update] for one cell. [None] stands for NaN, the value of the quotient 0/0. The test for
    an infinite distance to an edge is left out: distances are finite, even without any edge. *)
Definition path_cost (alpha dMax obstDist voroDist : R) : option R :=
  if Rleb dMax obstDist then Some 0
  else if Reqb (obstDist + voroDist) 0 then None
  else Some (alpha / (alpha + obstDist) * (voroDist / (obstDist + voroDist)) * ((obstDist - dMax) ^ 2 / dMax ^ 2)).

(** gvd.cpp:294-301 and gvd.h:146: [GetPathCost] after [GVD::Update] brought both maps to the state [st]. *)
Definition get_path_cost (alpha dMax resolution : R) (st : gst) (c : cell) : res (option R) :=
  match g_vor st with
  | None => UB
  | Some w =>
      do d <- squared_distance_to_obstacle (g_obs st) c;
      do v <- squared_distance_to_obstacle w c;
      Ok (path_cost alpha dMax (reported_distance resolution d) (reported_distance resolution v))
  end.
