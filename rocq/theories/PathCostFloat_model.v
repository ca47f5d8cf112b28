(** The path cost of the generalized Voronoi diagram, /repo/planner/src/state_validator/gvd.{h,cpp}, with the single and double precision
    arithmetic of the code: the squared distances are [int], what the maps report and what [PathCostMap] stores are [float]. *)
From Coq Require Import ZArith.
From Flocq Require Import BinarySingleNaN.
From Verif Require Import Base Grid_model Gvd_model CoordsFloat_model StraightFloat_model ValidatorFloat_model ObstHeurFloat_model.
Local Open Scope Z_scope.

(** gvd.h:38 and 78: [std::sqrt(m_distance[row][col]) * resolution]. The square root of an [int] and the product are double precision, the
    result is [float]. *)
Definition float_distance (resolution : single) (d : Z) : single :=
  narrow (d_mul (@Bsqrt 53 1024 (eq_refl _) (eq_refl _) mode_NE (d_of d 0)) (widen resolution)).

(** gvd.cpp:279: [std::pow(x, 2)] of a [float], which is a double. *)
Definition float_square (x : single) : double := d_mul (widen x) (widen x).

(** gvd.cpp:274: [voroDist == std::numeric_limits<float>::infinity()]. *)
Definition is_plus_infinity (x : single) : bool := match x with B754_infinity false => true | _ => false end.

(** gvd.cpp:272-280, [PathCostMap::Update] for one cell. *)
Definition float_path_cost (alpha dMax obstDist voroDist : single) : single :=
  if Bleb dMax obstDist || is_plus_infinity voroDist then s_zero
  else
    narrow (d_mul (widen (s_mul (s_div alpha (s_add alpha obstDist)) (s_div voroDist (s_add obstDist voroDist))))
      (d_div (float_square (s_sub obstDist dMax)) (float_square dMax))).

(** gvd.cpp:294-301 and gvd.h:146: [GetPathCost] after [GVD::Update] brought both maps to the state [st]. *)
Definition get_float_cost (alpha dMax resolution : single) (st : gst) (c : cell) : res single :=
  match g_vor st with
  | None => UB
  | Some w =>
      do d <- squared_distance_to_obstacle (g_obs st) c;
      do v <- squared_distance_to_obstacle w c;
      Ok (float_path_cost alpha dMax (float_distance resolution d) (float_distance resolution v))
  end.

(** gvd.h:180: the constants of the diagram. *)
Definition gvd_alpha : single := s_of 20 0.
Definition gvd_dMax : single := s_of 30 0.
