(** The cost of the motions of Hybrid A* with constant steering, /repo/planner/src/algo/hybrid_a_star.cpp:93-146, with the single and double
    precision arithmetic of the code. *)
From Coq Require Import ZArith.
From Flocq Require Import BinarySingleNaN.
From Verif Require Import Base CoordsFloat_model StraightFloat_model ValidatorFloat_model ObstHeurFloat_model Bicycle_model.
Local Open Scope Z_scope.

(** hybrid_a_star.cpp:38, [m_gvd->resolution * std::sqrt(2.0)] stored in a [float]; the factors are exchanged. *)
Definition d_diagonal (resolution : single) : single := narrow (d_mul (@Bsqrt 53 1024 (eq_refl _) (eq_refl _) mode_NE (d_of 2 0)) (widen resolution)).

(** hybrid_a_star.cpp:100-105: each iteration overwrites [voronoiCost]. [field] is the path cost of the cell of the pose at a ratio. *)
Fixpoint d_voronoi_loop (fuel : nat) (field : double -> res single) (total step len : double) (cost : single) : res single :=
  if Bltb len total then
    match fuel with
    | O => NoFuel
    | S k => do c <- field (d_div len total); d_voronoi_loop k field total step (d_add len step) c
    end
  else Ok cost.

(** hybrid_a_star.cpp:93-109, [GetVoronoiCost]. *)
Definition d_voronoi_cost (fuel : nat) (field : double -> res single) (multiplier : double) (interp : single) (total : double) : res double :=
  do c <- d_voronoi_loop fuel field total (widen interp) d_zero s_zero;
  Ok (d_mul multiplier (widen (s_mul c interp))).

(** hybrid_a_star.cpp:130-146, the transition cost of [GetConstantSteerChild]; the switching cost is zero, as the direction at the end is compared
    with itself. *)
Definition d_steer_cost (fuel : nat) (field : double -> res single) (forward reverse voronoi : double) (interp : single) (dir : direction) (total : double) : res double :=
  let pathCost := match dir with Forward => d_mul forward total | Backward => d_mul reverse total | NoMotion => d_zero end in
  do v <- d_voronoi_cost fuel field voronoi interp total;
  Ok (d_add (d_add pathCost d_zero) v).
