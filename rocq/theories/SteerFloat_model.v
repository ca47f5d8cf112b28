(** Steering of the random tree planners in IEEE double precision: /repo/planner/src/algo/rrt.h, algo/rrt_star.h and paths/path_r2.cpp. The operations
    are rounded one by one: a compiler may contract them to fused operations, which is not modelled. *)
From Coq Require Import ZArith.
From Flocq Require Import BinarySingleNaN.
From Verif Require Import Base CoordsFloat_model StraightFloat_model Rrt_model.
Local Open Scope Z_scope.

Definition d_root (x : double) : double := @Bsqrt 53 1024 (eq_refl _) (eq_refl _) mode_NE x.

(** geometry/2dplane.h, [Point2d]: an Eigen vector of two doubles. *)
Definition dpoint : Type := double * double.
Definition dp_sub (a b : dpoint) : dpoint := (d_sub (fst a) (fst b), d_sub (snd a) (snd b)).
(** Eigen [norm]: the root of the sum of the squares. *)
Definition d_norm (v : dpoint) : double := d_root (d_add (d_mul (fst v) (fst v)) (d_mul (snd v) (snd v))).

(** path.h:23-57, [Path<Point2d>]: [m_init], [m_final], [m_length]. *)
Record d2path := D2Path { d2_init : dpoint; d2_final : dpoint; d2_length : double }.
(** path_r2.cpp:5-9 and 24-27, the constructor and [PathConnectionR2::Connect]. *)
Definition d2_connect (a b : dpoint) : d2path := D2Path a b (d_norm (dp_sub b a)).
(** path_r2.cpp:11-22, [Interpolate] and [Truncate]. *)
Definition d2_at (p : d2path) (r : double) : dpoint :=
  (d_interp (fst (d2_init p)) (fst (d2_final p)) r, d_interp (snd (d2_init p)) (snd (d2_final p)) r).
Definition d2_truncate (p : d2path) (r : double) : d2path := D2Path (d2_init p) (d2_at p r) (d_mul (d2_length p) r).

(** std::clamp; a number that is not comparable is returned. *)
Definition d_clamp (x lo hi : double) : double := if Bltb x lo then lo else if Bltb hi x then hi else x.

(** rrt.h:132-140 and rrt_star.h:143-151, [SteerTowards], with straight connections. *)
Definition d_steer (d : double) (from to : dpoint) : d2path :=
  let path := d2_connect from to in
  if Bltb d_zero (d2_length path) then d2_truncate path (d_clamp (d_div d (d2_length path)) d_zero d_one) else path.

(** rrt.h:125-128, [IsSolution]. *)
Definition d_near_goal (goal state : dpoint) : bool := Bltb (d_norm (dp_sub state goal)) d_one.

(** [==] of points, where the two zeros are equal. *)
Definition d_point_eqb (a b : dpoint) : bool := Beqb (fst a) (fst b) && Beqb (snd a) (snd b).

(** rrt.h:55-95, [RRTR2::SearchPath]: Rrt_model.v in double precision. *)
Definition d_rrt (d : double) (goal : dpoint) (valid : d2path -> bool) (sample : Z -> dpoint) (nearest : Z -> list dpoint -> dpoint -> nat)
  (maxIteration maxNode : Z) (init : dpoint) : res (bool * tree dpoint (option d2path) * option nat * Z) :=
  rrt_search d_point_eqb d2_final (d_steer d) valid (d_near_goal goal) sample nearest maxIteration maxNode init.
