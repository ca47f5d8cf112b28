(** The search cell of a pose in IEEE double precision, /repo/planner/src/algo/hybrid_a_star.h:104-111 and geometry/2dplane.h:36-45. *)
From Coq Require Import ZArith.
From Flocq Require Import BinarySingleNaN.
From Verif Require Import Base CoordsFloat_model StraightFloat_model AngleFloat_model StateValidFloat_model Hybrid_model.
Local Open Scope Z_scope.

(** 2dplane.h:39-40 for [Pose2<int>]: the int is converted to double, compared and reduced, and the result truncated. The fuel is the number of tests. *)
Fixpoint d_int_above (fuel : nat) (t : Z) : res Z :=
  match fuel with
  | O => NoFuel
  | S k => if Bltb d_pi (d_of t 0) then do t' <- d_trunc (d_sub (d_of t 0) d_two_pi); d_int_above k t' else Ok t
  end.
(** 2dplane.h:41-42. *)
Fixpoint d_int_below (fuel : nat) (t : Z) : res Z :=
  match fuel with
  | O => NoFuel
  | S k => if Bltb (d_of t 0) (Bopp d_pi) then do t' <- d_trunc (d_add (d_of t 0) d_two_pi); d_int_below k t' else Ok t
  end.
(** 2dplane.h:35-44, [WrapTheta] of [Pose2i]. *)
Definition d_int_wrap (fuel : nat) (t : Z) : res Z := do t1 <- d_int_above fuel t; d_int_below fuel t1.

(** hybrid_a_star.h:104-111, [DiscretizePose], for the two resolutions; the constructor of [Pose2i] wraps the last argument. *)
Definition d_cell (fuel : nat) (spatial angular : double) (p : d_pose) : res ipose :=
  do x <- d_trunc (d_div (d_x p) spatial);
  do y <- d_trunc (d_div (d_y p) spatial);
  do w <- d_wrap fuel (d_theta p);
  do t <- d_trunc (d_div w angular);
  do h <- d_int_wrap fuel t;
  Ok (IPose x y h).
