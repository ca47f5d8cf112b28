(** Model of the plane geometry, /repo/planner/src/geometry/2dplane.h, of /repo/planner/src/utils/maths.h and of
    [WrapAngle] (/repo/planner/src/geometry/reeds_shepp.cpp:16-19), over the reals. *)
From Coq Require Import Reals.
From Verif Require Import Base RealBase.
Local Open Scope R_scope.

(** 2dplane.h:40-41 and 42-43, the loops of [WrapTheta], with [fuel] iterations at most. *)
Fixpoint while_above (fuel : nat) (t : R) : R :=
  match fuel with
  | O => t
  | S k => if Rltb PI t then while_above k (t - 2 * PI) else t
  end.
Fixpoint while_below (fuel : nat) (t : R) : R :=
  match fuel with
  | O => t
  | S k => if Rltb t (- PI) then while_below k (t + 2 * PI) else t
  end.

(** 2dplane.h:36-45, [WrapTheta]. Each iteration changes [t] by more than one, so that this number of iterations is
    enough: [C45_wrap_fuel] proves that allowing more does not change the result. *)
Definition wrap_fuel (t : R) : nat := Z.to_nat (up (Rabs t)).
Definition wrap_theta (t : R) : R := while_below (wrap_fuel t) (while_above (wrap_fuel t) t).

(** 2dplane.h:16-34, [Pose2<double>]. *)
Record pose := Pose { px : R; py : R; pth : R }.

(** 2dplane.h:19-22, the constructors. *)
Definition mk_pose (x y th : R) : pose := Pose x y (wrap_theta th).

(** Eigen::Rotation2D(th) * (x, y). *)
Definition rot_x (th x y : R) : R := cos th * x - sin th * y.
Definition rot_y (th x y : R) : R := sin th * x + cos th * y.

(** 2dplane.h:49-62, [operator+]. *)
Definition pose_add (l r : pose) : pose :=
  let out := mk_pose (rot_x (pth l) (px r) (py r)) (rot_y (pth l) (px r) (py r)) (pth l + pth r) in
  Pose (px out + px l) (py out + py l) (wrap_theta (pth out)).

(** 2dplane.h:65-78, [operator-]. *)
Definition pose_sub (l r : pose) : pose :=
  let dx := px l - px r in
  let dy := py l - py r in
  let out := mk_pose (rot_x (- pth r) dx dy) (rot_y (- pth r) dx dy) (pth l - pth r) in
  Pose (px out) (py out) (wrap_theta (pth out)).

(** fmod: the remainder with the sign of the first argument. *)
Definition fmod (x m : R) : R := x - IZR (Rtrunc (x / m)) * m.

(** maths.h:9-16, [Modulo]. *)
Definition modulo (x m : R) : R :=
  let out := fmod x m in
  if Rltb out 0 then out + m else out.

(** reeds_shepp.cpp:16-19, [WrapAngle]. *)
Definition wrap_angle (theta : R) : R := modulo (theta + PI) (2 * PI) - PI.
