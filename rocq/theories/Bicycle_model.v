(** Model of the kinematic bicycle, /repo/planner/src/models/kinematic_bicycle_model.{h,cpp}, and of paths with constant
    steering, /repo/planner/src/paths/path_constant_steer.{h,cpp}, over the reals. *)
From Coq Require Import Reals.
From Verif Require Import Base RealBase Pose_model.
Local Open Scope R_scope.

(** path.h:9-19. *)
Inductive steer := SLeft | SStraight | SRight.
Inductive direction := Forward | Backward | NoMotion.

(** kinematic_bicycle_model.h:28-29. *)
Record bicycle := Bicycle { wheelbase : R; rear_to_center : R }.

(** kinematic_bicycle_model.cpp:14-18. A wheelbase of zero and the tangent of a right angle are not meaningful. *)
Definition beta (m : bicycle) (steering : R) : R := atan (rear_to_center m * tan steering / wheelbase m).
Definition dtheta_ddist (m : bicycle) (steering : R) : R := cos (beta m steering) * tan steering / wheelbase m.

(** kinematic_bicycle_model.cpp:5-32, [ConstantSteer]. The unqualified [abs] is taken as the absolute value of a double. The
    fields of [to] are assigned, so that the heading is not wrapped. *)
Definition constant_steer (m : bicycle) (from : pose) (steering dist : R) (dir : direction) : pose :=
  let dist := match dir with Backward => - dist | _ => dist end in
  let b := beta m steering in
  let d := dtheta_ddist m steering in
  let dist := dist / cos b in
  if Rltb (1 / 1000000000) (Rabs d) then
    let th := pth from + dist * d in
    Pose (px from + 1 / d * (sin (b + th) - sin (b + pth from)))
         (py from + 1 / d * (- cos (b + th) + cos (b + pth from))) th
  else Pose (px from + dist * cos (pth from)) (py from + dist * sin (pth from)) (pth from).

(** kinematic_bicycle_model.cpp:34-41, [GetSteeringAngleFromTurningRadius]. *)
Definition steering_from_radius (m : bicycle) (radius : R) : R :=
  if Rltb radius (rear_to_center m) then PI / 2
  else atan (wheelbase m / sqrt (radius ^ 2 - rear_to_center m ^ 2)).

(** path_constant_steer.h:12-31 and path.h:55-56. *)
Record csteer := CSteer { c_model : bicycle; c_init : pose; c_final : pose; c_length : R; c_steering : R; c_direction : direction }.

(** path_constant_steer.cpp:11-14, [Interpolate]. *)
Definition c_at (p : csteer) (ratio : R) : pose :=
  constant_steer (c_model p) (c_init p) (c_steering p) (c_length p * ratio) (c_direction p).

(** path_constant_steer.cpp:5-9, the constructor. *)
Definition c_new (m : bicycle) (init : pose) (steering len : R) (dir : direction) : csteer :=
  CSteer m init (constant_steer m init steering (len * 1) dir) len steering dir.

(** path_constant_steer.cpp:16-20, [Truncate]. *)
Definition c_truncate (p : csteer) (ratio : R) : csteer :=
  CSteer (c_model p) (c_init p) (c_at p ratio) (c_length p * ratio) (c_steering p) (c_direction p).

(** path_constant_steer.cpp:22-25, [GetDirection]; path.h:86-89, [GetCuspPointRatios], is not overridden. *)
Definition c_get_direction (p : csteer) (ratio : R) : direction := c_direction p.
Definition c_cusps (p : csteer) : list R := [].
