(** The kinematic bicycle in IEEE double precision, /repo/planner/src/models/kinematic_bicycle_model.cpp and paths/path_constant_steer.cpp, for any
    functions of the mathematical library. The operations are rounded one by one: a compiler may contract them to fused operations, which
    is not modelled. *)
From Coq Require Import ZArith.
From Flocq Require Import BinarySingleNaN.
From Verif Require Import Base CoordsFloat_model StraightFloat_model StateValidFloat_model Bicycle_model.
Local Open Scope Z_scope.

Section Library.
(** [sin], [cos], [tan] and [atan] of the mathematical library. *)
Variables dsin dcos dtan datan : double -> double.

(** The literal [1e-9]. *)
Definition d_nano : double := d_of 4835703278458517 (-82).

(** kinematic_bicycle_model.cpp:14-18, the rate of the heading. *)
Definition d_beta (wheelbase rear steering : double) : double := datan (d_div (d_mul rear (dtan steering)) wheelbase).
Definition d_rate (wheelbase rear steering : double) : double :=
  d_div (d_mul (dcos (d_beta wheelbase rear steering)) (dtan steering)) wheelbase.

(** kinematic_bicycle_model.cpp:5-32, [ConstantSteer]. The unqualified [abs] is taken as the absolute value of a double. *)
Definition d_constant_steer (wheelbase rear : double) (from : d_pose) (steering dist : double) (dir : direction) : d_pose :=
  let dist := match dir with Backward => Bopp dist | _ => dist end in
  let beta := d_beta wheelbase rear steering in
  let rate := d_rate wheelbase rear steering in
  let dist := d_div dist (dcos beta) in
  if Bltb d_nano (Babs rate) then
    let th := d_add (d_theta from) (d_mul dist rate) in
    DPose (d_add (d_x from) (d_mul (d_div d_one rate) (d_sub (dsin (d_add beta th)) (dsin (d_add beta (d_theta from))))))
          (d_add (d_y from) (d_mul (d_div d_one rate) (d_add (Bopp (dcos (d_add beta th))) (dcos (d_add beta (d_theta from))))))
          th
  else DPose (d_add (d_x from) (d_mul dist (dcos (d_theta from)))) (d_add (d_y from) (d_mul dist (dsin (d_theta from)))) (d_theta from).

(** path_constant_steer.cpp:11-14, [Interpolate], for the initial pose, steering, length and direction of the path. *)
Definition d_path_at (wheelbase rear : double) (from : d_pose) (steering length : double) (dir : direction) (ratio : double) : d_pose :=
  d_constant_steer wheelbase rear from steering (d_mul length ratio) dir.
End Library.
