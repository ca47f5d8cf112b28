(** The motions of Reeds-Shepp paths in IEEE double precision, /repo/planner/src/paths/path_reeds_shepp.cpp, for any [sin] and [cos] of the mathematical
    library. The operations are rounded one by one: a compiler may contract them to fused operations, which is not modelled. *)
From Coq Require Import ZArith.
From Flocq Require Import BinarySingleNaN.
From Verif Require Import Base CoordsFloat_model StraightFloat_model AngleFloat_model StateValidFloat_model Bicycle_model RsFloat_model.
Local Open Scope Z_scope.

Section Library.
Variables dsin dcos : double -> double.
(** The rounds of the loops of [WrapTheta]. *)
Variable fuel : nat.

(** 2dplane.h:18-22, the constructors: the heading is wrapped. *)
Definition d_mk_pose (x y t : double) : res d_pose := do t <- d_wrap fuel t; Ok (DPose x y t).

(** 2dplane.h:47-61, [lhs + rhs]. The rotation of Eigen is that of the matrix with the rows [cos, -sin] and [sin, cos]. *)
Definition d_pose_add (lhs rhs : d_pose) : res d_pose :=
  let s := dsin (d_theta lhs) in
  let c := dcos (d_theta lhs) in
  do out <- d_mk_pose (d_add (d_mul c (d_x rhs)) (d_mul (Bopp s) (d_y rhs))) (d_add (d_mul s (d_x rhs)) (d_mul c (d_y rhs))) (d_add (d_theta lhs) (d_theta rhs));
  do t <- d_wrap fuel (d_theta out);
  Ok (DPose (d_add (d_x out) (d_x lhs)) (d_add (d_y out) (d_y lhs)) t).

(** path_reeds_shepp.cpp:121-133, [Straight]. *)
Definition d_rs_straight (radius : double) (start : d_pose) (dir : direction) (len : double) : res d_pose :=
  let len := match dir with Backward => Bopp len | _ => len end in
  let len := d_mul len radius in
  d_mk_pose (d_add (d_x start) (d_mul len (dcos (d_theta start)))) (d_add (d_y start) (d_mul len (dsin (d_theta start)))) (d_theta start).

(** path_reeds_shepp.cpp:135-151, [Turn]. *)
Definition d_rs_turn (radius : double) (start : d_pose) (dir : direction) (st : steer) (angle : double) : res d_pose :=
  let angle := match dir with Backward => Bopp angle | _ => angle end in
  let phi := d_div angle (d_of 2 0) in
  let cosPhi := dcos phi in
  let sinPhi := dsin phi in
  let L := d_mul (d_mul (d_of 2 0) sinPhi) radius in
  let x := d_mul L cosPhi in
  let y := d_mul L sinPhi in
  match st with
  | SRight => do p <- d_mk_pose x (d_mul y (d_of (-1) 0)) (d_mul angle (d_of (-1) 0)); d_pose_add start p
  | _ => do p <- d_mk_pose x y angle; d_pose_add start p
  end.

(** path_reeds_shepp.cpp:34-38. *)
Definition d_rs_move (radius : double) (start : res d_pose) (m : d_motion) (len : double) : res d_pose :=
  do start <- start;
  match dm_steer m with
  | SStraight => d_rs_straight radius start (dm_dir m) len
  | st => d_rs_turn radius start (dm_dir m) st len
  end.

(** path_reeds_shepp.cpp:12-47, [Interpolate], for the loop of [RsFloat_model.v]. *)
Definition d_rs_pose (radius : double) (l : list d_motion) (init : d_pose) (ratio : double) : res d_pose :=
  d_rs_at (res d_pose) (d_rs_move radius) radius l (Ok init) ratio.
End Library.
