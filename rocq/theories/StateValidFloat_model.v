(** [IsStateValid], /repo/planner/src/state_validator/state_validator_occupancy_map.cpp:15-26, and what it calls, with the arithmetic of the
    code: positions and headings are double precision, the resolution, the clearance and [minSafeRadius] single precision. *)
From Coq Require Import ZArith.
From Flocq Require Import BinarySingleNaN.
From Verif Require Import Base Grid_model CoordsFloat_model StraightFloat_model ValidatorFloat_model AngleFloat_model PathCostFloat_model.
Local Open Scope Z_scope.

(** 2dplane.h:18-28, [Pose2d]. *)
Record d_pose := DPose { d_x : double; d_y : double; d_theta : double }.

(** occupancy_map.h:121-134: the size of the map, the origin of the local frame and that of the grid in the world frame. *)
Record d_frames := DFrames { d_resolution : single; d_rows : Z; d_columns : Z; d_local : double * double; d_grid : double * double }.

(** state_space_se2.cpp:15-25, [ValidateBounds]. *)
Definition d_validate (lb ub s : d_pose) : bool :=
  if Bltb (d_x s) (d_x lb) || Bltb (d_x ub) (d_x s) then false
  else if Bltb (d_y s) (d_y lb) || Bltb (d_y ub) (d_y s) then false
  else if Bltb (d_theta s) (d_theta lb) || Bltb (d_theta ub) (d_theta s) then false
  else true.

(** occupancy_map.cpp:27-30, [IsInsideMap] of a cell. *)
Definition d_inside (f : d_frames) (c : cell) : bool := (0 <=? row c) && (row c <? d_rows f) && (0 <=? col c) && (col c <? d_columns f).

(** occupancy_map.h:106-118 and 180-183, [WorldPositionToGridCell] with [bounded]. *)
Definition d_world_to_cell (f : d_frames) (x y : double) : res cell :=
  do r <- position_to_row (fst (d_grid f)) (d_resolution f) x;
  do c <- position_to_row (snd (d_grid f)) (d_resolution f) y;
  if d_inside f (Cell r c) then Ok (Cell r c) else Ok (Cell (-1) (-1)).

(** state_validator_occupancy_map.cpp:15-26. [distance] is the content of the distance map (squared, in cells); [fuel] is that of the loops of
    [WrapTheta], which the constructor of the local pose runs. *)
Definition d_state_valid (fuel : nat) (f : d_frames) (distance : cell -> res Z) (lb ub : d_pose) (minSafe : single) (s : d_pose) : res bool :=
  do theta <- d_wrap fuel (d_theta s);
  let local := DPose (d_sub (d_x s) (fst (d_local f))) (d_sub (d_y s) (snd (d_local f))) theta in
  do c <- d_world_to_cell f (d_x s) (d_y s);
  if negb (d_validate lb ub local) || negb (d_inside f c) then Ok false
  else do d <- distance c; Ok (Bleb minSafe (float_distance (d_resolution f) d)).

(** occupancy_map.cpp:5-19, [InitializeSize], with the origin of the local frame at [p]. *)
Definition d_frames_of (resolution width height : single) (p : double * double) : res d_frames :=
  do rows <- num_rows width resolution;
  do columns <- num_rows height resolution;
  Ok (DFrames resolution rows columns p (world_origin (fst p) width, world_origin (snd p) height)).
