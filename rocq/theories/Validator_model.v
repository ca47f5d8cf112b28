(** Model of /repo/planner/src/state_validator/state_validator_occupancy_map.{h,cpp} and state_validator_free.h. Floats are
    modelled by reals. The overload of [IsPathValid] in state_validator.h:30-37 passes a float for a pointer and cannot be
    instantiated; it is not modelled. *)
From Coq Require Import Reals.
From Verif Require Import Base RealBase Grid_model Coords_model Pose_model Straight_model StateSpace_model Gvd_model PathCost_model.
Local Open Scope R_scope.

(** A path as the validator sees it: paths/path.h:26-57. [p_at] is [Interpolate], [p_init] is [GetInitialState]. *)
Record path := Path { p_init : pose; p_length : R; p_at : R -> res pose }.

(** [GetDistanceToNearestObstacle] of the obstacle distance map [m], gvd.h:38. *)
Definition map_clearance (m : dmap) (resolution : R) (c : cell) : res R :=
  rmap (reported_distance resolution) (squared_distance_to_obstacle m c).

Section Validator.
(** The map: its frames and the distance to the nearest obstacle that it reports for a cell. *)
Variable f : frames.
Variable clearance : cell -> res R.
(** The bounds of the state space, [minSafeRadius] and [minPathInterpolationDistance]. *)
Variables lb ub : pose.
Variables minSafe minStep : R.

(** state_validator_occupancy_map.cpp:15-26, [IsStateValid]. *)
Definition is_state_valid (s : pose) : res bool :=
  let local := world_to_local f (position s) in
  do c <- world_to_cell f (position s) true;
  if negb (se2_validate lb ub (mk_pose (fst local) (snd local) (pth s))) || negb (inside_cell f c) then Ok false
  else do d <- clearance c; Ok (Rleb minSafe d).

(** Lines 54-65: the length added after a valid state. *)
Definition step_length (s : pose) : res R :=
  let border := Rmin (Rmin (Rmin (px s - px lb) (px ub - px s)) (py s - py lb)) (py ub - py s) in
  do c <- world_to_cell f (position s) true;
  do d <- clearance c;
  Ok (Rmax (Rmin (d - minSafe) border) minStep).

(** Lines 42-66, the loop. The result is what [IsPathValid] returns and the ratio stored through [last]. *)
Fixpoint validate_loop (fuel : nat) (p : path) (length lastValid : R) : res (bool * R) :=
  if Rltb length (p_length p) then
    match fuel with
    | O => NoFuel
    | S k =>
        do s <- p_at p (length / p_length p);
        do v <- is_state_valid s;
        if negb v then Ok (false, lastValid / p_length p)
        else do d <- step_length s; validate_loop k p (length + d) length
    end
  else Ok (true, 1).

(** Lines 28-71, [IsPathValid]. *)
Definition is_path_valid (fuel : nat) (p : path) : res (bool * R) :=
  if Reqb (p_length p) 0 then do v <- is_state_valid (p_init p); Ok (v, 1)
  else validate_loop fuel p 0 0.

End Validator.

(** state_validator_free.h:25-30, [IsPathValid]. *)
Definition free_is_path_valid (p : path) : bool * R := (true, 1).
