(** Reeds-Shepp paths in IEEE double precision, /repo/planner/src/paths/path_reeds_shepp.cpp: the paths of [Rs_model.v] with the arithmetic of the code.
    The motion of the pose along a turn or a line is a parameter here. *)
From Coq Require Import ZArith.
From Flocq Require Import BinarySingleNaN.
From Verif Require Import Base CoordsFloat_model StraightFloat_model Bicycle_model Composite_model.
Local Open Scope Z_scope.

(** reeds_shepp.h:51-62, [Motion]. *)
Record d_motion := DMotion { dm_steer : steer; dm_dir : direction; dm_len : double }.

(** reeds_shepp.cpp:437-453, [AddMotion], the length of a segment made of the motions (its valid ones, in order). *)
Definition d_motions_length (l : list d_motion) : double := fold_left (fun a m => d_add a (Babs (dm_len m))) l d_zero.
(** reeds_shepp.h:89, [GetLength], which the constructor of the path stores, path_reeds_shepp.cpp:6. *)
Definition d_rs_length (radius : double) (l : list d_motion) : double := d_mul (d_motions_length l) radius.

(** [std::min]. *)
Definition d_min (a b : double) : double := if Bltb b a then b else a.

Section Move.
Variable Pose : Type.
(** path_reeds_shepp.cpp:34-38: [Straight] or [Turn], for the normalized length to drive. *)
Variable move : Pose -> d_motion -> double -> Pose.

(** path_reeds_shepp.cpp:22-44, the loop of [Interpolate]; [d] is [ratio * totalLength]. *)
Fixpoint d_interp_loop (radius d : double) (l : list d_motion) (len : double) (interp : Pose) : Pose :=
  match l with
  | [] => interp
  | m :: r =>
      let ml := d_mul (dm_len m) radius in
      if Beqb ml d_zero then d_interp_loop radius d r len interp
      else
        let ratio := d_min (d_div (d_sub d len) ml) d_one in
        let interp := move interp m (d_mul (dm_len m) ratio) in
        let len := d_add len ml in
        if Bleb d len then interp else d_interp_loop radius d r len interp
  end.
(** path_reeds_shepp.cpp:12-47, [Interpolate]. *)
Definition d_rs_at (radius : double) (l : list d_motion) (init : Pose) (ratio : double) : Pose :=
  let total := d_rs_length radius l in
  if Beqb total d_zero then init else d_interp_loop radius (d_mul ratio total) l d_zero init.
(** path_reeds_shepp.cpp:9, the final state. *)
Definition d_rs_final (radius : double) (l : list d_motion) (init : Pose) : Pose := d_rs_at radius l init d_one.
End Move.

(** path_reeds_shepp.cpp:153-167, [GetDirection]. *)
Fixpoint d_direction_loop (radius d : double) (l : list d_motion) (len : double) : direction :=
  match l with
  | [] => NoMotion
  | m :: r => let len := d_add len (d_mul (dm_len m) radius) in if Bleb d len then dm_dir m else d_direction_loop radius d r len
  end.
Definition d_rs_direction (radius : double) (l : list d_motion) (ratio : double) : direction :=
  let total := d_rs_length radius l in
  if Beqb total d_zero then NoMotion else d_direction_loop radius (d_mul ratio total) l d_zero.

(** path_reeds_shepp.cpp:96-119, [GetCuspPointRatios]; the set is given by a list of its elements. *)
Fixpoint d_rs_cusp_loop (radius total : double) (l : list d_motion) (prev : direction) (len : double) : list double :=
  match l with
  | [] => []
  | m :: r =>
      let ratio := d_div len total in
      if Bltb d_one ratio then []
      else (if direction_eqb (dm_dir m) prev then [] else [ratio]) ++ d_rs_cusp_loop radius total r (dm_dir m) (d_add len (d_mul (dm_len m) radius))
  end.
Definition d_rs_cusps (radius : double) (l : list d_motion) : list double :=
  let total := d_rs_length radius l in
  if Beqb total d_zero then []
  else match l with [] => [] | m :: r => d_rs_cusp_loop radius total r (dm_dir m) (d_mul (dm_len m) radius) end.
