(** The table of [NonHolonomicHeuristic], /repo/planner/src/algo/heuristics.{h,cpp}, and where it is read, in IEEE double precision. *)
From Coq Require Import ZArith.
From Flocq Require Import BinarySingleNaN.
From Verif Require Import Base CoordsFloat_model StraightFloat_model AngleFloat_model StateValidFloat_model.
Local Open Scope Z_scope.

(** Conversion to [unsigned int], undefined out of its range. *)
Definition to_uint (z : Z) : res Z := if (0 <=? z) && (z <? 2 ^ 32) then Ok z else UB.
(** [ceil] of a double, converted to [unsigned int]. *)
Definition d_ceil (x : double) : res Z :=
  match x with
  | B754_zero _ => Ok 0
  | B754_finite s m e _ =>
      to_uint (if 0 <=? e then SpecFloat.cond_Zopp s (Zpos m) * 2 ^ e else - ((- SpecFloat.cond_Zopp s (Zpos m)) / 2 ^ (- e)))
  | _ => UB
  end.
(** [round] of a double, halves away from zero, converted to [int]. *)
Definition d_round (x : double) : res Z :=
  match x with
  | B754_zero _ => Ok 0
  | B754_finite s m e _ =>
      to_int (SpecFloat.cond_Zopp s (if 0 <=? e then Zpos m * 2 ^ e else (2 * Zpos m + 2 ^ (- e)) / (2 * 2 ^ (- e))))
  | _ => UB
  end.

(** heuristics.h:24-27, the members that say where the table is read. *)
Record d_table := DTable { dt_res : double; dt_ang : double; dt_numx : Z; dt_numy : Z; dt_numang : Z; dt_offx : double; dt_offy : double }.

(** heuristics.cpp:45-50: an odd number of nodes for this size. *)
Definition d_nodes (size resolution : double) : res Z :=
  do n <- d_ceil (d_div size resolution);
  Ok (if Z.even n then (n + 1) mod 2 ^ 32 else n).
(** heuristics.cpp:14: [floor(num / 2.0) * spatialResolution]; the quotient and its floor are exact. *)
Definition d_offset (num : Z) (resolution : double) : double := d_mul (d_of (num / 2) 0) resolution.
(** heuristics.cpp:7-24 and 36-57, [Build] up to the loops. *)
Definition d_build (lower upper : d_pose) (resolution angular : double) : res d_table :=
  do numx <- d_nodes (d_sub (d_x upper) (d_x lower)) resolution;
  do numy <- d_nodes (d_sub (d_y upper) (d_y lower)) resolution;
  do numang <- d_ceil (d_div d_two_pi angular);
  Ok (DTable resolution angular numx numy numang (d_offset numx resolution) (d_offset numy resolution)).

(** 2dplane.h:64-77, [lhs - rhs], for the [sin] and [cos] of the mathematical library. The rotation of Eigen is that of the matrix with the rows
    [cos, -sin] and [sin, cos]. The constructor wraps the heading, too. *)
Definition d_pose_sub (fuel : nat) (dsin dcos : double -> double) (lhs rhs : d_pose) : res d_pose :=
  let dx := d_sub (d_x lhs) (d_x rhs) in
  let dy := d_sub (d_y lhs) (d_y rhs) in
  let s := dsin (Bopp (d_theta rhs)) in
  let c := dcos (Bopp (d_theta rhs)) in
  do t <- d_wrap fuel (d_sub (d_theta lhs) (d_theta rhs));
  do t <- d_wrap fuel t;
  Ok (DPose (d_add (d_mul c dx) (d_mul (Bopp s) dy)) (d_add (d_mul s dx) (d_mul c dy)) t).

(** heuristics.cpp:82-94 for the difference of goal and state: the entry of the table that is read, [None] if the distance is returned instead.
    Reading out of the bounds is undefined. An [int] that is compared with an [unsigned int] is converted modulo [2 ^ 32]. *)
Definition d_entry (t : d_table) (delta : d_pose) : res (option (Z * Z * Z)) :=
  do i <- d_round (d_div (d_add (d_x delta) (dt_offx t)) (dt_res t));
  do j <- d_round (d_div (d_add (d_y delta) (dt_offy t)) (dt_res t));
  do k <- d_round (d_div (d_theta delta) (dt_ang t));
  let k := if k mod 2 ^ 32 =? dt_numang t then 0 else k in
  if (i <? 0) || (i mod 2 ^ 32 >=? dt_numx t) || (j <? 0) || (j mod 2 ^ 32 >=? dt_numy t) then Ok None
  else if (0 <=? i) && (i <? dt_numx t) && (0 <=? j) && (j <? dt_numy t) && (0 <=? k) && (k <? dt_numang t) then Ok (Some (i, j, k))
  else UB.
(** heuristics.cpp:78-95, [GetHeuristicValue], which entry it reads. *)
Definition d_lookup (fuel : nat) (dsin dcos : double -> double) (t : d_table) (goal state : d_pose) : res (option (Z * Z * Z)) :=
  do delta <- d_pose_sub fuel dsin dcos goal state; d_entry t delta.
