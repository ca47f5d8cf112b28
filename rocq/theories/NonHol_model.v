(** Model of [NonHolonomicHeuristic], /repo/planner/src/algo/heuristics.{h,cpp}, over the reals. *)
From Coq Require Import Reals.
From Verif Require Import Base RealBase Pose_model Straight_model Coords_model Rs_model.
Local Open Scope R_scope.

(** Conversion of a floating-point value to [unsigned int]: undefined when the truncated value is not one. *)
Definition uint_max : Z := (2 ^ 32 - 1)%Z.
Definition cast_uint (x : R) : res Z :=
  let n := Rtrunc x in
  if (0 <=? n)%Z && (n <=? uint_max)%Z then Ok n else UB.

(** heuristics.h:24-27. The table [m_values] is not stored, see [nh_entry]. *)
Record nonhol := NonHol {
  nh_res : R; nh_ang : R; nh_radius : R; nh_reverse : R; nh_forward : R; nh_switching : R;
  nh_numx : Z; nh_numy : Z; nh_numang : Z; nh_offx : R; nh_offy : R
}.

(** heuristics.cpp:7-24, the constructor. *)
Definition nh_new (resolution angular radius reverse forward switching : R) (numx numy : Z) : res nonhol :=
  do numang <- cast_uint (IZR (Rceil (2 * PI / angular)));
  Ok (NonHol resolution angular radius reverse forward switching numx numy numang
    (IZR (Rfloor (IZR numx / 2)) * resolution) (IZR (Rfloor (IZR numy / 2)) * resolution)).

(** heuristics.cpp:45-50: an odd number of nodes for this size. *)
Definition nh_nodes (size resolution : R) : res Z :=
  do n <- cast_uint (IZR (Rceil (size / resolution)));
  Ok (if Z.even n then (n + 1) mod 2 ^ 32 else n)%Z.

(** heuristics.cpp:36-57, [Build], for the bounds [lower] and [upper]. *)
Definition nh_build (lower upper : pose) (resolution angular radius reverse forward switching : R) : res nonhol :=
  do numx <- nh_nodes (px upper - px lower) resolution;
  do numy <- nh_nodes (py upper - py lower) resolution;
  nh_new resolution angular radius reverse forward switching numx numy.

(** heuristics.cpp:65-74: what [Build] writes into the table at [i], [j], [k]; [None] is the cost of a path without motions, which
    is infinite. *)
Definition nh_node (h : nonhol) (i j k : Z) : pose :=
  mk_pose (IZR i * nh_res h - nh_offx h) (IZR j * nh_res h - nh_offy h) (IZR k * nh_ang h).
Definition nh_entry (h : nonhol) (i j k : Z) : res (option R) :=
  do g <- optimal_path (nh_node h i j k) (mk_pose 0 0 0) (nh_radius h) (nh_reverse h) (nh_forward h) (nh_switching h);
  Ok (g_cost g (nh_radius h) (nh_reverse h) (nh_forward h) (nh_switching h)).

(** heuristics.cpp:94: the read is undefined outside the table. *)
Definition nh_read (h : nonhol) (i j k : Z) : res (option R) :=
  if ((0 <=? i) && (i <? nh_numx h) && (0 <=? j) && (j <? nh_numy h) && (0 <=? k) && (k <? nh_numang h))%Z then nh_entry h i j k else UB.

(** heuristics.cpp:78-95, [GetHeuristicValue]. An [int] that is compared with an [unsigned int] is converted modulo [2 ^ 32]. *)
Definition nh_value (h : nonhol) (goal state : pose) : res (option R) :=
  let delta := pose_sub goal state in
  do i <- cast_int (IZR (Rround ((px delta + nh_offx h) / nh_res h)));
  do j <- cast_int (IZR (Rround ((py delta + nh_offy h) / nh_res h)));
  do k <- cast_int (IZR (Rround (pth delta / nh_ang h)));
  let k := (if k mod 2 ^ 32 =? nh_numang h then 0 else k)%Z in
  if ((i <? 0) || (i mod 2 ^ 32 >=? nh_numx h) || (j <? 0) || (j mod 2 ^ 32 >=? nh_numy h))%Z then
    Ok (Some (Rmin (nh_reverse h) (nh_forward h) * pnorm (position delta)))
  else nh_read h i j k.
