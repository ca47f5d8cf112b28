(** What a user expects of the non-holonomic heuristic. *)
From Coq Require Import Reals.
From Verif Require Import Base RealBase Pose_model Pose_spec Rs_model NonHol_model.
Local Open Scope R_scope.

(** A heuristic with sensible parameters. *)
Record built (h : nonhol) : Prop := {
  b_build : exists lower upper, nh_build lower upper (nh_res h) (nh_ang h) (nh_radius h) (nh_reverse h) (nh_forward h) (nh_switching h) = Ok h;
  b_res : 0 < nh_res h;
  b_ang : / 100000000 <= nh_ang h;
  b_radius : 0 < nh_radius h
}.

(** The cost of the path that the Reeds-Shepp solver proposes. *)
Definition solver_cost (h : nonhol) (from to : pose) (c : R) : Prop :=
  exists g, optimal_path from to (nh_radius h) (nh_reverse h) (nh_forward h) (nh_switching h) = Ok g /\
    g_cost g (nh_radius h) (nh_reverse h) (nh_forward h) (nh_switching h) = Some c.

(** The distance of goal and state is small enough for indices of type [int]. *)
Definition near (h : nonhol) (goal state : pose) : Prop :=
  Rabs (px (pose_sub goal state)) + nh_offx h <= 1000000000 * nh_res h /\ Rabs (py (pose_sub goal state)) + nh_offy h <= 1000000000 * nh_res h.

(** Beyond the nodes of the table, and within them. *)
Definition beyond (h : nonhol) (delta : pose) : Prop :=
  nh_offx h + nh_res h / 2 < Rabs (px delta) \/ nh_offy h + nh_res h / 2 < Rabs (py delta).
Definition within (h : nonhol) (delta : pose) : Prop :=
  Rabs (px delta) < nh_offx h + nh_res h / 2 /\ Rabs (py delta) < nh_offy h + nh_res h / 2.

(** The pose [node] is near [delta], up to half a resolution. *)
Definition nearest (h : nonhol) (node delta : pose) : Prop :=
  Rabs (px node - px delta) <= nh_res h / 2 /\ Rabs (py node - py delta) <= nh_res h / 2 /\
  exists th, same_angle (pth node) th /\ Rabs (th - pth delta) <= nh_ang h / 2.
