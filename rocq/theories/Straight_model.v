(** Model of the straight paths, /repo/planner/src/paths/path_r2.cpp and path_se2.cpp, over the reals. *)
From Coq Require Import Reals.
From Verif Require Import Base RealBase Pose_model Coords_model.
Local Open Scope R_scope.

(** Eigen [norm] of a vector of the plane. *)
Definition pnorm (v : point) : R := sqrt (fst v * fst v + snd v * snd v).

(** path.h:23-57, [Path<State>]: [m_init], [m_final], [m_length]. *)
Record rpath := RPath { r_init : point; r_final : point; r_length : R }.

(** path_r2.cpp:5-9 and 24-27, the constructor and [PathConnectionR2::Connect]. *)
Definition r_connect (a b : point) : rpath := RPath a b (pnorm (psub b a)).

(** path_r2.cpp:11-16, [Interpolate]. *)
Definition r_at (p : rpath) (ratio : R) : point :=
  ((1 - ratio) * fst (r_init p) + ratio * fst (r_final p), (1 - ratio) * snd (r_init p) + ratio * snd (r_final p)).

(** path_r2.cpp:18-22, [Truncate]. *)
Definition r_truncate (p : rpath) (ratio : R) : rpath := RPath (r_init p) (r_at p ratio) (r_length p * ratio).

(** path.h:39-46, [Interpolate] of several ratios. *)
Definition r_at_all (p : rpath) (ratios : list R) : list point := map (r_at p) ratios.

(** path.h:23-57 with State = Pose2d. *)
Record spath := SPath { s_init : pose; s_final : pose; s_length : R }.

Definition position (p : pose) : point := (px p, py p).

(** path_se2.cpp:5-9 and 25-28, the constructor and [PathConnectionSE2::Connect]. *)
Definition s_connect (a b : pose) : spath := SPath a b (pnorm (psub (position b) (position a))).

(** path_se2.cpp:11-17, [Interpolate]: the fields are assigned, so that the heading is not wrapped. *)
Definition s_at (p : spath) (ratio : R) : pose :=
  Pose ((1 - ratio) * px (s_init p) + ratio * px (s_final p))
       ((1 - ratio) * py (s_init p) + ratio * py (s_final p))
       ((1 - ratio) * pth (s_init p) + ratio * pth (s_final p)).

(** path_se2.cpp:19-23, [Truncate]. *)
Definition s_truncate (p : spath) (ratio : R) : spath := SPath (s_init p) (s_at p ratio) (s_length p * ratio).
