(** What a user expects of a straight path. *)
From Coq Require Import Reals.
From Verif Require Import Base Pose_model Coords_model Straight_model.
Local Open Scope R_scope.

(** Euclidean distance between points. *)
Definition distance (a b : point) : R := sqrt ((fst b - fst a) * (fst b - fst a) + (snd b - snd a) * (snd b - snd a)).

(** The paths a user can hold: connections, truncated any number of times by a ratio that is not negative. *)
Inductive rbuilt : rpath -> Prop :=
| rb_connect a b : rbuilt (r_connect a b)
| rb_truncate p r : rbuilt p -> 0 <= r -> rbuilt (r_truncate p r).

Inductive sbuilt : spath -> Prop :=
| sb_connect a b : sbuilt (s_connect a b)
| sb_truncate p r : sbuilt p -> 0 <= r -> sbuilt (s_truncate p r).
