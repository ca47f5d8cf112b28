(** Vocabulary for angles and poses. *)
From Coq Require Import Reals.
From Verif Require Import Pose_model.
Local Open Scope R_scope.

(** Angles equal modulo full turns. *)
Definition same_angle (a b : R) : Prop := exists k : Z, a = b + 2 * PI * IZR k.
(** Poses equal up to full turns of the heading. *)
Definition same_pose (a b : pose) : Prop := px a = px b /\ py a = py b /\ same_angle (pth a) (pth b).
Definition zero_pose : pose := Pose 0 0 0.
