(** What a user expects of the bicycle model and of paths with constant steering. *)
From Coq Require Import Reals.
From Verif Require Import Base RealBase Pose_model Coords_model Straight_spec Bicycle_model.
Local Open Scope R_scope.

(** Signed distance. *)
Definition signed (dir : direction) (d : R) : R := match dir with Backward => - d | _ => d end.

Definition reverse (dir : direction) : direction := match dir with Backward => Forward | _ => Backward end.

(** The position of the rear axle of a vehicle whose pose is given at its centre. *)
Definition rear (m : bicycle) (p : pose) : point := (px p - rear_to_center m * cos (pth p), py p - rear_to_center m * sin (pth p)).

(** The equations of the kinematic bicycle, with respect to the distance travelled by the rear axle: it moves in the direction
    of the heading, which turns by the tangent of the steering angle over the wheelbase. *)
Definition bicycle_motion (m : bicycle) (steering : R) (motion : R -> pose) : Prop :=
  forall s,
  derivable_pt_lim (fun t => fst (rear m (motion t))) s (cos (pth (motion s))) /\
  derivable_pt_lim (fun t => snd (rear m (motion t))) s (sin (pth (motion s))) /\
  derivable_pt_lim (fun t => pth (motion t)) s (tan steering / wheelbase m).

(** [p] lies on the circle. *)
Definition on_circle (center : point) (radius : R) (p : point) : Prop := distance center p = radius.

(** The paths a user can hold. *)
Inductive cbuilt : csteer -> Prop :=
| cb_new m init steering len dir : cbuilt (c_new m init steering len dir)
| cb_truncate p r : cbuilt p -> cbuilt (c_truncate p r).
