(** What a user expects of a Reeds-Shepp path in double precision. *)
From Coq Require Import Reals.
From Flocq Require Import Core BinarySingleNaN.
From Verif Require Import Base CoordsFloat_model StraightFloat_model Bicycle_model RsFloat_model.
Local Open Scope R_scope.

(** At most five motions with lengths, and a turning radius. *)
Definition usable (radius : double) (l : list d_motion) : Prop :=
  is_finite radius = true /\ 0 < B2R radius <= bpow radix2 400 /\ (length l <= 5)%nat /\
  forall m, In m l -> is_finite (dm_len m) = true /\ 0 <= B2R (dm_len m) <= bpow radix2 400 /\ dm_dir m <> NoMotion.

(** The length of the motions, without rounding. *)
Fixpoint driven (radius : double) (l : list d_motion) : R :=
  match l with [] => 0 | m :: r => B2R (dm_len m) * B2R radius + driven radius r end.

(** The effect of rounding on the places along a path of the length [x]. *)
Definition blur (x : R) : R := bpow radix2 (-47) * x + bpow radix2 (-1070).

Section Move.
Variable Pose : Type.
Variable move : Pose -> d_motion -> double -> Pose.
(** The pose after all motions; those of the length zero do not move. *)
Definition drive (radius : double) (l : list d_motion) (init : Pose) : Pose :=
  fold_left (fun x m => if Beqb (d_mul (dm_len m) radius) d_zero then x else move x m (dm_len m)) l init.
End Move.

(** Going the length [d], up to [e], leads into the motion [p] after the motions [before], of which the ratio [s] is done. *)
Definition inside (radius : double) (l before : list d_motion) (p : d_motion) (s d e : R) : Prop :=
  (exists after, l = before ++ p :: after) /\ 0 <= s <= 1 /\ Rabs (driven radius before + s * (B2R (dm_len p) * B2R radius) - d) <= e.
