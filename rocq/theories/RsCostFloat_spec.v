(** What a user expects of the costs of Reeds-Shepp paths in floating point. *)
From Coq Require Import Reals ZArith.
From Flocq Require Import Core BinarySingleNaN.
From Verif Require Import Base CoordsFloat_model StraightFloat_model Bicycle_model Composite_model RsFloat_model.
Local Open Scope R_scope.

(** A factor of a cost in single precision. *)
Definition rate24 (x : single) : Prop := is_finite x = true /\ 0 <= B2R x <= bpow radix2 30.

(** One to five motions with lengths, and a turning radius. *)
Definition drivable (radius : double) (l : list d_motion) : Prop :=
  is_finite radius = true /\ 0 < B2R radius <= bpow radix2 30 /\ (1 <= length l <= 5)%nat /\
  forall m, In m l -> is_finite (dm_len m) = true /\ 0 <= B2R (dm_len m) <= bpow radix2 30 /\ dm_dir m <> NoMotion.

(** The length driven in a direction. *)
Fixpoint along (dir : direction) (radius : double) (l : list d_motion) : R :=
  match l with [] => 0 | m :: r => (if direction_eqb (dm_dir m) dir then B2R (dm_len m) * B2R radius else 0) + along dir radius r end.
(** The number of changes of the direction. *)
Fixpoint changes (l : list d_motion) : nat :=
  match l with
  | m :: ((n :: _) as r) => if direction_eqb (dm_dir m) (dm_dir n) then changes r else S (changes r)
  | _ => 0%nat
  end.
(** The cost without rounding. *)
Definition expected (radius : double) (reverse forward switching : single) (l : list d_motion) : R :=
  B2R forward * along Forward radius l + B2R reverse * along Backward radius l + B2R switching * INR (changes l).

(** The effect of rounding on a cost [x]. *)
Definition haze (reverse forward : single) (x : R) : R := bpow radix2 (-20) * x + bpow radix2 (-140) * (1 + B2R forward + B2R reverse).

(** The case in which the factor of the forward direction is not used. *)
Definition shortcut (reverse switching : single) : Prop := B2R reverse = 1 /\ B2R switching = 0.
