(** Mathematical libraries, and arcs. *)
From Coq Require Import Reals.
From Flocq Require Import Core BinarySingleNaN.
From Verif Require Import Base CoordsFloat_model StateValidFloat_model Bicycle_model.
Local Open Scope R_scope.

(** The functions of the library are right up to 2^-52 (sine and cosine of angles up to 32) or a relative error of 2^-50 (tangent), and exact at
    zero, of which there are two. *)
Record accurate (dsin dcos dtan datan : double -> double) : Prop := {
  acc_sin : forall x, is_finite x = true -> Rabs (B2R x) <= 32 -> is_finite (dsin x) = true /\ Rabs (B2R (dsin x) - sin (B2R x)) <= bpow radix2 (-52);
  acc_cos : forall x, is_finite x = true -> Rabs (B2R x) <= 32 -> is_finite (dcos x) = true /\ Rabs (B2R (dcos x) - cos (B2R x)) <= bpow radix2 (-52);
  acc_tan : forall x, is_finite x = true -> Rabs (tan (B2R x)) <= bpow radix2 60 ->
    is_finite (dtan x) = true /\ Rabs (B2R (dtan x) - tan (B2R x)) <= bpow radix2 (-50) * Rabs (tan (B2R x)) + bpow radix2 (-1074);
  acc_sin_0 : forall x, is_finite x = true -> B2R x = 0 -> is_finite (dsin x) = true /\ B2R (dsin x) = 0;
  acc_cos_0 : forall x, is_finite x = true -> B2R x = 0 -> is_finite (dcos x) = true /\ B2R (dcos x) = 1;
  acc_atan_0 : forall x, is_finite x = true -> B2R x = 0 -> is_finite (datan x) = true /\ B2R (datan x) = 0
}.

(** Three numbers. *)
Definition numbers (p : d_pose) : Prop := is_finite (d_x p) = true /\ is_finite (d_y p) = true /\ is_finite (d_theta p) = true.

(** The length of a motion, with a sign. *)
Definition signed (dir : direction) (s : R) : R := match dir with Backward => - s | _ => s end.

(** [p] is at the end of the arc of length [s] and curvature [k] (not zero) that starts at [from], up to [e] per coordinate and [eh] in the heading. *)
Definition at_end_of_arc (e eh k s : R) (from p : d_pose) : Prop :=
  let th := B2R (d_theta from) in
  Rabs (B2R (d_x p) - (B2R (d_x from) + (sin (th + s * k) - sin th) / k)) <= e /\
  Rabs (B2R (d_y p) - (B2R (d_y from) + (cos th - cos (th + s * k)) / k)) <= e /\
  Rabs (B2R (d_theta p) - (th + s * k)) <= eh.

(** The same for the straight line. *)
Definition at_end_of_line (e s : R) (from p : d_pose) : Prop :=
  let th := B2R (d_theta from) in
  Rabs (B2R (d_x p) - (B2R (d_x from) + s * cos th)) <= e /\ Rabs (B2R (d_y p) - (B2R (d_y from) + s * sin th)) <= e /\ B2R (d_theta p) = th.
