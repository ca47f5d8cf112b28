(** The collision term over the reals. *)
From Coq Require Import Reals.
From Flocq Require Import Core BinarySingleNaN.
From Verif Require Import Base CoordsFloat_model.
Local Open Scope R_scope.

(** Within [radius] of the obstacle, the gradient of half of [weight] times the square of how much the sample is too close; nothing elsewhere. [n] is the
    distance, [x] a coordinate of the way from the obstacle. *)
Definition push (weight radius n x : R) : R := if Rlt_dec n radius then weight * (n - radius) * (x / n) else 0.

(** A weight or radius. *)
Definition amount (x : single) : Prop := is_finite x = true /\ 0 <= B2R x <= bpow radix2 30.
(** A way that is neither very long nor very short. *)
Definition usual (x y : double) : Prop := is_finite x = true /\ is_finite y = true /\ Rabs (B2R x) <= bpow radix2 60 /\ Rabs (B2R y) <= bpow radix2 60 /\
  bpow radix2 (-60) <= sqrt (B2R x * B2R x + B2R y * B2R y).
