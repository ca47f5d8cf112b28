(** What a user expects of the costs of motions in floating point. *)
From Coq Require Import Reals ZArith.
From Flocq Require Import Core BinarySingleNaN.
From Verif Require Import Base CoordsFloat_model StraightFloat_model CompositeFloat_spec.
Local Open Scope R_scope.

(** A factor of a cost. *)
Definition factor (x : double) : Prop := is_finite x = true /\ 0 <= B2R x <= bpow radix2 400.

(** A path cost between zero and one for every pose of the path. *)
Definition costs (field : double -> res single) : Prop := forall r, is_ratio r -> exists c, field r = Ok c /\ is_finite c = true /\ 0 <= B2R c <= 1.
