(** What a user expects of the samples of a path in double precision. *)
From Coq Require Import Reals ZArith.
From Flocq Require Import Core BinarySingleNaN.
From Verif Require Import Base CoordsFloat_model StraightFloat_model CompositeFloat_spec.
Local Open Scope R_scope.

(** A length, a step that is at least 2^-40 of it, and less than 2^30 ratios. *)
Definition sampling (total step : double) (cusps : list double) : Prop :=
  is_finite total = true /\ is_finite step = true /\ bpow radix2 (-900) <= B2R step <= bpow radix2 900 /\ 0 <= B2R total <= bpow radix2 40 * B2R step /\
  (forall c, In c cusps -> is_ratio c) /\ (Z.of_nat (length cusps) < 2 ^ 30)%Z.

(** The ratios at which the path has an end or a cusp. *)
Definition special (cusps : list double) (c : double) : Prop := is_ratio c /\ (B2R c = 0 \/ B2R c = 1 \/ exists x, In x cusps /\ B2R c = B2R x).

(** The places at multiples of the step, as they are added up. *)
Definition added_up (step : double) (i : nat) : double := Nat.iter i (fun len => d_add len step) d_zero.
