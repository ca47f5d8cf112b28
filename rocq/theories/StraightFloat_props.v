(** C120: straight paths in double precision. *)
From Coq Require Import Reals ZArith Lra.
From Flocq Require Import Core BinarySingleNaN.
From Verif Require Import Base CoordsFloat_model StraightFloat_model StraightFloat_proofs.
Local Open Scope R_scope.

(** The full claim, "interpolation between two finite numbers with a ratio in [0, 1] gives their ends at 0 and 1 and never leaves the interval
    between them", is false: between 3 and 3 the number at ratio 0.2 is greater than 3. A path along the upper border of a state space
    may thus leave the state space. *)
Theorem C120_stays_between_refuted :
  ~ (forall a b r : double, is_finite a = true -> is_finite b = true -> is_finite r = true -> 0 <= B2R r <= 1 ->
      Rmin (B2R a) (B2R b) <= B2R (d_interp a b r) <= Rmax (B2R a) (B2R b)).
Proof.
  intros H. specialize (H (d_of 3 0) (d_of 3 0) (d_div d_one (d_of 5 0)) eq_refl eq_refl eq_refl). rewrite fifth_real, above_three, three_real in H.
  rewrite Rmin_left, Rmax_left in H; lra.
Qed.
Print Assumptions C120_stays_between_refuted.

(** The ends are met exactly, *)
Theorem C120_ends_partial :
  forall a b : double, is_finite a = true -> is_finite b = true ->
    is_finite (d_interp a b d_zero) = true /\ B2R (d_interp a b d_zero) = B2R a /\
    is_finite (d_interp a b d_one) = true /\ B2R (d_interp a b d_one) = B2R b.
Proof. intros a b Fa Fb. destruct (interp_start a b Fa Fb). destruct (interp_end a b Fa Fb). auto. Qed.
Print Assumptions C120_ends_partial.

(** between numbers of different sign the result stays between them, *)
Theorem C120_stays_between_partial :
  forall a b r : double, is_finite a = true -> is_finite b = true -> is_finite r = true -> 0 <= B2R r <= 1 ->
    B2R a <= 0 <= B2R b \/ B2R b <= 0 <= B2R a ->
    is_finite (d_interp a b r) = true /\ Rmin (B2R a) (B2R b) <= B2R (d_interp a b r) <= Rmax (B2R a) (B2R b).
Proof. exact interp_between. Qed.
Print Assumptions C120_stays_between_partial.

(** and in general the result is the exact one up to 2^-51 times the larger of the two numbers (and an absolute error of 2^-1073 where the
    products underflow). *)
Theorem C120_error_partial :
  forall (a b r : double) (M : R), is_finite a = true -> is_finite b = true -> is_finite r = true -> 0 <= B2R r <= 1 ->
    Rabs (B2R a) <= M -> Rabs (B2R b) <= M -> M <= bpow radix2 1022 ->
    is_finite (d_interp a b r) = true /\
    Rabs (B2R (d_interp a b r) - ((1 - B2R r) * B2R a + B2R r * B2R b)) <= bpow radix2 (-51) * M + bpow radix2 (-1073).
Proof. exact interp_error. Qed.
Print Assumptions C120_error_partial.

(** Truncating to all of a path changes nothing; truncating to nothing leaves a path without length at the start. *)
Theorem C120_truncate_partial :
  forall p, is_finite (dp_init p) = true -> is_finite (dp_final p) = true -> is_finite (dp_length p) = true ->
    B2R (dp_final (d_truncate p d_one)) = B2R (dp_final p) /\ B2R (dp_length (d_truncate p d_one)) = B2R (dp_length p) /\
    B2R (dp_final (d_truncate p d_zero)) = B2R (dp_init p) /\ B2R (dp_length (d_truncate p d_zero)) = 0.
Proof. exact truncate_ends. Qed.
Print Assumptions C120_truncate_partial.

(** Non-vacuity: half-way from -1 to 3. *)
Example C120_half_way : B2SF (d_interp (d_of (-1) 0) (d_of 3 0) (d_div d_one (d_of 2 0))) = B2SF d_one.
Proof. vm_compute. reflexivity. Qed.
(** Where the sum of the products would overflow only by rounding, and for ratios out of range, nothing is claimed: at ratio 2 the largest
    numbers give infinity. *)
Example C120_overflow : is_finite (d_interp (d_of 0 0) (d_of 1 1023) (d_of 2 0)) = false.
Proof. vm_compute. reflexivity. Qed.
