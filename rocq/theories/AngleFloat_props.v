(** C121: headings in double precision. *)
From Coq Require Import Reals ZArith Lra Lia.
From Flocq Require Import Core BinarySingleNaN.
From Verif Require Import Base CoordsFloat_model StraightFloat_model AngleFloat_model StraightFloat_proofs AngleFloat_proofs.
Local Open Scope R_scope.

(** M_PI is pi up to 2^-52. *)
Theorem C121_pi : B2R d_pi < PI < B2R d_pi + bpow radix2 (-52).
Proof. exact pi_close. Qed.
Print Assumptions C121_pi.

(** WrapTheta ends for every heading [t] of at most 2^53 radians and returns a heading in [-M_PI, M_PI]. It subtracts a number [k] of full turns
    (of 2 * M_PI), each with a relative error of at most 2^-53 of the heading, and at most one, exactly, if the heading is at most 3 * M_PI.
    [B] bounds the heading; the number of tests of each loop is at most a fifth of it plus one. *)
Theorem C121_wrap_theta :
  forall fuel (t : double) (B : R), is_finite t = true -> Rabs (B2R t) <= B -> B2R d_pi <= B -> B <= bpow radix2 53 -> B + 5 <= 5 * INR fuel ->
  exists t' k, d_wrap fuel t = Ok t' /\ is_finite t' = true /\ - B2R d_pi <= B2R t' <= B2R d_pi /\
    Rabs (B2R t' - (B2R t - IZR k * (2 * B2R d_pi))) <= IZR (Z.abs k) * (bpow radix2 (-53) * B) /\
    (Rabs (B2R t) <= 3 * B2R d_pi -> (Z.abs k <= 1)%Z /\ B2R t' = B2R t - IZR k * (2 * B2R d_pi)).
Proof. exact wrap_ends. Qed.
Print Assumptions C121_wrap_theta.

(** A heading in range is not changed, *)
Theorem C121_wrap_theta_same :
  forall fuel (t : double), is_finite t = true -> - B2R d_pi <= B2R t <= B2R d_pi -> d_wrap (S fuel) t = Ok t.
Proof. exact wrap_same. Qed.
Print Assumptions C121_wrap_theta_same.

(** and adding two headings in range gives the sum up to full turns (of 2 pi) and 2^-49. *)
Theorem C121_sum_of_headings :
  forall (a b : double) fuel, is_finite a = true -> is_finite b = true ->
  - B2R d_pi <= B2R a <= B2R d_pi -> - B2R d_pi <= B2R b <= B2R d_pi -> (3 <= fuel)%nat ->
  exists t k, d_wrap fuel (d_add a b) = Ok t /\ is_finite t = true /\ - B2R d_pi <= B2R t <= B2R d_pi /\ (Z.abs k <= 1)%Z /\
    Rabs (B2R t - (B2R a + B2R b - IZR k * (2 * PI))) <= bpow radix2 (-49).
Proof. exact wrap_sum_real. Qed.
Print Assumptions C121_sum_of_headings.

(** Modulo returns a number in [0, m], the exact remainder, smaller than [m], for numbers that are not negative, and the remainder up to 2^-53
    times [m] for the others. That it can be [m] is C47_modulo_refuted. *)
Theorem C121_modulo :
  forall x m : double, is_finite x = true -> is_finite m = true -> 0 < B2R m ->
  is_finite (d_modulo x m) = true /\ 0 <= B2R (d_modulo x m) <= B2R m /\
  exists q, Rabs (B2R (d_modulo x m) - (B2R x - IZR q * B2R m)) <= bpow radix2 (-53) * B2R m /\
    (0 <= B2R x -> B2R (d_modulo x m) = B2R x - IZR q * B2R m /\ B2R (d_modulo x m) < B2R m).
Proof. exact modulo_real. Qed.
Print Assumptions C121_modulo.

(** The wrapped angles of the Reeds-Shepp solver are in [-M_PI, M_PI] and the same up to full turns (of 2 * M_PI) and rounding. *)
Theorem C121_wrap_angle :
  forall t : double, is_finite t = true -> Rabs (B2R t) <= bpow radix2 1000 ->
  is_finite (d_wrap_angle t) = true /\ - B2R d_pi <= B2R (d_wrap_angle t) <= B2R d_pi /\
  exists q, Rabs (B2R (d_wrap_angle t) - (B2R t - IZR q * (2 * B2R d_pi))) <= bpow radix2 (-53) * (Rabs (B2R t) + 4 * B2R d_pi).
Proof. exact wrap_angle_real. Qed.
Print Assumptions C121_wrap_angle.

(** Non-vacuity: 4, 7 and -10 radians. *)
Definition shown (r : res double) : option SpecFloat.spec_float := match r with Ok t => Some (B2SF t) | _ => None end.
Example C121_wrapped :
  shown (d_wrap 10 (d_of 4 0)) = Some (B2SF (d_sub (d_of 4 0) d_two_pi)) /\
  shown (d_wrap 10 (d_of 7 0)) = Some (B2SF (d_sub (d_of 7 0) d_two_pi)) /\
  shown (d_wrap 10 (d_of (-10) 0)) = Some (B2SF (d_add (d_add (d_of (-10) 0) d_two_pi) d_two_pi)) /\
  B2SF (d_modulo (d_of (-1) 0) (d_of 3 0)) = B2SF (d_of 2 0) /\ B2SF (d_modulo (d_of 7 0) (d_of 3 0)) = B2SF (d_of 1 0).
Proof. vm_compute. repeat split; reflexivity. Qed.
(** Why the heading is bounded: 2^60 minus a full turn is 2^60 again, and WrapTheta does not return. *)
Example C121_huge : forall fuel, d_wrap fuel (d_of 1 60) = NoFuel.
Proof. exact wrap_huge. Qed.
