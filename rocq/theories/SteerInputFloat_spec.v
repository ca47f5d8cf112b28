(** What is assumed of the mathematical library. *)
From Coq Require Import Reals.
From Flocq Require Import Core BinarySingleNaN.
From Verif Require Import Base CoordsFloat_model.
Local Open Scope R_scope.

(** [pow(x, 2)] is right up to a relative error of 2^-52 where it does not underflow, is monotone, and is exact at zero; [atan] is right up to a relative
    error of 2^-50 unless its argument is tiny, and not negative or more than a right angle and 2^-50; [atan] of infinity is close to a right angle. *)
Record trusted (dsq datan : double -> double) : Prop := {
  sq_near : forall x, is_finite x = true -> bpow radix2 (-100) <= B2R x <= bpow radix2 100 -> is_finite (dsq x) = true /\ Rabs (B2R (dsq x) - B2R x * B2R x) <= bpow radix2 (-52) * (B2R x * B2R x);
  sq_mono : forall x y, is_finite x = true -> is_finite y = true -> 0 <= B2R x <= B2R y -> B2R y <= bpow radix2 100 -> is_finite (dsq x) = true /\ 0 <= B2R (dsq x) <= B2R (dsq y);
  sq_0 : forall x, is_finite x = true -> B2R x = 0 -> is_finite (dsq x) = true /\ B2R (dsq x) = 0;
  atan_near : forall x, is_finite x = true -> bpow radix2 (-300) <= B2R x -> is_finite (datan x) = true /\ Rabs (B2R (datan x) - atan (B2R x)) <= bpow radix2 (-50) * atan (B2R x);
  atan_range : forall x, is_finite x = true -> 0 <= B2R x -> is_finite (datan x) = true /\ 0 <= B2R (datan x) <= PI / 2 + bpow radix2 (-50);
  atan_top : is_finite (datan (B754_infinity false)) = true /\ Rabs (B2R (datan (B754_infinity false)) - PI / 2) <= bpow radix2 (-50)
}.

(** A length within wide bounds. *)
Definition measure (x : double) : Prop := is_finite x = true /\ bpow radix2 (-100) <= B2R x <= bpow radix2 100.
