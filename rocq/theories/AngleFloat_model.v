(** Headings in IEEE double precision: [WrapTheta], /repo/planner/src/geometry/2dplane.h, [Modulo], /repo/planner/src/utils/maths.h, and
    [WrapAngle], /repo/planner/src/geometry/reeds_shepp.cpp. The same functions as in PoseFloat_model.v, on the numbers of Flocq. *)
From Coq Require Import ZArith.
From Flocq Require Import BinarySingleNaN.
From Verif Require Import Base CoordsFloat_model StraightFloat_model.
Local Open Scope Z_scope.

(** [M_PI] and [2 * M_PI]. *)
Definition d_pi : double := d_of 7074237752028440 (-51).
Definition d_two_pi : double := d_mul (d_of 2 0) d_pi.

(** 2dplane.h:39-40; the fuel is the number of tests of the loop. *)
Fixpoint d_above (fuel : nat) (t : double) : res double :=
  match fuel with
  | O => NoFuel
  | S k => if Bltb d_pi t then d_above k (d_sub t d_two_pi) else Ok t
  end.
(** 2dplane.h:41-42. *)
Fixpoint d_below (fuel : nat) (t : double) : res double :=
  match fuel with
  | O => NoFuel
  | S k => if Bltb t (Bopp d_pi) then d_below k (d_add t d_two_pi) else Ok t
  end.
(** 2dplane.h:35-44, [WrapTheta]. *)
Definition d_wrap (fuel : nat) (t : double) : res double := do t1 <- d_above fuel t; d_below fuel t1.

(** [std::fmod] of a number by a finite number that is not zero: the remainder of the integers over a common power of two, with the sign of
    the dividend (exact, by the C standard). Not a number in the other cases; the case of an infinite divisor does not occur here. *)
Definition d_fmod (x m : double) : double :=
  match x, m with
  | B754_finite s1 m1 e1 _, B754_finite _ m2 e2 _ =>
    let e := Z.min e1 e2 in
    @binary_normalize 53 1024 (eq_refl _) (eq_refl _) mode_NE
      (SpecFloat.cond_Zopp s1 (Z.rem (Zpos m1 * 2 ^ (e1 - e)) (Zpos m2 * 2 ^ (e2 - e)))) e s1
  | B754_zero s, B754_finite _ _ _ _ => B754_zero s
  | _, _ => B754_nan
  end.
(** maths.h:8-15, [Modulo]. *)
Definition d_modulo (x m : double) : double :=
  let out := d_fmod x m in
  if Bltb out (B754_zero false) then d_add out m else out.
(** reeds_shepp.cpp:16-19, [WrapAngle]. *)
Definition d_wrap_angle (t : double) : double := d_sub (d_modulo (d_add t d_pi) d_two_pi) d_pi.
