(** The steering inputs of Hybrid A* in IEEE double precision, /repo/planner/src/models/kinematic_bicycle_model.cpp and algo/hybrid_a_star.cpp, for
    any functions [pow] and [atan] of the mathematical library. *)
From Coq Require Import ZArith.
From Flocq Require Import BinarySingleNaN.
From Verif Require Import Base CoordsFloat_model StraightFloat_model.
Local Open Scope Z_scope.

(** [sqrt], which IEEE 754 defines. *)
Definition d_sqrt (x : double) : double := @Bsqrt 53 1024 (eq_refl _) (eq_refl _) mode_NE x.
(** [M_PI_2]. *)
Definition d_half_pi : double := d_of 7074237752028440 (-52).

Section Library.
(** [std::pow(x, 2)] and [atan]. *)
Variables dsq datan : double -> double.

(** kinematic_bicycle_model.cpp:34-41, [GetSteeringAngleFromTurningRadius]. *)
Definition d_steering_angle (wheelbase rear radius : double) : double :=
  if Bltb radius rear then d_half_pi else datan (d_div wheelbase (d_sqrt (d_sub (dsq radius) (dsq rear)))).

(** hybrid_a_star.cpp:19-28, [m_deltas], for the number of motions [n]. *)
Definition d_input (wheelbase radius : double) (i : nat) : double := d_mul (d_div (d_of (Z.of_nat i + 1) 0) (d_of 2 0)) (d_steering_angle wheelbase d_zero radius).
Definition d_inputs (wheelbase radius : double) (n : nat) : list double :=
  d_zero :: flat_map (fun i => let delta := d_input wheelbase radius i in [delta; Bopp delta]) (seq 0 (n / 2)).
End Library.
