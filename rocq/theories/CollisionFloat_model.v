(** The collision term of the smoother in floating point, /repo/planner/src/algo/smoother.cpp. *)
From Coq Require Import ZArith.
From Flocq Require Import BinarySingleNaN.
From Verif Require Import Base CoordsFloat_model StraightFloat_model ValidatorFloat_model SteerInputFloat_model.
Local Open Scope Z_scope.

(** Eigen's [norm] of a vector of two doubles. *)
Definition d_norm (x y : double) : double := d_sqrt (d_add (d_mul x x) (d_mul y y)).

(** smoother.cpp:112-115: what is added to the gradient of a sample; [x] and [y] lead from the cell of the nearest obstacle to the sample. The weight, the
    radius and the distance are single precision numbers, which become doubles when they multiply the vector. *)
Definition f_collision (weight radius : single) (x y : double) : double * double :=
  let dist := narrow (d_norm x y) in
  if Bltb dist radius then
    let s := widen (s_mul weight (s_sub dist radius)) in (d_div (d_mul s x) (widen dist), d_div (d_mul s y) (widen dist))
  else (d_zero, d_zero).

(** smoother.cpp:147, the position of a sample after an iteration, one coordinate. *)
Definition f_moved (rate : single) (p g : double) : double := d_sub p (d_mul (widen rate) g).
(** smoother.cpp:148, the largest gradient so far, with which the iterations are ended. *)
Definition f_largest (step : single) (g : double * double) : single := s_max step (narrow (d_norm (fst g) (snd g))).
