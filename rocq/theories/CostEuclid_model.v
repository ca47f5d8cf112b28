(** A user's cost function for the grid search: /repo/planner/src/algo/a_star_n2.h:13-16 takes any function of two cells, and the base class any
    heuristic (/repo/planner/src/algo/heuristics.h:40-60). Here both are the distance [std::sqrt(dr * dr + dc * dc)] of two cells, computed in
    double precision. *)
From Coq Require Import ZArith.
From Flocq Require Import BinarySingleNaN.
From Verif Require Import Base Grid_model CostFloat_model.
Local Open Scope Z_scope.

Definition d_sqrt (x : double) : double := @Bsqrt 53 1024 (eq_refl _) (eq_refl _) mode_NE x.
(** The sum of the squares is computed in the integers, and is exact as long as it does not overflow. *)
Definition euclid_double (p q : cell) : double :=
  d_sqrt (d_of ((row p - row q) * (row p - row q) + (col p - col q) * (col p - col q)) 0).
