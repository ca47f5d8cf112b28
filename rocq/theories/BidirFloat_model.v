(** [BidirectionalAStar] and [AverageHeuristic] on the costs of the code, IEEE-754 doubles (/repo/planner/src/algo/bidirectional_a_star.h). *)
From Coq Require Import ZArith.
From Flocq Require Import BinarySingleNaN.
From Verif Require Import Base Frontier_model AStar_model Bidir_model CostFloat_model.
Local Open Scope Z_scope.

Definition d_sub (x y : double) : double := @Bminus 53 1024 (eq_refl _) (eq_refl _) mode_NE x y.
Definition d_div (x y : double) : double := @Bdiv 53 1024 (eq_refl _) (eq_refl _) mode_NE x y.
(** bidirectional_a_star.h:152: [std::numeric_limits<double>::infinity()]. *)
Definition d_inf : double := B754_infinity false.

(** bidirectional_a_star.h:130-178, [SearchPath] of an initialized planner. [bestCost] is a double that starts at infinity, and a candidate
    replaces it when it is smaller (line 189); [costOffset] is the double sum of line 150. *)
Definition double_bi {S A Pf Pr} (eqs : S -> S -> bool) (hf hr : S -> double) (succf : Pf -> S -> list (S * A * double) * Pf)
    (succr : Pr -> S -> list (S * A * double) * Pr) (graph : bool) (fuel : nat) (init goal : S) (pf : Pf) (pr : Pr) :=
  do f <- init_search eqs d_ltb d_zero init pf;
  do r <- init_search eqs d_ltb d_zero goal pr;
  bi_loop eqs d_ltb d_add d_zero hf hr succf succr graph fuel (d_add (hf goal) (hr goal)) (Bi f r (Some d_inf) None).

(** bidirectional_a_star.h:19-22 and 28-33: the value at [s] of the average of the estimates [toGoal] and [toInit] for a search towards [goal].
    The two estimates are functions of the state, as their own goals do not change. *)
Definition d_average {S} (toGoal toInit : S -> double) (goal s : S) : double :=
  d_add (d_div (toInit goal) (d_of 2 0)) (d_div (d_sub (toGoal s) (toInit s)) (d_of 2 0)).
