(** What a double means as a cost. *)
From Coq Require Import Reals ZArith.
From Flocq Require Import Core BinarySingleNaN.
From Verif Require Import Base AStar_spec Rounded_spec CostFloat_model.
Local Open Scope R_scope.

(** The number, if finite. *)
Definition d_value (x : double) : R := B2R x.
Definition d_finite (x : double) : Prop := is_finite x = true.
(** A cost: a nonnegative number or plus infinity. *)
Definition d_cost (x : double) : Prop :=
  match x with
  | B754_zero _ => True
  | B754_infinity s => s = false
  | B754_nan => False
  | B754_finite s _ _ _ => s = false
  end.

(** Half the distance between 1 and the next double: the largest relative error of an addition. *)
Definition d_unit : R := / 2 ^ 53.
(** The largest finite double. *)
Definition d_max : R := (2 ^ 53 - 1) * 2 ^ 971.

(** Every transition offered out of a reachable state costs a nonnegative amount or infinity, and the heuristic is a nonnegative number. *)
Definition cost_inputs {S A P} (h : S -> double) (succ : P -> S -> list (S * A * double) * P) (init : S) : Prop :=
  (forall s a c t, reachable succ init s -> trans succ s a c t -> d_cost c) /\
  (forall s, reachable succ init s -> d_cost (h s) /\ d_finite (h s)).

(** [x] is the double some program computes for the number [v], with a relative error of at most [delta]. *)
Definition measures (delta : R) (x : double) (v : R) : Prop := d_cost x /\ d_finite x /\ (1 - delta) * v <= d_value x <= (1 + delta) * v.

(** Consistency as documented (a_star.h:312), in exact arithmetic: no transition lowers the estimate by more than it costs. *)
Definition d_consistent {S A P} (h : S -> double) (succ : P -> S -> list (S * A * double) * P) (init : S) : Prop :=
  forall s a c t, reachable succ init s -> trans succ s a c t -> d_finite c -> d_value (h s) <= d_value c + d_value (h t).
