(** What costs and estimates a bidirectional search in double precision may be given. *)
From Coq Require Import Reals ZArith.
From Flocq Require Import Core BinarySingleNaN.
From Verif Require Import Base AStar_spec CostFloat_model CostFloat_spec BidirFloat_model.
Local Open Scope R_scope.

(** A number whose magnitude is at most [2 ^ k]. *)
Definition within (k : nat) (x : double) : Prop := d_finite x /\ Rabs (d_value x) <= 2 ^ k.

(** Transitions out of the states reachable from [init] cost between 0 and 2^900, and the estimates there are numbers between -2^900 and 2^900
    or plus infinity. *)
Definition moderate {S A P} (h : S -> double) (succ : P -> S -> list (S * A * double) * P) (init : S) : Prop :=
  (forall s a c t, reachable succ init s -> trans succ s a c t -> d_cost c /\ within 900 c) /\
  (forall s, reachable succ init s -> within 900 (h s) \/ h s = d_inf).
