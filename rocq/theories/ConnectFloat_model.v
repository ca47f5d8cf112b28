(** When Hybrid A* tries to connect a state with the goal by a Reeds-Shepp path, in IEEE double precision, /repo/planner/src/algo/hybrid_a_star.cpp. *)
From Coq Require Import ZArith.
From Flocq Require Import BinarySingleNaN.
From Verif Require Import Base CoordsFloat_model StraightFloat_model.
Local Open Scope Z_scope.

Definition d_ten : double := d_of 10 0.

(** hybrid_a_star.cpp:82-83, the condition of [GetNeighborStates], of the value [h] of the heuristic. The generator of random numbers is a state
    [g], from which [draw] takes a number; by short-circuit evaluation none is taken if the first comparison holds. *)
Definition d_connects {G} (draw : G -> double * G) (h : double) (g : G) : bool * G :=
  if Bltb h d_ten then (true, g) else let (u, g') := draw g in (Bltb u (d_div d_ten (d_mul h h)), g').
