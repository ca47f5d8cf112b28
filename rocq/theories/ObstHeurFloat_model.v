(** The arithmetic of [ObstaclesHeuristic], /repo/planner/src/algo/heuristics.{h,cpp}, in the single precision of the code: [m_cost],
    [transitionCost], [pathCost] and the two constants of the heuristic are [float], its value is a [double]. *)
From Coq Require Import ZArith.
From Flocq Require Import BinarySingleNaN.
From Verif Require Import Base Grid_model CoordsFloat_model StraightFloat_model ValidatorFloat_model ObstHeur_model.
Local Open Scope Z_scope.

(** heuristics.cpp:134: [transitionCost + m_cost[...]]. *)
Definition s_add (x y : single) : single := @Bplus 24 128 (eq_refl _) (eq_refl _) mode_NE x y.
(** heuristics.cpp:119-120, 133: the literals [0.0f] and [1.0f], and [std::sqrt(2.0f)]. *)
Definition s_zero : single := s_of 0 0.
Definition s_one : single := s_of 1 0.
Definition s_diag : single := @Bsqrt 24 128 (eq_refl _) (eq_refl _) mode_NE (s_of 2 0).

(** heuristics.cpp:106-153, [Update]. As in [ObstHeur_model], [None] is plus infinity, the value that the loops write first. A sum that
    overflowed would be kept as [Some] of an infinity: the theorems show that there is none. *)
Definition float_update : nat -> Z -> Z -> (cell -> res bool) -> cell -> ostate single -> res (ostate single) :=
  oh_update Bltb s_add s_zero s_one s_diag.

(** [std::min] and [std::max] of two doubles. *)
Definition d_lesser (a b : double) : double := if Bltb b a then b else a.
Definition d_greater (a b : double) : double := if Bltb a b then b else a.

(** heuristics.cpp:98 and 99, [diagonalResolution] and [costMultiplier]: computed in double precision and stored as [float] (heuristics.h:69-70). *)
Definition float_diagonal (resolution : single) : single :=
  narrow (d_mul (@Bsqrt 53 1024 (eq_refl _) (eq_refl _) mode_NE (d_of 2 0)) (widen resolution)).
Definition float_multiplier (resolution : single) (reverse forward : double) : single := narrow (d_mul (d_lesser reverse forward) (widen resolution)).

(** heuristics.cpp:155-165, [GetHeuristicValue]: [euclidean] is line 157, the distance to the goal, and [c] line 158, the cell of the state. *)
Definition float_value (resolution : single) (reverse forward : double) (euclidean : double) (c : cell) (st : ostate single) : res double :=
  if negb (cell_is_valid c) then Ok euclidean
  else
    do explored <- grid_get (o_explored st) c;
    if negb explored then Ok euclidean
    else
      do cost <- grid_get (o_cost st) c;
      let x := match cost with Some x => x | None => B754_infinity false end in
      let heuristic := widen (s_sub (s_mul x (float_multiplier resolution reverse forward)) (float_diagonal resolution)) in
      Ok (d_greater heuristic euclidean).
