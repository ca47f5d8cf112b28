(** Model of the state space of the unit test of A*: the plane of points with integer coordinates, without
    obstacles. *)
From Coq Require Import Reals.
From Verif Require Import Base RealBase Frontier_model AStar_model.

Definition point2i : Type := (Z * Z)%type.
(** 2dplane.h:8: [operator==] of Eigen compares the coordinates. *)
Definition pt_eqb (a b : point2i) : bool := (fst a =? fst b)%Z && (snd a =? snd b)%Z.

(** planner/tests/state_space/a_star_state_space_2d.h:9-23, [GetNeighborStates]. The coordinates do not overflow
    and the costs are real numbers. *)
Definition plane_nb (s : point2i) : list (point2i * unit * R) :=
  let '(x, y) := s in
  [ ((x + 1, y + 1), tt, sqrt 2);
    ((x + 1, y), tt, 1%R);
    ((x + 1, y - 1), tt, sqrt 2);
    ((x, y - 1), tt, 1%R);
    ((x - 1, y - 1), tt, sqrt 2);
    ((x - 1, y), tt, 1%R);
    ((x - 1, y + 1), tt, sqrt 2);
    ((x, y + 1), tt, 1%R) ]%Z.
Definition plane_succ (_ : unit) (s : point2i) : list (point2i * unit * R) * unit := (plane_nb s, tt).

(** planner/tests/test_a_star.cpp:9-13, [GetHeuristicValue], in real numbers. *)
Definition plane_h (goal s : point2i) : R :=
  sqrt (IZR (fst s - fst goal) ^ 2 + IZR (snd s - snd goal) ^ 2).

(** planner/tests/test_a_star.cpp:16-30: the search, with the default template arguments (a_star.h:213-219). *)
Definition plane_search (fuel : nat) (start goal : point2i) :=
  search_path pt_eqb Rltb Rplus 0%R (plane_h goal) plane_succ (fun s => pt_eqb s goal) (fun _ _ => true) true fuel start tt.
