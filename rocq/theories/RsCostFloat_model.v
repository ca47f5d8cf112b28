(** The costs of Reeds-Shepp paths, which are computed in single precision: /repo/planner/src/geometry/reeds_shepp.cpp and the child of Hybrid A*
    made of such a path, /repo/planner/src/algo/hybrid_a_star.cpp. *)
From Coq Require Import ZArith.
From Flocq Require Import BinarySingleNaN.
From Verif Require Import Base CoordsFloat_model StraightFloat_model ValidatorFloat_model ObstHeurFloat_model Bicycle_model Composite_model RsFloat_model VoroCostFloat_model.
Local Open Scope Z_scope.

Definition s_infinity : single := B754_infinity false.

Section Cost.
Variable radius : double.
Variables reverse forward switching : single.

(** reeds_shepp.cpp:476-491. *)
Fixpoint s_cost_loop (l : list d_motion) (prev : direction) (cost : single) : single :=
  match l with
  | [] => cost
  | m :: r =>
      let c := narrow (d_mul (dm_len m) radius) in
      let c := match dm_dir m with Forward => s_mul c forward | Backward => s_mul c reverse | NoMotion => c end in
      let c := if direction_eqb (dm_dir m) prev then c else s_add c switching in
      s_cost_loop r (dm_dir m) (s_add cost c)
  end.
(** reeds_shepp.cpp:466-494, [ComputeCost], of the valid motions of a segment in order. *)
Definition s_cost (l : list d_motion) : single :=
  match l with
  | [] => s_infinity
  | m :: _ => if Beqb reverse s_one && Beqb switching s_zero then narrow (d_mul (d_motions_length l) radius) else s_cost_loop l (dm_dir m) s_zero
  end.

(** reeds_shepp.cpp:659-682, [GetOptimalPath]: [l] are the paths of the words that have one, in the order of the words. *)
Fixpoint s_optimal_loop (l : list (list d_motion)) (best : single) (path : option (list d_motion)) : option (list d_motion) :=
  match l with
  | [] => path
  | p :: r => let c := s_cost p in if Bltb c best then s_optimal_loop r c (Some p) else s_optimal_loop r best path
  end.
Definition s_optimal (l : list (list d_motion)) : option (list d_motion) := s_optimal_loop l s_infinity None.
End Cost.

(** hybrid_a_star.cpp:163-170, the transition cost of [GetReedsSheppChild]; the parameters become single precision numbers at
    path_reeds_shepp.cpp:171. *)
Definition d_rs_child_cost (fuel : nat) (field : double -> res single) (forward reverse switching voronoi : double) (interp : single) (radius : double) (l : list d_motion) : res double :=
  do v <- d_voronoi_cost fuel field voronoi interp (d_rs_length radius l);
  Ok (d_add (widen (s_cost radius (narrow reverse) (narrow forward) (narrow switching) l)) v).
