(** Model of the hash functions and the equalities of the hash containers.
    [std::size_t] is 64 bits: values are integers in [0, 2^64).
    The hash of a number is a parameter [h], as the standard library provides it. *)
From Verif Require Import Base Grid_model.
Open Scope Z_scope.

Definition wrap64 (x : Z) : Z := x mod 2 ^ 64.

(** /repo/planner/src/core/hash.h:6-11, [HashCombine]: the new seed. *)
Definition hash_combine (seed hv : Z) : Z :=
  Z.lxor seed (wrap64 (hv + 0x9e3779b9 + wrap64 (Z.shiftl seed 6) + Z.shiftr seed 2)).

(** Two numbers. *)
Definition hash2 {T} (h : T -> Z) (a b : T) : Z := hash_combine (hash_combine 0 (h a)) (h b).

(** /repo/planner/src/utils/grid.h:29-36, [hash<GridCellPosition>]; [h] is std::hash<int>. Equality is
    [operator==] (grid.h:20), modelled by [cell_eqb]. *)
Definition hash_cell (h : Z -> Z) (c : cell) : Z := hash2 h (row c) (col c).

Section Numbers.
  (** The number type of a point or pose ([double] or [int]), its [==], its std::hash and [WrapTheta]. *)
  Context {T : Type} (eqb : T -> T -> bool) (h : T -> Z) (wrap : T -> T).

  Definition point_of : Type := T * T.
  Definition pose_of : Type := T * T * T.

  (** /repo/planner/src/geometry/2dplane.h:98-106, [hash<Point2>]. *)
  Definition hash_point (p : point_of) : Z := hash2 h (fst p) (snd p).
  (** 2dplane.h:109-114, [equal_to<Point2>]. *)
  Definition equal_point (a b : point_of) : bool := eqb (fst a) (fst b) && eqb (snd a) (snd b).

  (** 2dplane.h:117-125, [hash<Pose2>]. *)
  Definition hash_pose (p : pose_of) : Z := hash_combine (hash_combine 0 (hash_point (fst p))) (h (wrap (snd p))).
  (** 2dplane.h:128-133, [equal_to<Pose2>]. *)
  Definition equal_pose (a b : pose_of) : bool := equal_point (fst a) (fst b) && eqb (wrap (snd a)) (wrap (snd b)).
  (** 2dplane.h:80-84, [operator==]. *)
  Definition eq_pose (a b : pose_of) : bool := equal_point (fst a) (fst b) && eqb (snd a) (snd b).

  (** /repo/planner/src/algo/hybrid_a_star.h:72-79, [State::Hash], of the discrete pose. *)
  Definition hash_state (discrete : pose_of) : Z := hash_pose discrete.
  (** hybrid_a_star.h:81-87, [State::Equal]. *)
  Definition equal_state (a b : pose_of) : bool := eq_pose a b.
End Numbers.
