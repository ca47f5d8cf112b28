(** Specification vocabulary: maps on which Hybrid A* can be used. *)
From Coq Require Import Reals.
From Verif Require Import Base RealBase Grid_model Coords_model Pose_model Straight_model Hybrid_model.
Local Open Scope R_scope.

(** The position is at most [d] outside the bounds, along each axis. *)
Definition within (lb ub : pose) (d : R) (q : point) : Prop :=
  px lb - d <= fst q <= px ub + d /\ py lb - d <= snd q <= py ub + d.

(** Every position at most [d] outside the bounds lies in a cell of the map. *)
Definition margin (f : frames) (lb ub : pose) (d : R) : Prop :=
  forall q, within lb ub d q -> exists c, world_to_cell f q false = Ok c /\ inside_cell f c = true.

(** The parameters are positive, the map is not displaced and covers the bounds with a margin [d], the fields of the map are
    defined for all its cells, the heuristic is defined for all poses up to [d] from the bounds, and the poses near them have
    integer coordinates. *)
Record prepared (m : params) (f : frames) (field : cell -> res (option R)) (vres : R) (clearance : cell -> res R) (lb ub : pose)
  (minStep : R) (heur : pose -> res xreal) (d : R) : Prop := {
  pr_radius : 0 < hp_radius m;
  pr_res : 0 < hp_res m;
  pr_vres : 0 < vres;
  pr_step : 0 < minStep;
  pr_local : fr_local f = (0, 0);
  pr_margin : margin f lb ub d;
  pr_clear : forall c, inside_cell f c = true -> exists v, clearance c = Ok v;
  pr_field : forall c, inside_cell f c = true -> exists v, field c = Ok (Some v);
  pr_heur : forall p, within lb ub d (position p) -> exists v, heur p = Ok v;
  pr_cell : forall p, within lb ub (minStep + 3 / 2 * hp_res m) (position p) -> exists c, discretize m p = Ok c
}.
