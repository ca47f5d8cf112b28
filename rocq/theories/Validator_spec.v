(** Specification vocabulary for path validation. *)
From Coq Require Import Reals.
From Verif Require Import Base RealBase Grid_model Coords_model Pose_model Straight_model Straight_spec Validator_model.
Local Open Scope R_scope.

(** The state of the path after travelling [s]. *)
Definition state_at (p : path) (s : R) (x : pose) : Prop := p_at p (s / p_length p) = Ok x.

(** The position changes no faster than the length travelled. *)
Definition unit_speed (p : path) : Prop :=
  forall s t x y, 0 <= s <= p_length p -> 0 <= t <= p_length p -> state_at p s x -> state_at p t y ->
    distance (position x) (position y) <= Rabs (s - t).

(** Every ratio can be interpolated. *)
Definition total (p : path) : Prop := forall r, 0 <= r <= 1 -> exists x, p_at p r = Ok x.

(** A function of the position that changes no faster than the position. *)
Definition nonexpansive (g : point -> R) : Prop := forall a b, g a - g b <= distance a b.

(** The validity of the states of the path is defined: their cells can be represented and looked up. *)
Definition checkable (f : frames) (clearance : cell -> res R) (lb ub : pose) (minSafe : R) (p : path) : Prop :=
  (exists v, is_state_valid f clearance lb ub minSafe (p_init p) = Ok v) /\
  forall r x, 0 <= r <= 1 -> p_at p r = Ok x -> exists v, is_state_valid f clearance lb ub minSafe x = Ok v.

(** A straight path seen by the validator. *)
Definition straight (p : spath) : path := Path (s_init p) (s_length p) (fun r => Ok (s_at p r)).
