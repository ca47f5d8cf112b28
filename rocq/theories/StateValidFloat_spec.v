(** Where a state is, in exact arithmetic. *)
From Coq Require Import Reals ZArith.
From Flocq Require Import Core BinarySingleNaN.
From Verif Require Import Base Grid_model Gvd_model CoordsFloat_model AngleFloat_model PathCostFloat_model StateValidFloat_model.
Local Open Scope R_scope.

Definition d_finite (x : double) : Prop := is_finite x = true.
Definition d_value (x : double) : R := B2R x.

(** Numbers at most 2^30 cells apart. *)
Definition near (resolution : single) (o x : double) : Prop := Rabs (d_value x - d_value o) <= 2 ^ 30 * B2R resolution.

(** The offset [x - o] lies in the cells [0 .. n-1] that start at [o], at least a millionth of a cell from their ends. *)
Definition well_within (resolution : single) (n : Z) (o x : double) : Prop :=
  / 1000000 * B2R resolution <= d_value x - d_value o <= (IZR n - / 1000000) * B2R resolution.

(** A map with finite frames and a resolution that is not subnormal. *)
Definition sane_frames (f : d_frames) : Prop :=
  is_finite (d_resolution f) = true /\ bpow radix2 (-126) <= B2R (d_resolution f) <= 2 ^ 30 /\
  d_finite (fst (d_local f)) /\ d_finite (snd (d_local f)) /\ d_finite (fst (d_grid f)) /\ d_finite (snd (d_grid f)) /\
  Rabs (d_value (fst (d_local f))) <= bpow radix2 1000 /\ Rabs (d_value (snd (d_local f))) <= bpow radix2 1000.

(** Poses as their constructors make them, in the vicinity of the map. *)
Definition near_state (f : d_frames) (s : d_pose) : Prop :=
  d_finite (d_x s) /\ d_finite (d_y s) /\ d_finite (d_theta s) /\ - d_value d_pi <= d_value (d_theta s) <= d_value d_pi /\
  near (d_resolution f) (fst (d_grid f)) (d_x s) /\ near (d_resolution f) (snd (d_grid f)) (d_y s) /\
  Rabs (d_value (d_x s)) <= bpow radix2 1000 /\ Rabs (d_value (d_y s)) <= bpow radix2 1000.

(** A box of finite poses. *)
Definition box (lb ub : d_pose) : Prop :=
  d_finite (d_x lb) /\ d_finite (d_y lb) /\ d_finite (d_theta lb) /\ d_finite (d_x ub) /\ d_finite (d_y ub) /\ d_finite (d_theta ub).

(** [t] lies between [a] and [b], up to [e] times itself. *)
Definition between (e a t b : R) : Prop := a - e * Rabs t <= t <= b + e * Rabs t.
(** In the local frame of the map the state lies in the box, up to such an error of the position. *)
Definition in_bounds (e : R) (f : d_frames) (lb ub s : d_pose) : Prop :=
  between e (d_value (d_x lb)) (d_value (d_x s) - d_value (fst (d_local f))) (d_value (d_x ub)) /\
  between e (d_value (d_y lb)) (d_value (d_y s) - d_value (snd (d_local f))) (d_value (d_y ub)) /\
  d_value (d_theta lb) <= d_value (d_theta s) <= d_value (d_theta ub).

(** The position lies in the cell up to a millionth of it, or in the cell before. *)
Definition at_cell (f : d_frames) (s : d_pose) (c : cell) : Prop :=
  let r := B2R (d_resolution f) in
  (IZR (row c) - 1 - / 1000000) * r < d_value (d_x s) - d_value (fst (d_grid f)) < (IZR (row c) + 1 + / 1000000) * r /\
  (IZR (col c) - 1 - / 1000000) * r < d_value (d_y s) - d_value (snd (d_grid f)) < (IZR (col c) + 1 + / 1000000) * r.

(** The map of distances can be read everywhere in the map. *)
Definition readable (f : d_frames) (distance : cell -> res Z) : Prop :=
  forall c, (0 <= row c < d_rows f)%Z -> (0 <= col c < d_columns f)%Z -> exists d, distance c = Ok d /\ (0 <= d <= inf)%Z.
(** The distance that it reports. *)
Definition reported (f : d_frames) (d : Z) : R := B2R (float_distance (d_resolution f) d).
