(** What it takes for the random trees to find a path (C100). *)
From Coq Require Import ZArith Reals.
From Verif Require Import Base RealBase Coords_model Straight_model Straight_spec Rrt_model Rrt_spec.
Local Open Scope R_scope.

(** The k-d tree returns a nearest point. *)
Definition exact_nearest (nearest : Z -> list point -> point -> nat) : Prop :=
  forall it l q, l <> [] -> exists a, nth_error l (nearest it l q) = Some a /\
    forall b, In b l -> distance q a <= distance q b.

(** The validator accepts a segment all points of which are free. *)
Definition accepts_free (free : point -> Prop) (valid : rpath -> bool) : Prop :=
  forall a b, (forall s, 0 <= s <= 1 -> free (r_at (r_connect a b) s)) -> valid (r_connect a b) = true.

(** Points [c 0], ..., [c k], each within [r] of the next, around which the discs of radius [4 r] are free. *)
Definition clear_route (free : point -> Prop) (r : R) (k : nat) (c : nat -> point) : Prop :=
  (forall j, (j < k)%nat -> distance (c j) (c (S j)) <= r) /\
  (forall j p, (j <= k)%nat -> distance (c j) p <= 4 * r -> free p).

(** The samples fall in the discs of radius [r] around [c 1], ..., [c k], in this order, at the iterations
    [hit 1 < ... < hit k] (with any other samples in between). *)
Definition hits (sample : Z -> point) (r : R) (k : nat) (c : nat -> point) (hit : nat -> Z) : Prop :=
  (0 <= hit 1%nat)%Z /\
  (forall j, (1 <= j < k)%nat -> (hit j < hit (S j))%Z) /\
  (forall j, (1 <= j <= k)%nat -> distance (c j) (sample (hit j)) <= r).

(** A curve of length at most [L], parametrized so that its speed is at most one, around which the tube of radius
    [clearance] is free. *)
Definition clear_curve (free : point -> Prop) (L clearance : R) (curve : R -> point) : Prop :=
  (forall s t, 0 <= s <= L -> 0 <= t <= L -> distance (curve s) (curve t) <= Rabs (t - s)) /\
  (forall s p, 0 <= s <= L -> distance (curve s) p <= clearance -> free p).
