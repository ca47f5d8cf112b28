(** What the gradient terms of the smoother are meant to be. *)
From Coq Require Import Reals.
From Verif Require Import Base RealBase Coords_model.
Local Open Scope R_scope.

(** [g] is the gradient of [cost] at [x]: it gives the derivative in every direction. *)
Definition gradient (cost : point -> R) (x g : point) : Prop :=
  forall dx dy, derivable_pt_lim (fun t => cost (fst x + t * dx, snd x + t * dy)) 0 (fst g * dx + snd g * dy).

Definition length2 (v : point) : R := fst v * fst v + snd v * snd v.
Definition gap (a b : point) : R := sqrt (length2 (fst b - fst a, snd b - snd a)).

(** Squared length of the second difference at [b]. *)
Definition bend (a b c : point) : R := length2 (fst a - 2 * fst b + fst c, snd a - 2 * snd b + snd c).

(** The cost of the Voronoi field (gvd.cpp:277). *)
Definition field (alpha dMax obstDist voroDist : R) : R :=
  alpha / (alpha + obstDist) * (voroDist / (obstDist + voroDist)) * ((obstDist - dMax) ^ 2 / dMax ^ 2).

(** The curvature at [b]: change of direction over the distance from the sample before. *)
Definition turn (a b c : point) : R :=
  acos (((fst b - fst a) * (fst c - fst b) + (snd b - snd a) * (snd c - snd b)) / (gap a b * gap b c)).
Definition curvature (a b c : point) : R := turn a b c / gap a b.
