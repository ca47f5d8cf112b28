(** Steering in the plane, over the reals. *)
From Coq Require Import Reals.
From Flocq Require Import Core BinarySingleNaN.
From Verif Require Import Base Coords_model Straight_model Straight_spec CoordsFloat_model SteerFloat_model.
Local Open Scope R_scope.

(** The point of the plane that two doubles stand for. *)
Definition place (p : dpoint) : point := (B2R (fst p), B2R (snd p)).

(** Both coordinates are numbers of absolute value at most [M]. *)
Definition within (M : R) (p : dpoint) : Prop :=
  is_finite (fst p) = true /\ is_finite (snd p) = true /\ Rabs (B2R (fst p)) <= M /\ Rabs (B2R (snd p)) <= M.

(** The point at distance [d] from [a] on the segment to [b], or [b] if it is nearer than that. *)
Definition towards (d : R) (a b : point) : point :=
  if Rle_dec (distance a b) d then b
  else (fst a + d / distance a b * (fst b - fst a), snd a + d / distance a b * (snd b - snd a)).
