(** Coordinates and cells. *)
From Coq Require Import Reals.
From Flocq Require Import Core.
From Verif Require Import Base RealBase.
Local Open Scope R_scope.

(** [n] is the number of whole units [r] in a coordinate that is [x] up to one rounding, towards zero. *)
Definition units_of (n : Z) (r x : R) : Prop := exists x', Rabs (x' - x) <= bpow radix2 (-53) * Rabs x + bpow radix2 (-1075) * r /\ n = Rtrunc (x' / r).
