(** The chance that a Reeds-Shepp connection is tried, over the reals. *)
From Coq Require Import Reals.
From Verif Require Import Base.
Local Open Scope R_scope.

(** Certain within a distance of ten, then decreasing with the square of the distance. *)
Definition chance (h : R) : R := if Rlt_dec h 10 then 1 else 10 / (h * h).
