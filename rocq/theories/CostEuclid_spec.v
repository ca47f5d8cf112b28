(** The distance of two cells of a grid, in cells. *)
From Coq Require Import Reals.
From Verif Require Import Base Grid_model.
Local Open Scope R_scope.

Definition euclid (p q : cell) : R := sqrt ((IZR (row p) - IZR (row q)) ^ 2 + (IZR (col p) - IZR (col q)) ^ 2).
