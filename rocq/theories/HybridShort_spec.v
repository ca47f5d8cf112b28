(** What a user expects of cheaper ways into cells that Hybrid A* has already seen. *)
From Coq Require Import Reals.
From Verif Require Import Base Pose_model.
Local Open Scope R_scope.

(** Less than a millimetre and less than a thousandth of a degree apart. *)
Definition nearly_same (p q : pose) : Prop :=
  sqrt ((px p - px q) * (px p - px q) + (py p - py q) * (py p - py q)) < 1 / 1000 /\ Rabs (pth p - pth q) < 1 / 1000 * PI / 180.

(** A map of states, each a cell and a pose in it, whose transitions and estimates depend on the cell alone. *)
Definition by_cells {P : Type} (succ : P -> nat * nat -> list (nat * nat * unit * Z) * P) : Prop :=
  forall p p' s s', fst s = fst s' -> fst (succ p s) = fst (succ p' s').
