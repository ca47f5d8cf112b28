(** Specification of obstacle-avoiding walks on a grid. *)
From Coq Require Import Reals.
From Verif Require Import Base Grid_model Grid_spec.
Open Scope Z_scope.

(** A permitted step: to a free touching cell of the grid that does not squeeze diagonally between two
    occupied corner cells. *)
Definition grid_step (rows columns : Z) (occ : cell -> bool) (p q : cell) : Prop :=
  inside rows columns q /\ touches p q /\ occ q = false /\
  ~ (row p <> row q /\ col p <> col q /\ occ (Cell (row q) (col p)) = true /\ occ (Cell (row p) (col q)) = true).

(** [l] lists the cells visited after [p], and the walk ends in [q]. *)
Fixpoint walk (rows columns : Z) (occ : cell -> bool) (p : cell) (l : list cell) (q : cell) : Prop :=
  match l with
  | [] => p = q
  | c :: l' => grid_step rows columns occ p c /\ walk rows columns occ c l' q
  end.

Fixpoint walk_cost (cost : cell -> cell -> R) (p : cell) (l : list cell) : R :=
  match l with
  | [] => 0%R
  | c :: l' => (cost p c + walk_cost cost c l')%R
  end.
