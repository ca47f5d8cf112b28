(** Specification vocabulary for grid cells. *)
From Verif Require Import Base Grid_model.
Open Scope Z_scope.

(** The cell lies inside a grid of the given size. *)
Definition inside (rows columns : Z) (p : cell) : Prop := 0 <= row p < rows /\ 0 <= col p < columns.

(** The two cells touch: Chebyshev distance one. *)
Definition touches (a b : cell) : Prop := Z.max (Z.abs (row a - row b)) (Z.abs (col a - col b)) = 1.

(** The value a history of writes leaves in a cell: the last one written to it, else the initial one. *)
Fixpoint last_write {T} (init : T) (ws : list (cell * T)) (p : cell) : T :=
  match ws with
  | [] => init
  | (q, v) :: ws' => last_write (if cell_eqb q p then v else init) ws' p
  end.
