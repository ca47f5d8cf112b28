(** Vocabulary for bidirectional searches on grids. *)
From Verif Require Import Base Grid_model.

(** The steps of a walk from [p] along the cells [l]. *)
Fixpoint walk_edges (p : cell) (l : list cell) : list (cell * cell) :=
  match l with
  | [] => []
  | c :: l' => (p, c) :: walk_edges c l'
  end.
