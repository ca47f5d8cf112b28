(** Specification vocabulary for the explored containers. *)
From Verif Require Import Base AStar_model Store_model.

(** What can be seen of a search: its result, and the calls of the propagator (their order and the state they
    leave it in). *)
Definition outcome {S A C P E} (x : option (node S A C) * kept_search S A C P E) : option (node S A C) * P * list S :=
  (fst x, k_prop (snd x), k_queried (snd x)).
