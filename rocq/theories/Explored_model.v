(** Model of the sets of explored states that the planners give out. *)
From Verif Require Import Base Frontier_model AStar_model.

(** a_star.h:290-291, [GetExploredStates], with the container [Explored] (a_star.h:163-178); for [ExploredMap]
    (a_star.h:180-193), the keys, as in /repo/interfaces/python/src/pyplanning.cpp:163-190. The order of a hashed container is
    not modelled. *)
Definition get_explored_states {S A C P} (st : search S A C P) : list S := map n_state (st_expl st).
