(** Planners that have been used before. *)
From Coq Require Import ZArith.
From Verif Require Import Base Frontier_spec Node_model TreeMem_model Rrt_model Rrt_spec RrtMem_model.

(** An RRT planner after any number of searches, each with its own start, goal, parameters, random numbers, validator and connection. *)
Inductive rrt_used {V P} (eqv : V -> V -> bool) (final : P -> V) : pmem V (option P) -> Prop :=
| rrt_fresh : rrt_used eqv final (p_new None)
| rrt_again m steer valid issol sample nearest maxIteration maxNode init s m' n :
    rrt_used eqv final m -> answers nearest ->
    p_rrt_search eqv final steer valid issol sample nearest maxIteration maxNode m init = Ok (s, m', n) -> rrt_used eqv final m'.

(** The same for RRT*. *)
Inductive star_used {V P C} (eqv : V -> V -> bool) (final : P -> V) (zero : C) (add : C -> C -> C) (ltb : C -> C -> bool) : pmem V (sinfo (P := P) (C := C)) -> Prop :=
| star_fresh : star_used eqv final zero add ltb (p_new (None, Some zero))
| star_again m steer valid issol sample nearest maxIteration maxNode connect plength log knn init s m' n :
    star_used eqv final zero add ltb m -> answers nearest -> answers_all knn ->
    p_star_search eqv final steer valid issol sample nearest maxIteration maxNode connect plength zero add ltb log knn m init = Ok (s, m', n) ->
    star_used eqv final zero add ltb m'.

(** What a user sees of a search and of [GetPath] after it: the status, the path, the number of nodes and the number of iterations. *)
Definition seen {V I} (r : res (bool * pmem V I * Z)) : res (bool * list V * nat * Z) :=
  do (s, m, n) <- r; do l <- p_path m; Ok (s, l, t_size (p_tree m), n).
(** The same for the searches of Rrt_model.v, which start from nothing and have no memory. *)
Definition expected {V I} (r : res (bool * tree V I * option nat * Z)) : res (bool * list V * nat * Z) :=
  do (s, t, k, n) <- r; do l <- get_path t k; Ok (s, l, length t, n).
