(** Specification vocabulary for tree search: state spaces in which all ways to a state cost the same, and
    the number of paths out of a state. *)
From Verif Require Import Base AStar_spec.

Section Tree.
  Variables (S A C P : Type).
  Variable succ : P -> S -> list (S * A * C) * P.

  (** All paths from [init] to one state have the same cost. This holds in particular of a tree, where
      there is only one path to each state. *)
  Definition one_cost (add : C -> C -> C) (zero : C) (init : S) : Prop :=
    forall l1 l2 t, is_path succ init l1 t -> is_path succ init l2 t ->
      path_cost add zero l1 = path_cost add zero l2.

  (** The heuristic never overestimates: added to the cost so far, it is at most the cost with which any
      path arrives at a solution. *)
  Definition admissible_from (ltb : C -> C -> bool) (add : C -> C -> C) (h : S -> C) (issol : S -> bool)
    (init : S) : Prop :=
    forall g s l t, reachable succ init s -> is_path succ s l t -> issol t = true ->
      leb ltb (add g (h s)) (path_cost add g l).

  (** The heuristic of a solution does not lower a cost. *)
  Definition nonneg_at_solutions (ltb : C -> C -> bool) (add : C -> C -> C) (h : S -> C) (issol : S -> bool) : Prop :=
    forall g t, issol t = true -> leb ltb g (add g (h t)).

  (** No path from [init] has more than [k] steps. *)
  Definition paths_at_most (init : S) (k : nat) : Prop :=
    forall l t, is_path succ init l t -> length l <= k.

  (** [f] is a path from [init] that goes on for ever, for instance around a cycle. *)
  Definition endless (init : S) (f : nat -> S) : Prop :=
    f 0 = init /\ forall i, exists a c, trans succ (f i) a c (f (Datatypes.S i)).

  (** The number of paths of at most [k] steps that start in [s], the empty one included. *)
  Fixpoint count_paths (nb : S -> list (S * A * C)) (k : nat) (s : S) : nat :=
    match k with
    | 0 => 1
    | Datatypes.S k' => Datatypes.S (list_sum (map (fun t => count_paths nb k' (fst (fst t))) (nb s)))
    end.
End Tree.

Arguments one_cost {S A C P}.
Arguments admissible_from {S A C P}.
Arguments nonneg_at_solutions {S C}.
Arguments paths_at_most {S A C P}.
Arguments endless {S A C P}.
Arguments count_paths {S A C}.
