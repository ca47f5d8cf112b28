(** Property C97: the states that a search has explored. *)
From Coq Require Import Reals.
From Verif Require Import Base Frontier_model Frontier_spec AStar_model AStar_spec AStar_proofs AStar_opt_proofs Grid_model Grid_spec AStarN2_model AStarN2_spec
  Heuristic_model AStar_props Explored_model Explored_proofs ExploredN2_proofs.
Local Open Scope nat_scope.

(** The explored states are the initial one and those given to the propagator, each once. *)
Theorem C97_explored_are_expanded :
  forall (S A C P : Type) (eqs : S -> S -> bool) (ltb : C -> C -> bool) (add : C -> C -> C) (zero : C)
    (h : S -> C) (succ : P -> S -> list (S * A * C) * P) (issol : S -> bool) (guard : S -> S -> bool) (graph : bool),
    decides_eq eqs -> strict_weak_order C ltb ->
    forall fuel init p r st, graph = true ->
      search_path eqs ltb add zero h succ issol guard graph fuel init p = Ok (r, st) ->
      NoDup (get_explored_states st) /\ forall s, In s (get_explored_states st) <-> s = init \/ In s (st_queried st).
Proof. exact @explored_expanded. Qed.
Print Assumptions C97_explored_are_expanded.

(** If the search fails, it has explored exactly the states that can be reached. *)
Theorem C97_failure_explores_everything :
  forall (S A C P : Type) (eqs : S -> S -> bool) (ltb : C -> C -> bool) (add : C -> C -> C) (zero : C)
    (h : S -> C) (succ : P -> S -> list (S * A * C) * P) (issol : S -> bool) (guard : S -> S -> bool) (graph : bool)
    (nb : S -> list (S * A * C)),
    decides_eq eqs -> strict_weak_order C ltb -> deterministic succ nb ->
    forall fuel init p st,
      search_path eqs ltb add zero h succ issol guard graph fuel init p = Ok (None, st) ->
      forall t, In t (get_explored_states st) <-> reachable succ init t.
Proof. exact @failure_explores_all. Qed.
Print Assumptions C97_failure_explores_everything.

(** With a consistent heuristic: a state is explored only if a cheapest way to it, with the heuristic, is no more expensive than what is
    found; and it is explored if any way to it is cheaper than that. For any cost arithmetic. *)
Theorem C97_explores_no_more_than_needed :
  forall (S A C P : Type) (eqs : S -> S -> bool) (ltb : C -> C -> bool) (add : C -> C -> C) (zero : C)
    (h : S -> C) (succ : P -> S -> list (S * A * C) * P) (issol : S -> bool) (nb : S -> list (S * A * C)),
    decides_eq eqs -> cost_laws ltb add -> deterministic succ nb ->
    forall init, consistent_from succ ltb add h init -> cancellable ltb add h ->
    forall fuel p n st,
      search_path eqs ltb add zero h succ issol (fun _ _ => true) true fuel init p = Ok (Some n, st) ->
      (forall s, In s (get_explored_states st) -> exists l, is_path succ init l s /\
         leb ltb (add (path_cost add zero l) (h s)) (add (n_g zero n) (h (n_state n))) /\
         forall l', is_path succ init l' s -> leb ltb (path_cost add zero l) (path_cost add zero l')) /\
      (forall l t, is_path succ init l t -> ltb (add (path_cost add zero l) (h t)) (add (n_g zero n) (h (n_state n))) = true ->
         In t (get_explored_states st)).
Proof. exact @efficient. Qed.
Print Assumptions C97_explores_no_more_than_needed.

(** A larger heuristic explores fewer states: what it explores is explored with the smaller one too, except for states through which, by
    the smaller heuristic, no way is cheaper than the one found. *)
Theorem C97_better_heuristic_explores_less :
  forall (S A P : Type) (eqs : S -> S -> bool) (succ : P -> S -> list (S * A * R) * P) (issol : S -> bool) (nb : S -> list (S * A * R)),
    decides_eq eqs -> deterministic succ nb ->
    forall (h1 h2 : S -> R) init fuel1 p1 n1 st1 fuel2 p2 n2 st2,
    (forall g s a c t, reachable succ init s -> trans succ s a c t -> g + h1 s <= g + c + h1 t)%R -> (forall t, issol t = true -> h1 t = 0%R) ->
    (forall g s a c t, reachable succ init s -> trans succ s a c t -> g + h2 s <= g + c + h2 t)%R -> (forall t, issol t = true -> h2 t = 0%R) ->
    (forall s, h1 s <= h2 s)%R ->
    search_path eqs Rltb Rplus 0%R h1 succ issol (fun _ _ => true) true fuel1 init p1 = Ok (Some n1, st1) ->
    search_path eqs Rltb Rplus 0%R h2 succ issol (fun _ _ => true) true fuel2 init p2 = Ok (Some n2, st2) ->
    exists cost, get_optimal_cost 0%R (Some n1) = Some cost /\ get_optimal_cost 0%R (Some n2) = Some cost /\
    forall s, In s (get_explored_states st2) ->
      In s (get_explored_states st1) \/ forall l, is_path succ init l s -> (cost <= path_cost Rplus 0%R l + h1 s)%R.
Proof. exact @fewer. Qed.
Print Assumptions C97_better_heuristic_explores_less.

(** The same on grids: cells explored are cells of the map with a walk to them, *)
Theorem C97_grid_explored :
  forall (C : Type) (ltb : C -> C -> bool) (add : C -> C -> C) (zero : C), strict_weak_order C ltb ->
  forall m n cost occ h init goal fuel r st, inside m n init ->
  n2_search ltb add zero m n cost occ h init goal fuel = Ok (r, st) ->
  NoDup (get_explored_states st) /\ forall q, In q (get_explored_states st) -> inside m n q /\ exists l, walk m n occ init l q.
Proof. exact @n2_explored_walk. Qed.
Print Assumptions C97_grid_explored.

(** all of them if the search fails, *)
Theorem C97_grid_failure_explores_everything :
  forall (C : Type) (ltb : C -> C -> bool) (add : C -> C -> C) (zero : C), strict_weak_order C ltb ->
  forall m n cost occ h init goal fuel st, inside m n init ->
  n2_search ltb add zero m n cost occ h init goal fuel = Ok (None, st) ->
  forall q, In q (get_explored_states st) <-> exists l, walk m n occ init l q.
Proof. exact @n2_failure_explores. Qed.
Print Assumptions C97_grid_failure_explores_everything.

(** and else those whose shortest walk, with the heuristic, is below the one found, and none above. *)
Theorem C97_grid_explores_no_more_than_needed :
  forall m n (cost : cell -> cell -> R) occ h init goal fuel sol st, inside m n init ->
  (forall p q, inside m n p -> grid_step m n occ p q -> h p - h q <= cost p q)%R -> h goal = 0%R ->
  n2_search Rltb Rplus 0%R m n cost occ h init goal fuel = Ok (Some sol, st) ->
  exists best, get_optimal_cost 0%R (Some sol) = Some best /\
  (forall q, In q (get_explored_states st) -> exists l, walk m n occ init l q /\ (walk_cost cost init l + h q <= best)%R /\
     forall l', walk m n occ init l' q -> (walk_cost cost init l <= walk_cost cost init l')%R) /\
  (forall l q, walk m n occ init l q -> (walk_cost cost init l + h q < best)%R -> In q (get_explored_states st)).
Proof. exact n2_efficient. Qed.
Print Assumptions C97_grid_explores_no_more_than_needed.

(** Both outcomes: the diamond of AStar_props with the goal 3, where 1 is reached along 2, and with a goal that cannot be reached. *)
Definition explored_of {X} (r : res (X * search nat unit Z unit)) : option (list nat) :=
  match r with Ok (_, st) => Some (get_explored_states st) | _ => None end.
Example C97_success : explored_of (nat_search true diamond (fun _ => 0%Z) 3 0) = Some [1; 2; 0] /\
  result (nat_search true diamond (fun _ => 0%Z) 3 0) = Some (Ok [0; 2; 1; 3], Some 3%Z).
Proof. split; vm_compute; reflexivity. Qed.
(** A larger consistent heuristic does not explore 2 if it leads away. *)
Definition fork (s : nat) : list (nat * Z) := match s with 0 => [(1, 2%Z); (2, 1%Z)] | 1 => [(3, 2%Z)] | _ => [] end.
Example C97_fork : explored_of (nat_search true fork (fun _ => 0%Z) 3 0) = Some [1; 2; 0] /\
  explored_of (nat_search true fork (fun s => match s with 0 => 4%Z | 1 => 2%Z | 2 => 9%Z | _ => 0%Z end) 3 0) = Some [1; 0].
Proof. split; vm_compute; reflexivity. Qed.
Example C97_failure : explored_of (nat_search true diamond (fun _ => 0%Z) 9 0) = Some [3; 1; 2; 0].
Proof. vm_compute. reflexivity. Qed.
