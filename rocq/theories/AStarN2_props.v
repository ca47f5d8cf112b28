(** C09 and C10: A* on occupancy grids. *)
From Coq Require Import Reals.
From Verif Require Import Base Frontier_model Frontier_spec AStar_model Grid_model Grid_spec Heuristic_model
  AStarN2_model AStarN2_spec AStarN2_proofs.
Open Scope Z_scope.

(** C09: a returned path starts at the initial cell and every step is to a free touching cell of the grid
    without squeezing between two occupied corner cells. Any cost function, heuristic and comparison. *)
Theorem C09_grid_path_avoids_obstacles :
  forall (C : Type) (ltb : C -> C -> bool) (add : C -> C -> C) (zero : C), strict_weak_order C ltb ->
  forall m n cost occ h init goal fuel sol st, inside m n init ->
    n2_search ltb add zero m n cost occ h init goal fuel = Ok (Some sol, st) ->
    exists l, get_path (Some sol) = Ok (init :: l) /\ walk m n occ init l goal.
Proof. exact @n2_sound. Qed.
Print Assumptions C09_grid_path_avoids_obstacles.

(** The propagator calls IsOccupied only on cells of the map: an occupancy test that is defined on the
    map (and may be undefined behaviour elsewhere) is enough. *)
Theorem C09_occupancy_reads_in_bounds :
  forall (C : Type) m n (cost : cell -> cell -> C) occ (occr : cell -> res bool) p,
    inside m n p -> (forall c, inside m n c -> occr c = Ok (occ c)) ->
    n2_neighbors_res m n cost occr p = Ok (n2_neighbors m n cost occ p).
Proof. exact @n2_safe. Qed.
Print Assumptions C09_occupancy_reads_in_bounds.

(** Every permitted step is offered with its cost, and nothing else is. *)
Theorem C09_propagator_exact :
  forall (C : Type) m n (cost : cell -> cell -> C) occ p q a c, inside m n p ->
    In (q, a, c) (n2_neighbors m n cost occ p) <-> grid_step m n occ p q /\ c = cost p q.
Proof. exact @n2_neighbors_In. Qed.
Print Assumptions C09_propagator_exact.

(** C10: the search ends within one iteration per cell (plus one), *)
Theorem C10_grid_search_terminates :
  forall (C : Type) (ltb : C -> C -> bool) (add : C -> C -> C) (zero : C), strict_weak_order C ltb ->
  forall m n cost occ h init goal, inside m n init ->
    forall fuel, (Z.to_nat m * Z.to_nat n < fuel)%nat ->
    exists r st, n2_search ltb add zero m n cost occ h init goal fuel = Ok (r, st).
Proof. exact @n2_terminates. Qed.
Print Assumptions C10_grid_search_terminates.

(** fails only if no walk to the goal exists, *)
Theorem C10_grid_failure_means_no_walk :
  forall (C : Type) (ltb : C -> C -> bool) (add : C -> C -> C) (zero : C), strict_weak_order C ltb ->
  forall m n cost occ h init goal fuel st, inside m n init ->
    n2_search ltb add zero m n cost occ h init goal fuel = Ok (None, st) ->
    forall l, ~ walk m n occ init l goal.
Proof. exact @n2_complete. Qed.
Print Assumptions C10_grid_failure_means_no_walk.

(** and with a heuristic that is consistent on the map returns a cheapest walk and its cost. *)
Theorem C10_grid_path_shortest :
  forall m n (cost : cell -> cell -> R) occ h init goal fuel sol st, inside m n init ->
    (forall p q, inside m n p -> grid_step m n occ p q -> h p - h q <= cost p q)%R ->
    n2_search Rltb Rplus 0%R m n cost occ h init goal fuel = Ok (Some sol, st) ->
    exists l, get_path (Some sol) = Ok (init :: l) /\ walk m n occ init l goal /\
      get_optimal_cost 0%R (Some sol) = Some (walk_cost cost init l) /\
      forall l', walk m n occ init l' goal -> (walk_cost cost init l <= walk_cost cost init l')%R.
Proof. exact n2_optimal. Qed.
Print Assumptions C10_grid_path_shortest.

(** Non-vacuity: a 3 x 4 map with a wall that has to be walked around; the diagonal between the two
    wall cells (0,1) and (1,2) is refused. *)
Definition wall (p : cell) : bool := existsb (cell_eqb p) [Cell 0 1; Cell 1 2; Cell 1 1].
Definition unit_cost (p q : cell) : Z := if is_diagonal_to p q then 14 else 10.
Definition wall_result :=
  match n2_search Z.ltb Z.add 0 3 4 unit_cost wall (fun p => 10 * Z.abs (3 - col p)) (Cell 0 0) (Cell 0 3) 20 with
  | Ok (sol, _) => Some (get_path sol, get_optimal_cost 0 sol)
  | _ => None
  end.
Example C09_wall : wall_result = Some (Ok [Cell 0 0; Cell 1 0; Cell 2 1; Cell 2 2; Cell 1 3; Cell 0 3], Some 58).
Proof. vm_compute. reflexivity. Qed.
Definition closed_wall (p : cell) : bool := col p =? 1.
Example C10_blocked :
  match n2_search Z.ltb Z.add 0 3 4 unit_cost closed_wall (fun p => 0) (Cell 0 0) (Cell 0 3) 20 with
  | Ok (sol, _) => Some (get_path sol)
  | _ => None
  end = Some (Ok []).
Proof. vm_compute. reflexivity. Qed.
(** The zero heuristic is consistent for non-negative costs, so the hypothesis of C10 can be met on every map. *)
Example C10_consistent : forall m n occ p q, inside m n p -> grid_step m n occ p q ->
  ((fun _ : cell => 0) p - (fun _ : cell => 0) q <= (fun _ _ : cell => 1) p q)%R.
Proof. intros m n occ p q _ _. rewrite Rminus_0_r. exact Rle_0_1. Qed.
