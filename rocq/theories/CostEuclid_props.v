(** C93: the grid search with distances in double precision. *)
From Coq Require Import Reals ZArith Lra Lia.
From Flocq Require Import Core BinarySingleNaN.
From Verif Require Import Base Frontier_model AStar_model Grid_model Grid_spec AStarN2_model AStarN2_spec CostFloat_model CostFloat_spec CostFloatN2_proofs
  CostEuclid_model CostEuclid_spec CostEuclid_proofs.
Local Open Scope R_scope.

(** The costs and the heuristic are distances of any metric, measured with a relative error of at most [4 / 2^53]. The path found is as short as any
    other walk, up to a factor of [1 + 60 N / 2^53] where [N] is the number of cells. The walks it is compared with must not be so long that their
    length overflows. *)
Theorem C93_measured_grid_near_shortest :
  forall (m n : Z) (occ : cell -> bool) (dist : cell -> cell -> R) (cost : cell -> cell -> double) (h : cell -> double) (delta : R) (init goal : cell),
  (forall p q, 0 <= dist p q) -> (forall p, dist p p = 0) -> (forall p q r, dist p r <= dist p q + dist q r) ->
  0 <= delta <= 4 * d_unit -> inside m n init ->
  (forall p q, inside m n p -> grid_step m n occ p q -> measures delta (cost p q) (dist p q)) ->
  (forall p, inside m n p -> measures delta (h p) (dist p goal)) ->
  forall N fuel sol st, (Z.to_nat m * Z.to_nat n <= N)%nat -> 15 * INR N * d_unit <= 1 ->
  n2_search d_ltb d_add d_zero m n cost occ h init goal fuel = Ok (Some sol, st) ->
  exists l, get_path (Some sol) = Ok (init :: l) /\ walk m n occ init l goal /\
  forall l', walk m n occ init l' goal -> 4 * walk_cost dist init l' <= d_max ->
    walk_cost dist init l <= (1 + 60 * INR N * d_unit) * walk_cost dist init l'.
Proof. exact grid_near. Qed.
Print Assumptions C93_measured_grid_near_shortest.

(** With the distance computed as the rounded square root of the sum of the squares there is nothing left to assume but the size of the map. *)
Theorem C93_euclidean_grid_near_shortest :
  forall (m n : Z) (occ : cell -> bool) (init goal : cell) fuel sol st,
  inside m n init -> inside m n goal -> (m * m + n * n <= 2 ^ 53)%Z -> (15 * (m * n) <= 2 ^ 53)%Z ->
  n2_search d_ltb d_add d_zero m n euclid_double occ (fun p => euclid_double p goal) init goal fuel = Ok (Some sol, st) ->
  exists l, get_path (Some sol) = Ok (init :: l) /\ walk m n occ init l goal /\
  forall l', walk m n occ init l' goal -> walk_cost euclid init l <= (1 + 60 * IZR (m * n) / 2 ^ 53) * walk_cost euclid init l'.
Proof. exact grid_euclid. Qed.
Print Assumptions C93_euclidean_grid_near_shortest.

(** The distances measured that way are within one rounding of the true ones. *)
Theorem C93_distance_measured :
  forall m n p q, (0 <= m)%Z -> (0 <= n)%Z -> (m * m + n * n <= 2 ^ 53)%Z -> inside m n p -> inside m n q -> measures d_unit (euclid_double p q) (euclid p q).
Proof. exact euclid_close. Qed.
Print Assumptions C93_distance_measured.

(** Non-vacuity: the map of C09. *)
Definition dwall (p : cell) : bool := existsb (cell_eqb p) [Cell 0 1; Cell 1 2; Cell 1 1].
Example C93_wall :
  match n2_search d_ltb d_add d_zero 3 4 euclid_double dwall (fun p => euclid_double p (Cell 0 3)) (Cell 0 0) (Cell 0 3) 20 with
  | Ok (sol, _) => Some (get_path sol, option_map B2SF (get_optimal_cost d_zero sol))
  | _ => None
  end = Some (Ok [Cell 0 0; Cell 1 0; Cell 2 1; Cell 2 2; Cell 1 3; Cell 0 3], Some (SpecFloat.S754_finite false 6562225556790758 (-50))).
Proof. vm_compute. reflexivity. Qed.
Example C93_sizes : (1000 * 1000 + 1000 * 1000 <= 2 ^ 53)%Z /\ (15 * (1000 * 1000) <= 2 ^ 53)%Z /\ 60 * IZR (1000 * 1000) / 2 ^ 53 <= / 10 ^ 8.
Proof. split; [vm_compute; discriminate|]. split; [vm_compute; discriminate|]. cbn -[pow]. lra. Qed.
