(** C119: bidirectional A* on occupancy grids. *)
From Coq Require Import Reals Lra.
From Verif Require Import Base RealBase Frontier_model Frontier_spec AStar_model AStar_spec Grid_model Grid_spec AStarN2_model AStarN2_spec AStarN2_props
  Bidir_model GridBi_spec GridBi_proofs.
Open Scope Z_scope.

(** The full claim, "for every start and goal on the map a bidirectional search succeeds exactly if A* does and then returns a walk to the goal",
    is false. If the goal is occupied, the bidirectional search can return a path that ends there, although no walk does and A* fails;
    if the start is occupied, it can fail although A* finds a walk. *)
Definition one_occupied (p : cell) : bool := cell_eqb p (Cell 0 0).
Theorem C119_bidirectional_agrees_with_astar_refuted :
  (exists b st,
    bi_search cell_eqb Z.ltb Z.add 0 (fun _ => 0) (fun _ => 0) (n2_succ 1 3 unit_cost one_occupied) (n2_succ 1 3 unit_cost one_occupied) true 4
      (Cell 0 2) (Cell 0 0) tt tt = Ok (true, b) /\
    bi_path (b_sol b) = Ok [Cell 0 2; Cell 0 1; Cell 0 1; Cell 0 0] /\
    n2_search Z.ltb Z.add 0 1 3 unit_cost one_occupied (fun _ => 0) (Cell 0 2) (Cell 0 0) 4 = Ok (None, st)) /\
  (exists b sol st,
    bi_search cell_eqb Z.ltb Z.add 0 (fun _ => 0) (fun _ => 0) (n2_succ 1 2 unit_cost one_occupied) (n2_succ 1 2 unit_cost one_occupied) true 3
      (Cell 0 0) (Cell 0 1) tt tt = Ok (false, b) /\
    n2_search Z.ltb Z.add 0 1 2 unit_cost one_occupied (fun _ => 0) (Cell 0 0) (Cell 0 1) 3 = Ok (Some sol, st) /\
    get_path (Some sol) = Ok [Cell 0 0; Cell 0 1] /\ walk 1 2 one_occupied (Cell 0 0) [Cell 0 1] (Cell 0 1)).
Proof.
  split.
  - eexists. eexists. split; [vm_compute; reflexivity|]. split; vm_compute; reflexivity.
  - eexists. eexists. eexists. split; [vm_compute; reflexivity|]. split; [vm_compute; reflexivity|]. split; [vm_compute; reflexivity|].
    cbn [walk]. split; auto. unfold grid_step, inside, touches. cbn. repeat split; lia.
Qed.
Print Assumptions C119_bidirectional_agrees_with_astar_refuted.

(** With a free start and a free goal both searches end, and each succeeds exactly if there is a walk. Any costs, heuristics and comparison. *)
Theorem C119_succeeds_iff_walk_exists_partial :
  forall (C : Type) (ltb : C -> C -> bool) (add : C -> C -> C) (zero : C), strict_weak_order C ltb ->
  forall m n (cost costr : cell -> cell -> C) occ hf hr init goal fuel h fuel',
    inside m n init -> inside m n goal -> occ init = false -> occ goal = false ->
    (Z.to_nat m * Z.to_nat n < fuel)%nat -> (Z.to_nat m * Z.to_nat n < fuel')%nat ->
    exists ok b r st,
      bi_search cell_eqb ltb add zero hf hr (n2_succ m n cost occ) (n2_succ m n costr occ) true fuel init goal tt tt = Ok (ok, b) /\
      n2_search ltb add zero m n cost occ h init goal fuel' = Ok (r, st) /\
      (ok = true <-> exists l, walk m n occ init l goal) /\ (ok = true <-> r <> None).
Proof. exact @grid_bi_decides. Qed.
Print Assumptions C119_succeeds_iff_walk_exists_partial.

(** The returned cells are two walks joined at a cell that is listed twice, from the start to the goal, and the reported cost is the cost of
    walking them forward, if the reverse propagator prices each step as the forward one prices the step back. *)
Theorem C119_path_is_a_walk_partial :
  forall m n (cost costr : cell -> cell -> R) occ hf hr, (forall p q, cost p q = costr q p) ->
  forall init goal fuel b, inside m n init -> inside m n goal -> occ init = false -> occ goal = false ->
    bi_search cell_eqb Rltb Rplus 0%R hf hr (n2_succ m n cost occ) (n2_succ m n costr occ) true fuel init goal tt tt = Ok (true, b) ->
    exists l1 s l2, walk m n occ init l1 s /\ walk m n occ s l2 goal /\
      bi_path (b_sol b) = Ok ((init :: l1) ++ s :: l2) /\
      bi_cost Rplus 0%R (b_sol b) = Some (walk_cost cost init (l1 ++ l2)).
Proof. exact grid_bi_path. Qed.
Print Assumptions C119_path_is_a_walk_partial.

(** With consistent heuristics of constant sum, no walk is cheaper than the reported cost by more than one of its steps and the change of the
    forward estimate along that step. *)
Theorem C119_cost_is_close_to_least_partial :
  forall m n (cost costr : cell -> cell -> R) occ hf hr, (forall p q, cost p q = costr q p) ->
  forall init goal fuel b, inside m n init -> inside m n goal -> occ init = false -> occ goal = false ->
    (forall p q, inside m n p -> occ p = false -> grid_step m n occ p q -> hf p - hf q <= cost p q /\ hr p - hr q <= costr p q)%R ->
    (forall u v, hf u + hr u = hf v + hr v)%R -> (forall s, 0 <= hf s /\ 0 <= hr s)%R ->
    bi_search cell_eqb Rltb Rplus 0%R hf hr (n2_succ m n cost occ) (n2_succ m n costr occ) true fuel init goal tt tt = Ok (true, b) ->
    exists c, bi_cost Rplus 0%R (b_sol b) = Some c /\ forall l, walk m n occ init l goal ->
      (c <= walk_cost cost init l)%R \/
      exists u v, In (u, v) (walk_edges init l) /\ (c <= walk_cost cost init l + cost u v + (hf v - hf u))%R.
Proof. exact grid_bi_near. Qed.
Print Assumptions C119_cost_is_close_to_least_partial.

(** Non-vacuity: the map with a wall of C09, where the start and the goal are free, and a map where they are apart. *)
Example C119_wall :
  match bi_search cell_eqb Z.ltb Z.add 0 (fun _ => 0) (fun _ => 0) (n2_succ 3 4 unit_cost wall) (n2_succ 3 4 unit_cost wall) true 13
      (Cell 0 0) (Cell 0 3) tt tt with
  | Ok (ok, b) => ok = true /\ bi_path (b_sol b) = Ok [Cell 0 0; Cell 1 0; Cell 2 1; Cell 2 2; Cell 2 2; Cell 1 3; Cell 0 3] /\
      bi_cost Z.add 0 (b_sol b) = Some 58
  | _ => False end /\
  match bi_search cell_eqb Z.ltb Z.add 0 (fun _ => 0) (fun _ => 0) (n2_succ 3 4 unit_cost closed_wall) (n2_succ 3 4 unit_cost closed_wall) true 13
      (Cell 0 0) (Cell 0 3) tt tt with
  | Ok (ok, _) => ok = false | _ => False end.
Proof. vm_compute. repeat split; reflexivity. Qed.
(** The hypotheses on the heuristics are met by the constant zero and unit costs on every map. *)
Example C119_heuristics : forall m n occ,
  (forall p q, inside m n p -> occ p = false -> grid_step m n occ p q -> (fun _ : cell => 0) p - (fun _ : cell => 0) q <= (fun _ _ : cell => 1) p q)%R /\
  (forall u v : cell, (fun _ : cell => 0) u + (fun _ : cell => 0) u = (fun _ : cell => 0) v + (fun _ : cell => 0) v)%R.
Proof. intros. split; intros; cbn; lra. Qed.
