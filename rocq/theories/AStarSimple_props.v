(** C94: the paths of the graph search visit no state twice. *)
From Coq Require Import Reals.
From Verif Require Import Base RealBase Frontier_model Frontier_spec AStar_model AStar_spec AStar_proofs AStar_opt_proofs AStarSimple_proofs Grid_model Grid_spec Grid_proofs AStarN2_model AStarN2_spec AStarN2_proofs
  Coords_model Pose_model Straight_model PathCost_model Validator_model Hybrid_model HybridSimple_proofs HybridDemo_proofs.

(** The states of a path found are pairwise different, whatever the costs and the heuristic. *)
Theorem C94_path_visits_no_state_twice :
  forall (S A C P : Type) (eqs : S -> S -> bool) (ltb : C -> C -> bool) (add : C -> C -> C) (zero : C) (h : S -> C)
    (succ : P -> S -> list (S * A * C) * P) (issol : S -> bool) (guard : S -> S -> bool),
  equivalence S eqs -> strict_weak_order C ltb -> forall fuel init p n st,
  search_path eqs ltb add zero h succ issol guard true fuel init p = Ok (Some n, st) ->
  exists path, get_path (Some n) = Ok path /\ pairwise_distinct eqs path.
Proof. exact @search_simple_path. Qed.
Print Assumptions C94_path_visits_no_state_twice.

(** So a path has no more states than can be reached, ... *)
Theorem C94_path_length :
  forall (S A C P : Type) (eqs : S -> S -> bool) (ltb : C -> C -> bool) (add : C -> C -> C) (zero : C) (h : S -> C)
    (succ : P -> S -> list (S * A * C) * P) (issol : S -> bool) (guard : S -> S -> bool),
  equivalence S eqs -> strict_weak_order C ltb -> forall fuel init p n st K, finitely_reachable succ eqs init K ->
  search_path eqs ltb add zero h succ issol guard true fuel init p = Ok (Some n, st) ->
  exists path, get_path (Some n) = Ok path /\ (length path <= length K)%nat.
Proof.
  intros S A C P eqs ltb add zero h succ issol guard He Hl fuel init p n st K HK E. exists (rev (trail n)). split.
  - unfold get_path. rewrite trail_path, app_nil_r. reflexivity.
  - pose proof (search_path_short eqs ltb add zero h succ issol guard He Hl fuel init p n st K HK E) as L. rewrite rev_length.
    assert (Lt : length (trail n) = Datatypes.S (n_depth n)) by (clear; induction n; cbn; auto). rewrite Lt. exact L.
Qed.
Print Assumptions C94_path_length.

(** ... on a grid no more than there are cells, ... *)
Theorem C94_grid_path :
  forall (C : Type) (ltb : C -> C -> bool) (add : C -> C -> C) (zero : C), strict_weak_order C ltb ->
  forall m n cost occ h init goal fuel sol st, inside m n init ->
  n2_search ltb add zero m n cost occ h init goal fuel = Ok (Some sol, st) ->
  exists path, get_path (Some sol) = Ok path /\ NoDup path /\ (length path <= Z.to_nat m * Z.to_nat n)%nat.
Proof.
  intros C ltb add zero Hl m n cost occ h init goal fuel sol st Hi E.
  destruct (C94_path_visits_no_state_twice _ _ _ _ _ _ _ _ _ _ _ _ (decides_eq_equiv _ cell_decides) Hl _ _ _ _ _ E) as (path & Ep & Hd).
  destruct (C94_path_length _ _ _ _ _ _ _ _ _ _ _ _ (decides_eq_equiv _ cell_decides) Hl _ _ _ _ _ _ (n2_finite m n cost occ init Hi) E) as (path' & Ep' & L).
  exists path. split; [exact Ep|]. rewrite Ep in Ep'. injection Ep' as <-. rewrite all_cells_length in L. split; [|exact L].
  clear - Hd. induction Hd as [|c l Hc Hl IH]; constructor; auto. intros I. rewrite Forall_forall in Hc. specialize (Hc c I). now rewrite cell_eqb_refl in Hc.
Qed.
Print Assumptions C94_grid_path.

(** ... and the motions of Hybrid A* start and end in pairwise different cells of its discretization. *)
Theorem C94_hybrid_motions :
  forall m f field vres validate heur Rng draw goal vfuel fuel init g n st,
  graph_search m f field vres validate heur Rng draw goal vfuel fuel init g = Ok (Some n, st) ->
  exists l cells, search_motions (Some n) = Ok l /\ Forall2 (fun p c => discretize m p = Ok c) (init :: map dp_final l) cells /\ NoDup cells.
Proof. exact motions_distinct. Qed.
Print Assumptions C94_hybrid_motions.

(** Non-vacuity: a search that walks around a cycle, and the searches of C53. *)
Definition ring (_ : unit) (s : nat) : list (nat * unit * Z) * unit := ([((s + 1) mod 5, tt, 1%Z); ((s + 4) mod 5, tt, 3%Z)]%nat, tt).
Example C94_ring :
  match search_path Nat.eqb Z.ltb Z.add 0%Z (fun _ => 0%Z) ring (Nat.eqb 3) (fun _ _ => true) true 10 0%nat tt with
  | Ok (s, _) => Some (get_path s)
  | _ => None
  end = Some (Ok [0; 1; 2; 3]%nat).
Proof. vm_compute. reflexivity. Qed.
Example C94_hybrid : exists vres n st q, (0 < vres)%R /\
  graph_search demo_params demo_frames demo_field vres demo_validate demo_heur unit demo_draw demo_goal 1 2 demo_init tt = Ok (Some n, st) /\
  search_motions (Some n) = Ok [Connected q].
Proof. exact demo_search. Qed.

(** The switch of the template matters: a tree search does not look at what it has explored, and may return to the initial state, here because
    the propagator offers the goal only the second time. *)
Definition second (p s : nat) : list (nat * unit * Z) * nat :=
  match s, p with
  | 0, 0 => ([(1, tt, 1%Z)], 1)
  | 1, _ => ([(0, tt, 1%Z)], 1)
  | 0, _ => ([(2, tt, 1%Z)], 1)
  | _, _ => ([], p)
  end%nat.
Example C94_tree_search :
  match search_path Nat.eqb Z.ltb Z.add 0%Z (fun _ => 0%Z) second (Nat.eqb 2) (fun _ _ => true) false 10 0%nat 0%nat with
  | Ok (s, _) => Some (get_path s)
  | _ => None
  end = Some (Ok [0; 1; 0; 2]%nat).
Proof. vm_compute. reflexivity. Qed.
