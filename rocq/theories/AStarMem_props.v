(** Properties C89 and C90: the memory of the graph search, and the paths that it explored. *)
From Coq Require Import Reals Lra.
From Verif Require Import Base RealBase Grid_model Coords_model Pose_model Pose_spec Straight_model Straight_spec Validator_model Validator_spec Frontier_model Frontier_spec
  AStar_model AStar_spec AStarMem_model AStarMem_spec AStarMem_proofs Hybrid_model Hybrid_spec HybridDemo_proofs AStarMemHybrid_proofs.

(** C89. With pointers, any sequence of searches by one object gives the answers of searches without pointers, each started afresh. *)
Theorem C89_same_answers :
  forall S A C P eqs ltb add zero dflt guard graph (qs : list (@request S A C P)) (p : P),
  rmap fst (ms_run eqs ltb add zero dflt guard graph qs (ms_new p)) = plain_run eqs ltb add zero dflt guard graph qs p.
Proof. intros. apply run_same. Qed.
Print Assumptions C89_same_answers.

(** No pointer to a deleted node, and no null pointer, is dereferenced. *)
Theorem C89_no_undefined_behaviour :
  forall S A C P eqs ltb add zero dflt guard graph (qs : list (@request S A C P)) (p : P), equivalence S eqs -> strict_weak_order C ltb ->
  match ms_run eqs ltb add zero dflt guard graph qs (ms_new p) with Ok _ => True | NoFuel => True | UB => False | Throw => False end.
Proof. intros. now apply run_no_ub. Qed.
Print Assumptions C89_no_undefined_behaviour.

(** After a search, the pointers of the frontier, of the explored states and to the solution are those of nodes that are alive, and the nodes
    that are alive are those of one tree, which the root owns: nothing is left of earlier searches. *)
Theorem C89_pointers :
  forall S A C P eqs ltb add zero dflt guard graph (qs : list (@request S A C P)) q (p : P) xs st,
  ms_run eqs ltb add zero dflt guard graph (qs ++ [q]) (ms_new p) = Ok (xs, st) ->
  (forall a, In a (vec (ms_front st)) -> live (ms_mem st) a <> None) /\ (forall a, In a (set (ms_front st)) -> live (ms_mem st) a <> None) /\
  (forall s a, In (s, a) (ms_expl st) -> exists o, live (ms_mem st) a = Some o /\ ob_state o = s) /\
  (forall a, ms_sol st = Some a -> live (ms_mem st) a <> None) /\
  exists r, ms_root st = Some r /\ forall a, live (ms_mem st) a <> None <-> owned (ms_mem st) r a.
Proof. intros * E. destruct (run_finished _ _ _ _ _ _ _ _ _ _ _ _ E) as (ys & x & _ & Fi). exact (finished_pointers _ _ _ q x st Fi). Qed.
Print Assumptions C89_pointers.

(** The destructor deletes all nodes. *)
Theorem C89_no_leak :
  forall S A C P eqs ltb add zero dflt guard graph (qs : list (@request S A C P)) (p : P) xs st,
  ms_run eqs ltb add zero dflt guard graph qs (ms_new p) = Ok (xs, st) ->
  exists m, ms_destroy st = Ok m /\ forall a, live m a = None.
Proof. intros * E. apply (good_destroy ltb add zero). exact (run_good _ _ _ _ _ _ _ _ _ _ _ E). Qed.
Print Assumptions C89_no_leak.

(** C90. The explored actions are those of the nodes of the tree other than the root, each node once. *)
Theorem C90_nodes :
  forall S A C P eqs ltb add zero dflt guard graph (qs : list (@request S A C P)) q (p : P) xs st,
  ms_run eqs ltb add zero dflt guard graph (qs ++ [q]) (ms_new p) = Ok (xs, st) ->
  exists r l acts, ms_root st = Some r /\ ms_explored st = Ok acts /\ NoDup l /\
  (forall a, In a l <-> live (ms_mem st) a <> None /\ a <> r) /\
  Forall2 (fun a act => exists o, live (ms_mem st) a = Some o /\ ob_action o = act) l acts.
Proof. intros * E. destruct (run_finished _ _ _ _ _ _ _ _ _ _ _ _ E) as (ys & x & _ & Fi). exact (explored_ok ltb _ _ _ q x st Fi). Qed.
Print Assumptions C90_nodes.

(** Each explored action was offered by the propagator for a state, which is the start or was reached by an explored action. *)
Theorem C90_offered :
  forall S A C P eqs ltb add zero dflt guard graph (qs : list (@request S A C P)) q (p : P) xs st acts,
  ms_run eqs ltb add zero dflt guard graph (qs ++ [q]) (ms_new p) = Ok (xs, st) -> ms_explored st = Ok acts ->
  forall act, In act acts ->
  exists s c t, trans (rq_succ q) s act c t /\ (s = rq_init q \/ exists act0 s0 c0, In act0 acts /\ trans (rq_succ q) s0 act0 c0 s).
Proof. intros * E Ea. destruct (run_finished _ _ _ _ _ _ _ _ _ _ _ _ E) as (ys & x & _ & Fi). exact (explored_linked ltb _ _ _ q x st acts Fi Ea). Qed.
Print Assumptions C90_offered.

(** The actions of the solution are among them, ... *)
Theorem C90_solution :
  forall S A C P eqs ltb add zero dflt guard graph (qs : list (@request S A C P)) q (p : P) xs x st acts,
  ms_run eqs ltb add zero dflt guard graph (qs ++ [q]) (ms_new p) = Ok (xs ++ [x], st) -> ms_explored st = Ok acts ->
  incl (an_actions x) acts.
Proof.
  intros * E Ea. destruct (run_finished _ _ _ _ _ _ _ _ _ _ _ _ E) as (ys & x' & Ex & Fi). apply app_inj_tail in Ex as [_ ->].
  exact (solution_explored ltb _ _ _ q x' st acts Fi Ea).
Qed.
Print Assumptions C90_solution.

(** ... and one that leads to each expanded state. *)
Theorem C90_expanded :
  forall S A C P eqs ltb add zero dflt guard graph (qs : list (@request S A C P)) q (p : P) xs st acts,
  ms_run eqs ltb add zero dflt guard graph (qs ++ [q]) (ms_new p) = Ok (xs, st) -> ms_explored st = Ok acts ->
  forall s a, In (s, a) (ms_expl st) ->
  s = rq_init q \/ exists act s0 c, In act acts /\ reachable (rq_succ q) (rq_init q) s0 /\ trans (rq_succ q) s0 act c s.
Proof. intros * E Ea s a. destruct (run_finished _ _ _ _ _ _ _ _ _ _ _ _ E) as (ys & x & _ & Fi). exact (expanded_explored ltb _ _ _ q x st acts s a Fi Ea). Qed.
Print Assumptions C90_expanded.

(** Two searches on a graph with a shortcut: from 0 to 2 one can go through 1, which is cheaper. The first node for 2 stays in the tree, so that
    its action is explored. The second search, from 1 to a state that does not exist, leaves only its own tree. *)
Local Open Scope nat_scope.
Definition demo_graph (n : nat) (s : nat) : list (nat * nat * nat) * nat :=
  (match s with 0 => [(1, 10, 1); (2, 11, 4)] | 1 => [(1, 12, 0); (2, 13, 1); (0, 14, 1)] | 2 => [(3, 15, 1)] | _ => [] end, S n).
Definition demo_requests : list (@request nat nat nat nat) :=
  [Request 0 (fun _ => 0) demo_graph (Nat.eqb 3) 10; Request 1 (fun _ => 0) demo_graph (Nat.eqb 7) 10].
Definition demo_run (qs : list (@request nat nat nat nat)) := ms_run Nat.eqb Nat.ltb Nat.add 0 99 (fun _ _ => true) true qs (ms_new 0).

Example C89_demo :
  rmap fst (demo_run demo_requests) = Ok [Answer true [0; 1; 2; 3] [10; 13; 15] (Some 3); Answer false [] [] None] /\
  (do (_, st) <- demo_run demo_requests; Ok (filter (alive (ms_mem st)) (seq 0 15), ms_prop st)) = Ok ([7; 9; 10; 13], 7).
Proof. split; vm_compute; reflexivity. Qed.

Example C90_demo :
  (do (_, st) <- demo_run (firstn 1 demo_requests); ms_explored st) = Ok [10; 13; 15; 11] /\
  (do (_, st) <- demo_run demo_requests; ms_explored st) = Ok [13; 15; 14].
Proof. split; vm_compute; reflexivity. Qed.

Local Open Scope R_scope.

(** For Hybrid A*: each explored path was accepted by the validator, can be driven, and goes on from the start or from the end of another one;
    ... *)
Theorem C90_motions :
  forall m f field vres validate heur Rng draw goal vfuel fuel si guard qs (p : res Rng) xs st acts, 0 < hp_radius m ->
  ms_run hs_eqb x_ltb x_add (Some 0) dflt_path guard true (qs ++ [hybrid_request m f field vres validate heur Rng draw goal vfuel fuel si]) (ms_new p) = Ok (xs, st) ->
  ms_explored st = Ok acts ->
  Forall (accepted validate) acts /\ Forall (driveable m goal) acts /\
  forall x, In x acts -> same_pose (dp_at x 0) (hs_pose si) \/ exists x0, In x0 acts /\ same_pose (dp_at x 0) (dp_at x0 1).
Proof.
  intros * Hr E Ea. destruct (run_finished _ _ _ _ _ _ _ _ _ _ _ _ E) as (ys & x & _ & Fi). exact (explored_motions _ _ _ _ _ _ _ _ _ _ _ _ x st acts Hr Fi Ea).
Qed.
Print Assumptions C90_motions.

(** ... and it keeps the clearance of the paths that are found (C72). *)
Theorem C90_clearance :
  forall m f field vres clearance lb ub minSafe minStep pfuel heur Rng draw goal vfuel fuel si guard qs (p : res Rng) xs st acts d eps,
  0 < hp_radius m -> 0 < hp_res m -> 0 < minStep -> discretize m (hs_pose si) = Ok (hs_cell si) -> nonexpansive d ->
  (forall q c v, world_to_cell f q true = Ok c -> inside_cell f c = true -> clearance c = Ok v -> v <= d q + eps) ->
  ms_run hs_eqb x_ltb x_add (Some 0) dflt_path guard true
    (qs ++ [hybrid_request m f field vres (is_path_valid f clearance lb ub minSafe minStep pfuel) heur Rng draw goal vfuel fuel si]) (ms_new p) = Ok (xs, st) ->
  ms_explored st = Ok acts ->
  forall x a, In x acts -> 0 <= a <= 1 -> minSafe - minStep - eps <= d (position (dp_at x a)).
Proof.
  intros * Hr Hres Hs Hi Hn Hd E Ea. destruct (run_finished _ _ _ _ _ _ _ _ _ _ _ _ E) as (ys & x & _ & Fi).
  exact (explored_clearance _ _ _ _ _ _ _ _ _ _ _ _ _ _ _ _ _ x st acts d eps Hr Hres Hs Hi Hn Hd Fi Ea).
Qed.
Print Assumptions C90_clearance.

Example C90_hybrid_demo : exists vres si x st q acts, 0 < vres /\ hs_pose si = demo_init /\ discretize demo_params demo_init = Ok (hs_cell si) /\
  ms_run hs_eqb x_ltb x_add (Some 0) dflt_path h_guard true
    [hybrid_request demo_params demo_frames demo_field vres demo_validate demo_heur unit demo_draw demo_goal 1 2 si] (ms_new (Ok tt)) = Ok ([x], st) /\
  an_found x = true /\ ms_explored st = Ok acts /\ In (Connected q) acts.
Proof. exact demo_explored. Qed.
