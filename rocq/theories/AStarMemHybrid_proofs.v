(** The explored paths of Hybrid A*. *)
From Coq Require Import Reals Lra.
From Verif Require Import Base RealBase Grid_model Coords_model Pose_model Pose_spec Straight_model Straight_spec Bicycle_model Rs_model Validator_model Validator_spec Frontier_model
  AStar_model AStar_spec AStar_proofs FrontierRel_proofs AStarMem_model AStarMem_spec AStarMem_proofs Hybrid_model Hybrid_spec Hybrid_proofs HybridSafe_proofs HybridDemo_proofs.
Local Open Scope R_scope.

(** hybrid_a_star.cpp:253-255: a search from the state [si]. *)
Definition hybrid_request (m : params) (f : frames) (field : cell -> res (option R)) (vres : R) (validate : path -> res (bool * R)) (heur : pose -> res xreal)
  (Rng : Type) (draw : Rng -> R * Rng) (goal : pose) (vfuel fuel : nat) (si : hstate) : @request hstate drive_path xreal (res Rng) :=
  Request si (h_value heur) (h_succ m f field vres validate heur Rng draw goal vfuel) (h_solution goal) fuel.

Section Hybrid.
Variable m : params.
Variable f : frames.
Variable field : cell -> res (option R).
Variable vres : R.
Variable validate : path -> res (bool * R).
Variable heur : pose -> res xreal.
Variable Rng : Type.
Variable draw : Rng -> R * Rng.
Variable goal : pose.
Variables vfuel fuel : nat.
Variable si : hstate.
Notation request0 := (hybrid_request m f field vres validate heur Rng draw goal vfuel fuel si).
Notation finished := (finished (P := res Rng) x_add (Some 0) dflt_path request0).

Lemma explored_transition x st acts : finished x st -> ms_explored st = Ok acts -> forall p, In p acts ->
  exists s t, transition m validate goal s p t /\ (s = si \/ exists p0 s0, In p0 acts /\ transition m validate goal s0 p0 s).
Proof.
  intros Fi E p I. destruct (explored_linked x_ltb x_add (Some 0) dflt_path request0 x st acts Fi E p I) as (s & c & t & [g1 T] & L). apply succ_spec in T.
  exists s, t. split; [exact T|]. destruct L as [->|(p0 & s0 & c0 & I0 & [g0 T0])]; [now left|]. apply succ_spec in T0. right. eauto.
Qed.

Lemma explored_motions x st acts : 0 < hp_radius m -> finished x st -> ms_explored st = Ok acts ->
  Forall (accepted validate) acts /\ Forall (driveable m goal) acts /\
  forall p, In p acts -> same_pose (dp_at p 0) (hs_pose si) \/ exists p0, In p0 acts /\ same_pose (dp_at p 0) (dp_at p0 1).
Proof.
  intros Hr Fi E. pose proof (explored_transition x st acts Fi E) as K. split; [|split].
  - apply Forall_forall. intros p I. destruct (K p I) as (s & t & (_ & _ & _ & A & _) & _). exact A.
  - apply Forall_forall. intros p I. destruct (K p I) as (s & t & T & _). apply (transition_path m validate goal Hr s p t T).
  - intros p I. destruct (K p I) as (s & t & T & L). destruct (transition_path m validate goal Hr s p t T) as (H0 & _). destruct L as [->|(p0 & s0 & I0 & T0)]; [now left|].
    right. exists p0. split; [exact I0|]. destruct (transition_path m validate goal Hr s0 p0 s T0) as (_ & H1 & _). now rewrite H1.
Qed.
End Hybrid.

Lemma explored_clearance m f field vres clearance lb ub minSafe minStep pfuel heur Rng draw goal vfuel fuel si x st acts d eps :
  0 < hp_radius m -> 0 < hp_res m -> 0 < minStep -> discretize m (hs_pose si) = Ok (hs_cell si) -> nonexpansive d ->
  (forall q c v, world_to_cell f q true = Ok c -> inside_cell f c = true -> clearance c = Ok v -> v <= d q + eps) ->
  finished (P := res Rng) x_add (Some 0) dflt_path (hybrid_request m f field vres (is_path_valid f clearance lb ub minSafe minStep pfuel) heur Rng draw goal vfuel fuel si) x st ->
  ms_explored st = Ok acts ->
  forall p a, In p acts -> 0 <= a <= 1 -> minSafe - minStep - eps <= d (position (dp_at p a)).
Proof.
  intros Hr Hres Hstep Hi Hn Hd Fi E p a I Ha. destruct (explored_transition _ _ _ _ _ _ _ _ _ _ _ _ x st acts Fi E p I) as (s & t & T & L).
  refine (transition_clearance m f clearance lb ub minSafe minStep pfuel goal Hr Hres Hstep d eps s p t _ T Hn Hd a Ha).
  destruct L as [->|(p0 & s0 & _ & T0)]; [exact Hi|apply T0].
Qed.

(** A search whose explored set is not empty. *)
Lemma demo_explored : exists vres si x st q acts, 0 < vres /\ hs_pose si = demo_init /\ discretize demo_params demo_init = Ok (hs_cell si) /\
  ms_run hs_eqb x_ltb x_add (Some 0) dflt_path h_guard true
    [hybrid_request demo_params demo_frames demo_field vres demo_validate demo_heur unit demo_draw demo_goal 1 2 si] (ms_new (Ok tt)) = Ok ([x], st) /\
  an_found x = true /\ ms_explored st = Ok acts /\ In (Connected q) acts.
Proof.
  destruct demo_search as (vres & n & st & q & Hv & E & Em). unfold graph_search in E. destruct (state_of_pose demo_params demo_init) as [si| | |] eqn:Es; try discriminate. cbn [bind] in E.
  destruct (state_of_pose demo_params demo_goal) as [sg| | |]; try discriminate. cbn [bind] in E.
  destruct (search_path _ _ _ _ _ _ _ _ _ _ _ _) as [[sol st']| | |] eqn:Ep; try discriminate. cbn [bind] in E. destruct (st_prop st') as [g| | |]; try discriminate. cbn [bind] in E. injection E as -> ->.
  set (rq := hybrid_request demo_params demo_frames demo_field vres demo_validate demo_heur unit demo_draw demo_goal 1 2 si).
  assert (G : good (ms_new (S := hstate) (A := drive_path) (C := xreal) (Ok tt : res unit))) by (cbn; auto).
  pose proof (call_sim hs_eqb x_ltb x_add (Some 0) dflt_path h_guard true rq (ms_new (Ok tt)) (Ok tt) G eq_refl) as K.
  destruct (fill_back_depth (@n_state hstate drive_path xreal) n []) as (l & r & _ & Hp).
  assert (Q : exists y, plain_call hs_eqb x_ltb x_add (Some 0) dflt_path h_guard true rq (Ok tt) = Ok y /\ an_found (fst y) = true /\ an_actions (fst y) = [Connected q]).
  { unfold plain_call, rq, hybrid_request. cbn [rq_h rq_succ rq_sol rq_fuel rq_init]. rewrite Ep. cbn [bind]. unfold get_path. rewrite Hp. cbn [bind]. unfold search_motions in Em. rewrite Em. cbn [bind].
    eexists. split; [reflexivity|]. split; reflexivity. }
  destruct Q as (y & Ey & Fy & Ay). rewrite Ey in K. destruct (ms_call _ _ _ _ _ _ _ rq _) as [[x st1]| | |] eqn:Ec; cbn in K; try contradiction. destruct K as (Ex & _ & Fi).
  destruct (explored_ok x_ltb _ _ _ rq x st1 Fi) as (r0 & l0 & acts & _ & Ea & _). unfold state_of_pose in Es.
  exists vres, si, x, st1, q, acts. split; [exact Hv|]. destruct (discretize demo_params demo_init) as [cell| | |]; try discriminate. cbn [bind] in Es. injection Es as <-.
  split; [reflexivity|]. split; [reflexivity|]. split; [|split; [congruence|split; [exact Ea|]]].
  - cbn [ms_run]. fold rq. rewrite Ec. reflexivity.
  - apply (solution_explored x_ltb _ _ _ rq x st1 acts Fi Ea). rewrite Ex, Ay. now left.
Qed.
