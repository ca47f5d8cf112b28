(** Searches from valid and invalid poses. *)
From Coq Require Import Reals Lra.
From Verif Require Import Base RealBase Grid_model Coords_model Pose_model Pose_spec Pose_proofs Straight_model Straight_spec Straight_proofs Bicycle_model Bicycle_proofs ObstacleMap_model Shape_model Gvd_model PathCost_model
  Rs_model Rs_spec Rs_proofs RsSolver_proofs Validator_model Validator_proofs Composite_model World_model World_spec Frontier_model AStar_model AStar_spec AStar_proofs Hybrid_model Hybrid_spec Hybrid_proofs HybridPath_proofs HybridSafe_proofs NonHol_model ObstHeur_model ObstHeur_spec ObstHeur_proofs
  Planner_model Planner_spec Planner_proofs PlannerRepeat_proofs PlannerTable_proofs.
From Verif Require Frontier_spec.
From Coq Require Import ZifyBool ZifyNat ZifyN.
Local Open Scope R_scope.

(** * The first sample of a path *)
Section First.
Variable f : frames.
Variable clearance : cell -> res R.
Variables lb ub : pose.
Variables minSafe minStep : R.
Notation validate := (is_path_valid f clearance lb ub minSafe minStep).
Notation is_valid := (is_state_valid f clearance lb ub minSafe).

Lemma valid_first fuel p r x : 0 < p_length p -> p_at p 0 = Ok x -> validate fuel p = Ok (true, r) -> is_valid x = Ok true.
Proof.
  intros L E V. unfold is_path_valid in V. destruct (Reqb_spec (p_length p) 0) as [Z|Z]; [lra|]. destruct fuel as [|fuel]; cbn [validate_loop] in V; destruct (Rltb_spec 0 (p_length p)); try lra; try discriminate.
  assert (0 / p_length p = 0) as Z0 by (field; lra). rewrite Z0, E in V. cbn [bind] in V. destruct (is_valid x) as [[|]| | |]; try discriminate; auto.
Qed.

Lemma truncated_first fuel p r x : 0 < p_length p -> p_at p 0 = Ok x -> validate fuel p = Ok (false, r) -> r <> 0 -> is_valid x = Ok true.
Proof.
  intros L E V N. unfold is_path_valid in V. destruct (Reqb_spec (p_length p) 0) as [Z|Z]; [lra|]. destruct fuel as [|fuel]; cbn [validate_loop] in V; destruct (Rltb_spec 0 (p_length p)); try lra; try discriminate.
  assert (0 / p_length p = 0) as Z0 by (field; lra). rewrite Z0, E in V. cbn [bind] in V. destruct (is_valid x) as [[|]| | |]; try discriminate; auto. cbn [bind negb] in V. injection V as <-. lra.
Qed.

Lemma blocked_first fuel p x : 0 < p_length p -> p_at p 0 = Ok x -> is_valid x = Ok false -> validate (S fuel) p = Ok (false, 0).
Proof.
  intros L E V. unfold is_path_valid. destruct (Reqb_spec (p_length p) 0) as [Z|Z]; [lra|]. cbn [validate_loop]. destruct (Rltb_spec 0 (p_length p)); try lra.
  assert (0 / p_length p = 0) as Z0 by (field; lra). rewrite Z0, E. cbn [bind]. rewrite V. reflexivity.
Qed.
End First.

Lemma empty_sampled fuel step r : sampled_path fuel step (dp_composite []) <> Ok r.
Proof.
  destruct (Rlt_dec 0 step) as [H|H].
  - destruct fuel as [|fuel]; [|rewrite empty_throws by auto; discriminate]. unfold sampled_path, dp_composite. cbn [fold_left k_new k_length k_cusps k_paths sample sample_loop]. unfold sample. cbn [sample_loop]. destruct (Rleb_spec 0 0); [discriminate|lra].
  - unfold sampled_path, dp_composite. cbn [fold_left k_new k_length k_cusps k_paths]. unfold sample.
    assert (N : forall n len its ratios cusps x, len <= 0 -> its <> [] -> (forall c, In c its -> c * 0 = 0) -> sample_loop n 0 step len its ratios cusps <> Ok x).
    { induction n as [|n IH]; intros len its ratios cusps x L Ni Hi; cbn [sample_loop]; (destruct (Rleb_spec len 0); [|lra]); [discriminate|]. destruct its as [|c its]; [easy|].
      rewrite (Hi c) by (now left). destruct (Rleb_spec (0 - step / 2) len) as [A|A], (Rltb_spec len (0 + step / 2)) as [B|B]; cbn [andb]; try lra; apply IH; auto; lra. }
    match goal with |- bind ?a _ <> _ => destruct a as [[rs ix]| | |] eqn:E; try discriminate end. exfalso. revert E. apply N; [lra| |intros; apply Rmult_0_r].
    unfold cusp_set. cbn [fold_left rset_insert]. destruct (Rltb 1 0); [discriminate|]. destruct (Rltb 0 1); discriminate.
Qed.

(** * Expansion of the start *)
Section Start.
Variable m : params.
Variable f : frames.
Variable field : cell -> res (option R).
Variable vres : R.
Variable heur : pose -> res xreal.
Variable Rng : Type.
Variable draw : Rng -> R * Rng.
Variable goal : pose.
Notation h_succ v := (h_succ m f field vres v heur Rng draw goal).
Notation graph_search v := (graph_search m f field vres v heur Rng draw goal).
Notation neighbors v := (neighbors m f field vres v heur Rng draw goal).

(** A search that does not end at its start asks for the neighbours of the start. *)
Lemma root_neighbors validate vfuel fuel init g r : identical_poses init goal = false -> graph_search validate vfuel fuel init g = Ok r ->
  exists si sg l g' k, fuel = S (S k) /\ state_of_pose m init = Ok si /\ state_of_pose m goal = Ok sg /\ neighbors validate vfuel g si = Ok (l, g').
Proof.
  intros Hid E. destruct r as [sol st']. unfold Hybrid_model.graph_search in E. destruct (state_of_pose m init) as [si| | |] eqn:Es; try discriminate. cbn [bind] in E.
  destruct (state_of_pose m goal) as [sg| | |]; try discriminate. cbn [bind] in E. exists si, sg.
  assert (Hsi : hs_pose si = init) by (unfold state_of_pose in Es; destruct (discretize m init); try discriminate; cbn [bind] in Es; now injection Es as <-).
  match type of E with bind ?x _ = _ => destruct x as [[sol1 st1]| | |] eqn:El end; try discriminate. cbn [bind] in E.
  destruct (st_prop st1) as [rng| | |] eqn:Ep; try discriminate.
  unfold search_path in El. destruct (@init_search_ok hstate drive_path xreal (res Rng) hs_eqb x_ltb (Some 0) hs_equiv x_swo si (Ok g)) as (fr & Ei & Hf & Hv). rewrite Ei in El. clear Ei.
  cbn [bind] in El. destruct fuel as [|fuel]; [discriminate|]. cbn [search_loop st_front] in El.
  assert (f_is_empty fr = false) as Ef by (unfold f_is_empty; now rewrite Hv). rewrite Ef in El.
  destruct (pop_some hs_eqb x_ltb x_add (Some 0) hs_equiv x_swo fr Hf Ef) as (n & fr' & Epop & _ & Hn & _). rewrite Hv in Hn. destruct Hn as [<-|[]]. rewrite Epop in El. cbn [bind n_state] in El.
  unfold h_solution at 1 in El. rewrite Hsi, Hid in El.
  match type of El with bind ?x _ = _ => destruct x as [st2| | |] eqn:Ex end; try discriminate. cbn [bind] in El.
  destruct fuel as [|fuel]; [discriminate El|].
  destruct (neighbors validate vfuel g si) as [[l g']| | |] eqn:En; [exists l, g', fuel; auto|exfalso..].
  all: apply (loop_error _ _ _ _ _ _ _ _ _ _ _ _ _ _ El); [|now exists rng]; unfold expand in Ex; cbn [st_prop st_expl st_front st_queried n_state] in Ex;
    unfold Hybrid_model.h_succ in Ex at 1; rewrite En in Ex; cbn [bind expand_all] in Ex; injection Ex as <-; intros [x X]; discriminate X.
Qed.

(** A search whose start has no neighbours fails. *)
Lemma lonely_search validate vfuel fuel init g si sg g' : identical_poses init goal = false -> state_of_pose m init = Ok si -> state_of_pose m goal = Ok sg ->
  neighbors validate vfuel g si = Ok ([], g') -> exists st, graph_search validate vfuel (S (S fuel)) init g = Ok (None, st) /\ st_prop st = Ok g'.
Proof.
  intros Hid Es Eg En. unfold Hybrid_model.graph_search. rewrite Es, Eg. cbn [bind].
  assert (Hsi : hs_pose si = init) by (unfold state_of_pose in Es; destruct (discretize m init); try discriminate; cbn [bind] in Es; now injection Es as <-).
  unfold search_path. destruct (@init_search_ok hstate drive_path xreal (res Rng) hs_eqb x_ltb (Some 0) hs_equiv x_swo si (Ok g)) as (fr & Ei & Hf & Hv). rewrite Ei. clear Ei.
  cbn [bind]. set (k := S fuel). cbn [search_loop st_front].
  assert (f_is_empty fr = false) as Ef by (unfold f_is_empty; now rewrite Hv). rewrite Ef.
  destruct (pop_some hs_eqb x_ltb x_add (Some 0) hs_equiv x_swo fr Hf Ef) as (n & fr' & Epop & Hf' & Hn & _ & Hall & Hne). rewrite Hv in Hn. destruct Hn as [<-|[]]. rewrite Epop. cbn [bind n_state].
  unfold h_solution at 1. rewrite Hsi, Hid. unfold expand. cbn [st_prop st_expl st_front st_queried n_state]. unfold Hybrid_model.h_succ at 1. rewrite En. cbn [bind estimates_ok expand_all].
  unfold k. cbn [search_loop st_front].
  assert (Ev : vec fr' = []).
  { destruct (vec fr') as [|y v'] eqn:Ev; auto. exfalso. assert (I : In y (vec fr')) by (rewrite Ev; now left).
    assert (J : In y (vec fr)) by (apply Hall; right; now rewrite <- Ev). rewrite Hv in J. destruct J as [<-|[]]. specialize (Hne (Root si) ltac:(now left)).
    unfold n_eq in Hne. cbn [n_state] in Hne. rewrite (Frontier_spec.eqk_refl _ _ hs_equiv) in Hne. discriminate. }
  assert (f_is_empty fr' = true) as -> by (unfold f_is_empty; now rewrite Ev). cbn [bind st_prop]. eexists. split; reflexivity.
Qed.

Variable clearance : cell -> res R.
Variables lb ub : pose.
Variables minSafe minStep : R.
Variable pfuel : nat.
Notation validate := (is_path_valid f clearance lb ub minSafe minStep pfuel).
Notation is_valid := (is_state_valid f clearance lb ub minSafe).
Hypothesis Hr : 0 < hp_radius m.
Hypothesis Hres : 0 < hp_res m.

Lemma start_placed p s : state_of_pose m p = Ok s -> hs_pose s = p /\ placed m s.
Proof. unfold state_of_pose, placed. destruct (discretize m p) as [c| | |] eqn:E; try discriminate. cbn [bind]. intros H. injection H as <-. auto. Qed.

(** A path that starts at a pose is same as it there. *)
Lemma connected_start q g : optimal_path q goal (hp_radius m) (hp_reverse m) (hp_forward m) (hp_switching m) = Ok g ->
  let p := Connected (rs_new q g (hp_radius m)) in 0 <= dp_length p /\ same_pose (dp_at p 0) q /\ dp_init p = q.
Proof.
  intros Eg p. destruct (optimal_path_spec q goal (hp_radius m) (hp_reverse m) (hp_forward m) (hp_switching m) Hr) as (w & g' & c & E & _ & O & _).
  assert (g' = g) as -> by congruence. destruct (offered_goal _ _ _ _ _ Hr O) as (l & Hg & _). pose proof (sn_length _ (connected_sane q g l _ Hg Hr)) as Lp. split; [exact Lp|]. split; [|reflexivity].
  apply (rs_ends q g l (hp_radius m) Hg Hr).
Qed.

(** A search that finds motions starts at a valid pose. *)
Lemma valid_start vfuel fuel init g n st : graph_search validate vfuel fuel init g = Ok (Some n, st) ->
  search_motions (Some n) = Ok [] \/ exists x, same_pose x init /\ is_valid x = Ok true.
Proof.
  intros E. destruct (search_placed _ _ _ _ _ _ _ _ _ _ _ _ _ _ _ _ _ _ _ _ E) as (s & l & Hs & Hpl & Hp & Ha). destruct l as [|e l]; [left; exact Ha|right].
  cbn [is_path] in Hp. destruct Hp as [[g1 I] _]. apply succ_spec in I. subst init.
  destruct I as (Et & Ed & Ei & _ & [(c & delta & dir & c0 & Ep & _ & _ & E0 & Hc)|(gg & Eg & Ep & q & Hq)]).
  - assert (I0 : c_init c0 = hs_pose s) by (now rewrite <- E0). exists (hs_pose s). split; [apply same_pose_refl|].
    assert (P0 : 0 < p_length (as_path (Steered c0))) by (cbn; rewrite <- E0; cbn; lra).
    assert (A0 : p_at (as_path (Steered c0)) 0 = Ok (hs_pose s)) by (cbn; rewrite c_at_0; now rewrite I0).
    destruct Hc as [[-> [q V]]|(q & V & -> & Hne)]; [exact (valid_first _ _ _ _ _ _ _ _ _ _ P0 A0 V)|].
    refine (truncated_first _ _ _ _ _ _ _ _ _ _ P0 A0 V _). intros ->. rewrite Ep in Et. cbn [dp_final c_truncate c_final] in Et. rewrite c_at_0, I0 in Et. rewrite Et in Ed. unfold placed in Hpl.
    unfold hs_eqb in Hne. rewrite (proj2 (ipose_eqb_eq _ _)) in Hne; [discriminate|congruence].
  - destruct (connected_start _ _ Eg) as (L & S0 & J). rewrite <- Ep in L, S0, J. destruct (Req_dec (dp_length (step_action e)) 0) as [Z|N].
    + exists (hs_pose s). split; [apply same_pose_refl|]. unfold is_path_valid in Hq. cbn [as_path p_length p_init] in Hq. rewrite Z in Hq. destruct (Reqb_spec 0 0); [|contradiction].
      rewrite J in Hq. destruct (is_valid (hs_pose s)) as [v| | |]; try discriminate. cbn [bind] in Hq. congruence.
    + exists (dp_at (step_action e) 0). split; [exact S0|]. refine (valid_first _ _ _ _ _ _ _ _ _ _ _ _ Hq); cbn [as_path p_length p_at]; [lra|reflexivity].
Qed.

(** A start that is not valid has no neighbours. *)
Lemma blocked_child fuel k s delta dir : pfuel = S k -> placed m s -> (forall x, same_pose x (hs_pose s) -> is_valid x = Ok false) ->
  is_ok (state_of_path m (Steered (c_new (hp_model m) (hs_pose s) delta (hp_res m * (3 / 2)) dir))) ->
  steer_child m f field vres validate fuel s delta dir = Ok None.
Proof.
  intros Hk Hs Hi [ch Hc]. unfold steer_child. set (c0 := c_new (hp_model m) (hs_pose s) delta (hp_res m * (3 / 2)) dir) in *. rewrite Hc. cbn [bind].
  rewrite Hk, (blocked_first f clearance lb ub minSafe minStep k (as_path (Steered c0)) (hs_pose s)); [|cbn; lra|cbn [as_path p_at dp_at]; now rewrite c_at_0|apply Hi, same_pose_refl]. cbn [bind].
  assert (F : dp_final (dp_truncate (Steered c0) 0) = hs_pose s) by (cbn [dp_truncate dp_final c_truncate c_final]; now rewrite c_at_0). rewrite F. unfold placed in Hs. rewrite Hs. cbn [bind].
  unfold hs_eqb. cbn [hs_cell]. now rewrite (proj2 (ipose_eqb_eq _ _) eq_refl).
Qed.

Lemma blocked_children v' fuel k s : pfuel = S k -> placed m s -> (forall x, same_pose x (hs_pose s) -> is_valid x = Ok false) ->
  forall ds l, steer_children m f field vres v' fuel s ds = Ok l -> steer_children m f field vres validate fuel s ds = Ok [].
Proof.
  intros Hk Hs Hi. induction ds as [|delta ds IH]; intros l E; cbn [steer_children] in *; [reflexivity|].
  assert (K : forall dir, is_ok (steer_child m f field vres v' fuel s delta dir) -> is_ok (state_of_path m (Steered (c_new (hp_model m) (hs_pose s) delta (hp_res m * (3 / 2)) dir)))).
  { intros dir [x X]. unfold steer_child in X. destruct (state_of_path m _) as [c| | |]; try discriminate. now exists c. }
  pose proof (K Forward) as KF. pose proof (K Backward) as KB.
  destruct (steer_child m f field vres v' fuel s delta Forward) as [a| | |]; try discriminate. cbn [bind] in E. destruct (steer_child m f field vres v' fuel s delta Backward) as [b| | |]; try discriminate. cbn [bind] in E.
  destruct (steer_children _ _ _ _ v' _ _ _) as [l'| | |] eqn:El; try discriminate.
  rewrite (blocked_child fuel k s delta Forward Hk Hs Hi) by (apply KF; now exists a). rewrite (blocked_child fuel k s delta Backward Hk Hs Hi) by (apply KB; now exists b). cbn [bind]. rewrite (IH _ eq_refl). reflexivity.
Qed.

Lemma blocked_connection fuel k s : pfuel = S k -> (forall x, same_pose x (hs_pose s) -> is_valid x = Ok false) -> rs_child m f field vres validate goal fuel s = Ok None.
Proof.
  intros Hk Hi. unfold rs_child. destruct (optimal_path_spec (hs_pose s) goal (hp_radius m) (hp_reverse m) (hp_forward m) (hp_switching m) Hr) as (w & g & c & E & _). rewrite E. cbn [bind].
  destruct (connected_start _ _ E) as (L & S0 & J). set (p := Connected _) in *. assert (exists r, validate (as_path p) = Ok (false, r)) as [r Er].
  { destruct (Req_dec (dp_length p) 0) as [Z|N].
    - unfold is_path_valid. cbn [as_path p_length p_init]. rewrite Z. destruct (Reqb_spec 0 0); [|contradiction]. rewrite J, (Hi _ (same_pose_refl _)). cbn [bind]. eauto.
    - exists 0. rewrite Hk. apply (blocked_first _ _ _ _ _ _ k (as_path p) (dp_at p 0)); [cbn [as_path p_length]; lra|reflexivity|exact (Hi _ S0)]. }
  rewrite Er. reflexivity.
Qed.

Lemma blocked_neighbors v' fuel k s g g1 l g' : pfuel = S k -> placed m s -> (forall x, same_pose x (hs_pose s) -> is_valid x = Ok false) ->
  neighbors v' fuel g1 s = Ok (l, g') -> exists g2, neighbors validate fuel g s = Ok ([], g2).
Proof.
  intros Hk Hs Hi E. unfold Hybrid_model.neighbors in *. destruct (steer_children _ _ _ _ v' _ _ _) as [l'| | |] eqn:El; try discriminate. cbn [bind] in E.
  rewrite (blocked_children v' fuel k s Hk Hs Hi _ _ El). cbn [bind]. destruct (heur (hs_pose s)) as [h| | |]; try discriminate. cbn [bind].
  destruct (try_connection _ draw g h) as [[|] g2]; [|eauto]. rewrite (blocked_connection fuel k s Hk Hi). cbn [bind opt_list app]. eauto.
Qed.
End Start.

(** * Through the planner *)
Section Fail.
Variables top topv : nat -> list (cell * Z) -> nat.
Variable fuel : nat.
Variable Rng : Type.
Variable draw : Rng -> R * Rng.
Notation sy_step := (sy_step top topv fuel Rng draw).
Notation sy_run := (sy_run top topv fuel Rng draw).
Notation sy_search := (sy_search top topv fuel Rng draw).

(** A failed search keeps the former path. *)
Lemma failed_keeps s s' : sy_search s = Ok (s', false) -> pl_path (sy_planner s') = pl_path (sy_planner s).
Proof.
  intros E. destruct (pl_ready (sy_planner s)) eqn:Hr; [|rewrite search_unready in E by exact Hr; now injection E as <-].
  destruct (search_inv _ _ _ _ _ _ _ _ E Hr) as (v & d & h & o & va & start & o' & w' & d' & g & gm & sol & st & rng & path & E1 & E2 & E3 & E4 & E5 & E6 & E7 & E8 & E9 & ->).
  cbn [sy_planner pl_path]. unfold hybrid_result in E9. cbn [negb bind] in E9. destruct sol as [n|]; [|now injection E9 as <-].
  destruct (search_motions _); try discriminate. cbn [bind] in E9. destruct (sampled_path _ _ _) as [[? ?]| | |]; try discriminate. cbn [bind] in E9. destruct (smooth_path _ _ _ _ _ _ _ _) as [[? ?]| | |]; discriminate.
Qed.

Lemma update_keeps w d w' d' g : update_diagram top topv fuel w d = Ok (w', d', g) ->
  wd_frames w' = wd_frames w /\ wd_map w' = wd_map w /\ update_diagram top topv fuel w' d' = Ok (w', d', g).
Proof.
  unfold update_diagram. intros E5. destruct d as [|g0].
  - cbn [wd_step] in E5. unfold wd_call in E5. destruct (wd_dist w) as [g0|]; try discriminate. destruct (g_run top topv fuel g0 _) as [g1| | |] eqn:Eg; try discriminate. cbn [bind wd_dist] in E5. injection E5 as <- <- <-.
    split; [reflexivity|]. split; [reflexivity|]. cbn [wd_step]. unfold wd_call. cbn [wd_dist]. rewrite (updates_settle _ _ _ fuel _ _ Eg). reflexivity.
  - destruct (g_run top topv fuel g0 _) as [g1| | |] eqn:Eg; try discriminate. cbn [bind] in E5. injection E5 as <- <- <-. rewrite (updates_settle _ _ _ fuel _ _ Eg). auto.
Qed.

(** A search that ends does not start at its goal. *)
Lemma ended_apart s s' r : 0 < hp_radius (pl_params (sy_planner s)) -> pl_ready (sy_planner s) = true -> sy_search s = Ok (s', r) -> identical_poses (pl_init (sy_planner s)) (pl_goal (sy_planner s)) = false.
Proof.
  intros _ Hr E. destruct (search_inv _ _ _ _ _ _ _ _ E Hr) as (v & d & h & o & va & start & o' & w' & d' & g & gm & sol & st & rng & path & E1 & E2 & E3 & E4 & E5 & E6 & E7 & E8 & E9 & E10).
  destruct (identical_poses _ _) eqn:Hid; auto. exfalso. unfold graph_search in E7. unfold state_of_pose in E7. destruct (discretize _ (pl_init _)) as [ci| | |]; try discriminate. cbn [bind] in E7. destruct (discretize _ _); try discriminate. cbn [bind] in E7.
  destruct fuel as [|n]; [|].
  { unfold search_path in E7. destruct (init_search _ _ _ _ _); discriminate. }
  match type of E7 with bind (search_path _ _ _ _ ?hv ?hs ?sl ?gd _ _ ?si ?g0) _ = _ => edestruct (root_solution hs_eqb x_ltb x_add (Some 0) hv hs sl gd true n si g0 hs_equiv x_swo) as (st1 & Er & Es); [exact Hid|] end.
  rewrite Er in E7. cbn [bind] in E7. rewrite Es in E7. cbn [bind] in E7. injection E7 as <- <-. unfold hybrid_result in E9. cbn [negb bind] in E9.
  match type of E9 with context [search_motions ?x] => change (search_motions x) with (@Ok (list drive_path) []) in E9 end. cbn [bind] in E9.
  destruct (sampled_path _ _ _) as [x| | |] eqn:Ex; try discriminate. exact (empty_sampled _ _ _ Ex).
Qed.

Lemma valid_start_planned s s' v d h o : 0 < hp_radius (pl_params (sy_planner s)) -> 0 < hp_res (pl_params (sy_planner s)) ->
  pl_ready (sy_planner s) = true -> pl_parts (sy_planner s) = Some (Parts v d h o) ->
  sy_search s = Ok (s', true) -> exists x, same_pose x (pl_init (sy_planner s)) /\ sy_valid Rng s' v x = Ok true.
Proof.
  intros H1 H2 Hr Hp E. destruct (search_inv _ _ _ _ _ _ _ _ E Hr) as (v' & d1 & h1 & o1 & va & start & o' & w' & d' & g & gm & sol & st & rng & path & E1 & E2 & E3 & E4 & E5 & E6 & E7 & E8 & E9 & ->).
  rewrite Hp in E1. injection E1 as <- <- <- <-. destruct (update_keeps _ _ _ _ _ E5) as (Fw & _). unfold hybrid_result in E9. cbn [negb bind] in E9. destruct sol as [n|]; [|discriminate].
  destruct (valid_start _ _ _ _ _ _ _ _ _ _ _ _ _ _ H1 H2 _ _ _ _ _ _ E7) as [X|(x & X & V)].
  - rewrite X in E9. cbn [bind] in E9. destruct (sampled_path _ _ _) as [y| | |] eqn:Ey; try discriminate. exfalso. exact (empty_sampled _ _ _ Ey).
  - exists x. split; [exact X|]. unfold sy_valid. cbn [sy_validators sy_world]. rewrite E2. cbn [bind]. rewrite E6, Fw. exact V.
Qed.

(** After a search, one whose start is not valid any more fails. *)
Lemma blocked_again s s' r s2 v d h o : 0 < hp_radius (pl_params (sy_planner s)) -> 0 < hp_res (pl_params (sy_planner s)) -> fitted Rng s ->
  pl_ready (sy_planner s) = true -> sy_search s = Ok (s', r) -> sy_world s2 = sy_world s' ->
  let p := sy_planner s' in let p2 := sy_planner s2 in
  pl_params p2 = pl_params p -> pl_init p2 = pl_init p -> pl_goal p2 = pl_goal p -> pl_ready p2 = true -> pl_parts p2 = pl_parts p -> pl_parts p2 = Some (Parts v d h o) ->
  (forall x, same_pose x (pl_init p2) -> sy_valid Rng s2 v x = Ok false) ->
  exists s3, sy_search s2 = Ok (s3, false) /\ pl_path (sy_planner s3) = pl_path p2.
Proof.
  intros H1 H2 F Hr E Ew p p2 Q1 Q2 Q3 Q4 Q5 Hp Hi. pose proof (ended_apart _ _ _ H1 Hr E) as Hid.
  destruct (search_inv _ _ _ _ _ _ _ _ E Hr) as (v' & d1 & h1 & o1 & va & start & o' & w' & d' & g & gm & sol & st & rng & path & E1 & E2 & E3 & E4 & E5 & E6 & E7 & E8 & E9 & E10).
  destruct (update_keeps _ _ _ _ _ E5) as (Fw & Fm & Ud). unfold p in *. rewrite E10 in Ew, Q1, Q2, Q3, Q5. cbn [sy_planner pl_params pl_init pl_goal pl_parts sy_world] in Ew, Q1, Q2, Q3, Q5. rewrite Q5 in Hp. injection Hp as -> -> -> ->.
  set (f := wd_frames (sy_world s)) in *. set (q := sy_planner s) in *.
  assert (E4' : oh_update Rltb Rplus 0 1 (sqrt 2) fuel (fr_rows f) (fr_cols f) (om_occupied (wd_map (sy_world s))) start o = Ok o).
  { rewrite <- E4. apply update_same; [eapply update_size; [exact E4|]|]; eapply F; exact E1. }
  destruct (root_neighbors _ _ _ _ _ _ _ _ _ _ _ _ _ _ Hid E7) as (si & sg & l & g' & k & Hk & Es & Eg & En).
  destruct (start_placed _ _ _ Es) as [Ps Pl].
  pose proof (Hi _ (same_pose_refl _)) as V0. unfold sy_valid in V0. rewrite Ew, E6, Fw in V0. fold f in V0. destruct (vget (sy_validators s2) v) as [vb| | |] eqn:Ev; try discriminate. cbn [bind] in V0. clear V0.
  assert (Hi' : forall x, same_pose x (hs_pose si) -> is_state_valid f (map_clearance (g_obs gm) (fr_res f)) (va_lower vb) (va_upper vb) (va_safe vb) x = Ok false).
  { intros x Hx. rewrite Ps in Hx. unfold p2 in *. rewrite Q2 in Hi. specialize (Hi x Hx). unfold sy_valid in Hi. rewrite Ew, E6, Fw, Ev in Hi. fold f in Hi. exact Hi. }
  destruct (blocked_neighbors (pl_params q) f (get_path_cost 20 30 (fr_res f) g) (fr_res f) (combined (pl_params q) f h o (pl_goal q)) Rng draw (pl_goal q) (map_clearance (g_obs gm) (fr_res f)) (va_lower vb) (va_upper vb) (va_safe vb) (va_step vb) fuel H1 H2
    _ fuel (S k) si (sy_rng s2) _ _ _ Hk Pl Hi' En) as (g2 & En2).
  destruct (lonely_search _ _ _ _ _ _ _ _ _ fuel k (pl_init q) (sy_rng s2) si sg g2 Hid Es Eg En2) as (st2 & Es2 & Ep2). rewrite <- Hk in Es2.
  unfold Planner_model.sy_search. fold p2. rewrite Q4. cbn [negb]. rewrite Q5, Q1, Q2, Q3, Ew, Fw, Fm. fold f. rewrite Ev. cbn [bind]. rewrite E3. cbn [bind]. rewrite E4'. cbn [bind]. rewrite Ud. cbn [bind]. rewrite E6. 
  rewrite Es2. cbn [bind]. rewrite Ep2. cbn [bind]. unfold hybrid_result. cbn [negb bind]. eexists. split; reflexivity.
Qed.

(** ** Histories *)
Lemma tuned_keeps l : forall s s', tuned l -> sy_run s l = Ok s' -> sy_world s' = sy_world s /\ let p := sy_planner s in let p' := sy_planner s' in
  pl_params p' = pl_params p /\ pl_init p' = pl_init p /\ pl_goal p' = pl_goal p /\ pl_ready p' = pl_ready p /\ pl_parts p' = pl_parts p /\ pl_path p' = pl_path p.
Proof.
  induction l as [|x l IH]; intros s s' T E; cbn [Planner_model.sy_run] in E; [injection E as <-; repeat split|].
  inversion T as [|? ? Hx Hl]; subst. destruct (sy_step s x) as [s1| | |] eqn:E1; try discriminate. cbn [bind] in E. specialize (IH s1 s' Hl E).
  assert (K : sy_world s1 = sy_world s /\ let p := sy_planner s in let p' := sy_planner s1 in pl_params p' = pl_params p /\ pl_init p' = pl_init p /\ pl_goal p' = pl_goal p /\ pl_ready p' = pl_ready p /\ pl_parts p' = pl_parts p /\ pl_path p' = pl_path p).
  { destruct x; try easy; cbn [Planner_model.sy_step] in E1; try (injection E1 as <-; cbn; repeat split).
    all: unfold change_validator in E1; destruct (vget _ _); try discriminate; cbn [bind] in E1; destruct (vset _ _ _); try discriminate; cbn [bind] in E1; injection E1 as <-; cbn; repeat split. }
  cbn zeta in *. destruct IH as (-> & -> & -> & -> & -> & -> & ->). exact K.
Qed.

Lemma planned_valid resolution junk m rng a v b s s' : 0 < hp_res m -> 0 < hp_radius m -> (forall v', ~ In (PInitialize v') b) ->
  sy_run (sy_new Rng resolution junk m rng) (a ++ PInitialize (Some v) :: b) = Ok s -> sy_search s = Ok (s', true) ->
  exists x, same_pose x (pl_init (sy_planner s)) /\ sy_valid Rng s' v x = Ok true.
Proof.
  intros H1 H2 N E Es. destruct (history_tabled _ _ _ _ _ _ _ _ _ _ _ _ _ N E) as [[Hr (d & h & o & va & Hp & _)] Pm].
  apply (valid_start_planned s s' v d h o); auto; now rewrite Pm.
Qed.

Lemma planned_blocked resolution junk m rng a v b s s' r l s2 : 0 < hp_res m -> 0 < hp_radius m -> undisturbed b ->
  sy_run (sy_new Rng resolution junk m rng) (a ++ PInitialize (Some v) :: b) = Ok s -> sy_search s = Ok (s', r) -> tuned l -> sy_run s' l = Ok s2 ->
  (forall x, same_pose x (pl_init (sy_planner s)) -> sy_valid Rng s2 v x = Ok false) ->
  exists s3, sy_search s2 = Ok (s3, false) /\ pl_path (sy_planner s3) = pl_path (sy_planner s').
Proof.
  intros H1 H2 U E Es T E2 Hi.
  assert (N : forall v', ~ In (PInitialize v') b) by (intros v' I; unfold undisturbed in U; rewrite Forall_forall in U; exact (U _ I)).
  destruct (history_tabled _ _ _ _ _ _ _ _ _ _ _ _ _ N E) as [[Hr (d & h & o & va & Hp & _)] Pm].
  assert (F : fitted Rng s).
  { rewrite sy_run_app in E. destruct (sy_run _ a) as [s1| | |]; try discriminate. cbn [bind Planner_model.sy_run] in E. destruct (sy_step s1 _) as [s0| | |] eqn:E0; try discriminate. cbn [bind] in E. apply initialize_fitted in E0. eapply run_fitted; eauto. }
  destruct (tuned_keeps _ _ _ T E2) as (W & Q1 & Q2 & Q3 & Q4 & Q5 & Q6).
  assert (K : pl_init (sy_planner s') = pl_init (sy_planner s) /\ pl_ready (sy_planner s') = true /\ exists d o h, pl_parts (sy_planner s') = Some (Parts v d h o)).
  { destruct (search_inv _ _ _ _ _ _ _ _ Es Hr) as (v' & d1 & h1 & o1 & va' & start & o' & w' & d' & g & gm & sol & st & rng' & path & E1 & _ & _ & _ & _ & _ & _ & _ & _ & ->). cbn [sy_planner pl_init pl_ready pl_parts].
    rewrite Hp in E1. injection E1 as <- <- <- <-. eauto 10. }
  destruct K as (K1 & K2 & d' & o' & h' & K3).
  destruct (blocked_again s s' r s2 v d' h' o' ltac:(now rewrite Pm) ltac:(now rewrite Pm) F Hr Es W Q1 Q2 Q3 ltac:(congruence) Q5 ltac:(congruence)) as (s3 & E3 & P3).
  - rewrite Q2, K1. exact Hi.
  - exists s3. split; [exact E3|]. rewrite P3. exact Q6.
Qed.

(** Some safe radius blocks any start. *)
Lemma planned_stale resolution junk m rng a v b s s' : 0 < hp_res m -> 0 < hp_radius m -> undisturbed b ->
  sy_run (sy_new Rng resolution junk m rng) (a ++ PInitialize (Some v) :: b) = Ok s -> sy_search s = Ok (s', true) ->
  exists r0, forall r, r0 < r -> exists s2 s3, sy_run s' [PSafe v r] = Ok s2 /\ sy_search s2 = Ok (s3, false) /\ pl_path (sy_planner s3) = pl_path (sy_planner s').
Proof.
  intros H1 H2 U E Es. assert (N : forall v', ~ In (PInitialize v') b) by (intros v' I; unfold undisturbed in U; rewrite Forall_forall in U; exact (U _ I)).
  destruct (planned_valid _ _ _ _ _ _ _ _ _ H1 H2 N E Es) as (x & X & V). unfold sy_valid in V. destruct (vget (sy_validators s') v) as [va| | |] eqn:Ev; try discriminate. cbn [bind] in V.
  destruct (wd_dist (sy_world s')) as [g|] eqn:Eg; try discriminate. destruct (valid_facts _ _ _ _ _ _ V) as (c & d & Ec & Ic & Dc & _). exists d. intros r Hr.
  assert (Ln : exists l, vset (sy_validators s') v (Checker (va_lower va) (va_upper va) r (va_step va)) = Ok l /\ vget l v = Ok (Checker (va_lower va) (va_upper va) r (va_step va))).
  { unfold vset, vget in *. destruct (nth_error (sy_validators s') v) eqn:En; try discriminate. assert (Lv : (v < length (sy_validators s'))%nat) by (apply nth_error_Some; congruence).
    rewrite (proj2 (Nat.ltb_lt _ _) Lv). eexists. split; [reflexivity|]. rewrite nth_error_app2 by (rewrite firstn_length; lia). rewrite firstn_length, Nat.min_l, Nat.sub_diag by lia. reflexivity. }
  destruct Ln as (l & El & Gl). set (s2 := System (sy_world s') l (sy_planner s') (sy_rng s')).
  assert (E2 : sy_run s' [PSafe v r] = Ok s2). { cbn [Planner_model.sy_run Planner_model.sy_step]. unfold change_validator. rewrite Ev. cbn [bind]. rewrite El. reflexivity. }
  destruct (planned_blocked _ _ _ _ _ _ _ _ _ _ [PSafe v r] s2 H1 H2 U E Es ltac:(repeat constructor) E2) as (s3 & E3 & P3).
  - intros y Y. unfold sy_valid. cbn [s2 sy_validators sy_world]. rewrite Gl. cbn [bind]. rewrite Eg. unfold is_state_valid. cbn [va_lower va_upper va_safe].
    assert (position y = position x) as -> by (unfold position; destruct X as (-> & -> & _), Y as (-> & -> & _); reflexivity). rewrite Ec. cbn [bind]. destruct (negb _ || negb _); [reflexivity|]. rewrite Dc. cbn [bind]. destruct (Rleb_spec r d); [lra|reflexivity].
  - exists s2, s3. auto.
Qed.
End Fail.
