(** Properties C75 to C77: an obstacle list, its occupancy matrix and its distance map together. *)
From Coq Require Import Reals Lra.
From Verif Require Import Base RealBase Grid_model Grid_spec Coords_model Pose_model Straight_model Straight_spec Straight_proofs
  Shape_model Shape_spec Shape_proofs Raster_model ObstacleMap_model Gvd_model PathCost_model Validator_model Validator_spec Validator_proofs
  World_model World_spec World_proofs WorldClear_proofs WorldPlan_proofs WorldDemo_proofs Hybrid_model Hybrid_spec.
From Verif Require Gvd_spec.
From Coq Require Import ZifyBool ZifyNat ZifyN.
Local Open Scope R_scope.

(** C74: the boundary cells of a square on a map of 20 by 20 cells, which are not empty. *)
Example C74_square : exists l, boundary_cells demo20 (square 1) = Ok l /\ In (Cell 9 9) l /\ ~ In (Cell 10 10) l /\
  off_border demo20 (1, 0) /\ on_shape (ob_pose (square 1)) (Polygon (rectangle_vertices (2 * IZR 1) (2 * IZR 1))) (1, 0).
Proof.
  assert (E : exists l, polygon_cells 20 20 (square_corners 1) = Ok l /\ In (Cell 9 9) l /\ ~ In (Cell 10 10) l).
  { eexists. split; [vm_compute; reflexivity|]. split; [vm_compute; tauto|]. cbv. intuition discriminate. }
  destruct E as (l & E & I & N). exists l. rewrite square_cells by lia. repeat apply conj; auto; try (cbn; lra).
  exists (1, 0). split.
  - apply rectangle_outline; try lra. cbn. rewrite Rabs_R1. split; [lra|left; lra].
  - unfold place, rot_x, rot_y. cbn. rewrite cos_0, sin_0. f_equal; ring.
Qed.

(** C75. After any history of calls, the occupancy matrix and the distance map agree on which cells are obstacles: those that the
    addition of an obstacle drew and that were not cleared since. *)
Theorem C75_matrix_and_distance_map_agree :
  forall top topv, Gvd_spec.priority top -> Gvd_spec.priority topv ->
  forall resolution junk ops, world_used (fr_new resolution junk) false false ops -> has_size ops ->
  exists k w g, (forall fuel, (k <= fuel)%nat -> wd_run top topv fuel (wd_new resolution junk) ops = Ok w) /\ wd_dist w = Some g /\
  wd_frames w = world_frames (fr_new resolution junk) ops /\
  forall c, inside (fr_rows (wd_frames w)) (fr_cols (wd_frames w)) c ->
    om_occupied (wd_map w) c = Ok (world_covered (fr_new resolution junk) [] false ops c) /\
    (nearest_obstacle (g_obs g) c = Ok c <-> world_covered (fr_new resolution junk) [] false ops c = true).
Proof. exact world_agrees. Qed.
Print Assumptions C75_matrix_and_distance_map_agree.

(** After an update without removals, the map reports an obstacle for every cell, and the distance to it. *)
Theorem C75_reports_obstacles :
  forall top topv resolution junk ops last, Gvd_spec.priority top -> Gvd_spec.priority topv ->
  world_used (fr_new resolution junk) false false (ops ++ [last]) -> updates last ->
  (forall o x, ~ In (WRemove o x) ops) ->
  let F := world_frames (fr_new resolution junk) ops in
  let covered c := world_covered (fr_new resolution junk) [] false ops c = true in
  (exists c, inside (fr_rows F) (fr_cols F) c /\ covered c) ->
  exists k w g, (forall fuel, (k <= fuel)%nat -> wd_run top topv fuel (wd_new resolution junk) (ops ++ [last]) = Ok w) /\
    wd_dist w = Some g /\ wd_frames w = F /\
    forall c, inside (fr_rows F) (fr_cols F) c -> exists o, inside (fr_rows F) (fr_cols F) o /\ covered o /\
      nearest_obstacle (g_obs g) c = Ok o /\ squared_distance_to_obstacle (g_obs g) c = Ok (Gvd_spec.sqd c o).
Proof. exact world_reports. Qed.
Print Assumptions C75_reports_obstacles.

(** A map of 20 by 20 cells with a square: the hypotheses are met, and cells are covered. *)
Example C75_square : world_used f0 false false ((demo_pre ++ [WAdd 0 (square 1)]) ++ [WUpdate]) /\
  has_size ((demo_pre ++ [WAdd 0 (square 1)]) ++ [WUpdate]) /\
  world_frames f0 (demo_pre ++ [WAdd 0 (square 1)]) = demo20 /\
  world_covered f0 [] false (demo_pre ++ [WAdd 0 (square 1)]) (Cell 9 9) = true /\
  world_covered f0 [] false (demo_pre ++ [WAdd 0 (square 1)]) (Cell 10 10) = false /\
  world_covered f0 [] false (demo_pre ++ [WAdd 0 (square 1); WRemove 0 (square 1)]) (Cell 9 9) = false.
Proof.
  split; [apply demo_used; now left|]. split; [now left|]. split; [apply demo_frames|].
  rewrite !demo_covered. unfold draws. rewrite square_cells by lia. split; [vm_compute; reflexivity|]. split; [vm_compute; reflexivity|].
  cbn [demo_pre app world_covered frames_after registered_step in_dec]. unfold f0. rewrite demo20_init. unfold draws. rewrite square_cells by lia.
  vm_compute. reflexivity.
Qed.

(** C76. A path accepted by the validator on an updated map keeps its distance from the outline of every obstacle that was added
    and stayed. *)
Theorem C76_validated_paths :
  forall top topv resolution junk pre o x post last, Gvd_spec.priority top -> Gvd_spec.priority topv -> 0 < resolution ->
  let ops := pre ++ WAdd o x :: post in
  let F := world_frames (fr_new resolution junk) ops in
  world_used (fr_new resolution junk) false false (ops ++ [last]) -> updates last ->
  ~ In o (world_registered [] pre) -> kept F o x post ->
  exists k w g, (forall fuel, (k <= fuel)%nat -> wd_run top topv fuel (wd_new resolution junk) (ops ++ [last]) = Ok w) /\
    wd_dist w = Some g /\ wd_frames w = F /\
    forall lb ub minSafe minStep p fuel r, 0 < minStep -> 0 < p_length p -> unit_speed p ->
    is_path_valid F (map_clearance (g_obs g) resolution) lb ub minSafe minStep fuel p = Ok (true, r) ->
    forall q s y, on_obstacle x q -> off_border F q -> 0 <= s <= p_length p -> state_at p s y ->
    minSafe - minStep - sqrt 2 * resolution - map_slack F - sqrt 2 * (2 * resolution) <= distance (position y) q.
Proof. exact validated_outline. Qed.
Print Assumptions C76_validated_paths.

(** C76 and C77 for the motions found by Hybrid A*: they keep the margin from the outline, and do not enter a polygon that the
    initial pose is outside of. *)
Theorem C76_planned_motions :
  forall top topv resolution junk pre o x post last, Gvd_spec.priority top -> Gvd_spec.priority topv -> 0 < resolution ->
  let ops := pre ++ WAdd o x :: post in
  let F := world_frames (fr_new resolution junk) ops in
  world_used (fr_new resolution junk) false false (ops ++ [last]) -> updates last ->
  ~ In o (world_registered [] pre) -> kept F o x post ->
  exists k w g, (forall fuel, (k <= fuel)%nat -> wd_run top topv fuel (wd_new resolution junk) (ops ++ [last]) = Ok w) /\
    wd_dist w = Some g /\ wd_frames w = F /\
    forall m field vres lb ub minSafe minStep pfuel heur Rng draw goal vfuel fuel init st n s',
    0 < hp_radius m -> 0 < hp_res m -> 0 < minStep ->
    graph_search m F field vres (is_path_valid F (map_clearance (g_obs g) resolution) lb ub minSafe minStep pfuel) heur Rng draw goal vfuel fuel init st = Ok (Some n, s') ->
    exists l, search_motions (Some n) = Ok l /\
    (forall q p a, on_obstacle x q -> off_border F q -> In p l -> 0 <= a <= 1 -> margin minSafe minStep resolution F <= distance (position (dp_at p a)) q) /\
    (forall s vs, ob_shape x = Some s -> part s vs -> library_polygon vs -> 0 < margin minSafe minStep resolution F ->
      (forall q, on_outline (map (place (ob_pose x)) vs) q -> off_border F q) ->
      ~ in_polygon (map (place (ob_pose x)) vs) (position init) ->
      forall p a, In p l -> 0 <= a <= 1 -> ~ in_polygon (map (place (ob_pose x)) vs) (position (dp_at p a))).
Proof. exact planned_outline. Qed.
Print Assumptions C76_planned_motions.

(** C77. Full statement: no position of an accepted path is inside an obstacle. It is false: only the boundary of an obstacle is
    drawn, and a path inside a large one is accepted. *)
Theorem C77_hollow_refuted :
  forall top topv, Gvd_spec.priority top -> Gvd_spec.priority topv ->
  exists x vs k w g p r, ob_shape x = Some (Polygon vs) /\ library_polygon vs /\
    (forall fuel, (k <= fuel)%nat -> wd_run top topv fuel (wd_new 1 (0, 0)) [WSize 20 20; WAdd 0 x; WUpdate] = Ok w) /\ wd_dist w = Some g /\
    unit_speed p /\ 0 < p_length p /\
    is_path_valid (wd_frames w) (map_clearance (g_obs g) 1) low20 high20 1 (1 / 10) 1 p = Ok (true, r) /\
    forall s y, 0 <= s <= p_length p -> state_at p s y -> in_polygon (map (place (ob_pose x)) vs) (position y).
Proof.
  intros top topv Ht Htv.
  destruct (demo_world top topv 8 (Cell 10 10) 64 Ht Htv) as (k & w & g & d & E & Eg & Ed & Hd); [now right|unfold inside; cbn; lia|vm_compute; reflexivity|].
  assert (Ew : wd_frames w = demo20).
  { destruct (world_agrees top topv Ht Htv 1 (0, 0) _ (demo_used 8 ltac:(now right)) ltac:(now left)) as (k' & w' & g' & E' & _ & F' & _).
    specialize (E (Nat.max k k') ltac:(lia)). specialize (E' (Nat.max k k') ltac:(lia)). assert (w' = w) as -> by congruence. rewrite F'.
    change (world_frames f0 ((demo_pre ++ [WAdd 0 (square 8)]) ++ [WUpdate]) = demo20). rewrite world_frames_app, demo_frames. reflexivity. }
  destruct (short_valid (g_obs g) (1 / 2) (1 / 2) 10 10 d 1) as (r & Ev); try lia; try lra; auto.
  { unfold reported_distance. rewrite Rmult_1_r. rewrite <- sqrt_1. apply sqrt_le_1_alt. apply (IZR_le 1). lia. }
  exists (square 8), (rectangle_vertices (2 * IZR 8) (2 * IZR 8)), k, w, g, (straight (short (1 / 2) (1 / 2))), r.
  split; [reflexivity|]. split; [apply lp_rectangle; lra|]. split; [exact E|]. split; auto.
  pose proof (short_length (1 / 2) (1 / 2)) as L.
  split; [apply straight_unit_speed; [constructor|rewrite L; lra]|]. split; [cbn [straight p_length]; rewrite L; lra|]. split; [rewrite Ew; exact Ev|].
  intros s y Hs Hy. unfold state_at in Hy. cbn [straight p_at p_length] in Hy, Hs. rewrite L in Hy, Hs. injection Hy as <-.
  replace (position _) with (place (Pose 0 0 0) (1 / 2 + s, 1 / 2)).
  - apply place_polygon. apply rectangle_spec; try lra. cbn [fst snd]. lra.
  - unfold place, rot_x, rot_y. cbn [fst snd pth px py]. rewrite cos_0, sin_0. unfold position, short. cbn. f_equal; field.
Qed.
Print Assumptions C77_hollow_refuted.

(** What holds: a path that starts outside a polygon of an obstacle made of library shapes stays outside, provided the safe
    radius exceeds the discretization errors and the outline is not next to the border of the map. *)
Theorem C77_stays_outside_partial :
  forall top topv resolution junk pre o x post last, Gvd_spec.priority top -> Gvd_spec.priority topv -> 0 < resolution ->
  let ops := pre ++ WAdd o x :: post in
  let F := world_frames (fr_new resolution junk) ops in
  world_used (fr_new resolution junk) false false (ops ++ [last]) -> updates last ->
  ~ In o (world_registered [] pre) -> kept F o x post ->
  forall s vs, ob_shape x = Some s -> part s vs -> library_polygon vs ->
  let placed_vs := map (place (ob_pose x)) vs in
  (forall q, on_outline placed_vs q -> off_border F q) ->
  exists k w g, (forall fuel, (k <= fuel)%nat -> wd_run top topv fuel (wd_new resolution junk) (ops ++ [last]) = Ok w) /\
    wd_dist w = Some g /\ wd_frames w = F /\
    forall lb ub minSafe minStep p fuel r, 0 < minStep -> 0 < p_length p -> unit_speed p -> Validator_spec.total p ->
    0 < margin minSafe minStep resolution F ->
    is_path_valid F (map_clearance (g_obs g) resolution) lb ub minSafe minStep fuel p = Ok (true, r) ->
    (exists y, state_at p 0 y /\ ~ in_polygon placed_vs (position y)) ->
    forall u y, 0 <= u <= p_length p -> state_at p u y -> ~ in_polygon placed_vs (position y).
Proof. exact validated_outside. Qed.
Print Assumptions C77_stays_outside_partial.

(** The hypotheses are met by a square of 2 by 2 in the middle of the map, a safe radius of 8, and a path in the corner. *)
Example C77_square :
  forall top topv, Gvd_spec.priority top -> Gvd_spec.priority topv ->
  let vs := rectangle_vertices (2 * IZR 1) (2 * IZR 1) in
  ~ In 0%nat (world_registered [] demo_pre) /\ kept demo20 0 (square 1) [] /\
  (forall q, on_outline (map (place (ob_pose (square 1))) vs) q -> off_border demo20 q) /\
  0 < margin 8 (1 / 10) 1 demo20 /\
  exists k w g r, (forall fuel, (k <= fuel)%nat -> wd_run top topv fuel (wd_new 1 (0, 0)) ((demo_pre ++ [WAdd 0 (square 1)]) ++ [WUpdate]) = Ok w) /\
    wd_dist w = Some g /\
    is_path_valid demo20 (map_clearance (g_obs g) 1) low20 high20 8 (1 / 10) 1 (straight (short (- 19 / 2) (- 19 / 2))) = Ok (true, r).
Proof.
  intros top topv Ht Htv vs. split; [easy|]. split; [constructor|]. split; [|split].
  - intros q Hq. apply place_outline in Hq. destruct Hq as (q0 & Hq0 & ->). apply rectangle_outline in Hq0; try lra. destruct Hq0 as [[A B] _].
    unfold off_border, place, rot_x, rot_y. cbn [fst snd square ob_pose pth px py demo20 fr_world_grid fr_res fr_rows fr_cols]. rewrite cos_0, sin_0. lra.
  - unfold margin, map_slack, reported_distance. cbn [demo20 fr_res fr_rows fr_cols].
    change ((20 - 1) * (20 - 1) + (20 - 1) * (20 - 1))%Z with 722%Z.
    assert (A : 14142 / 10000 <= sqrt 2 <= 14143 / 10000).
    { split.
      - rewrite <- (sqrt_square (14142 / 10000)) by lra. apply sqrt_le_1_alt. lra.
      - rewrite <- (sqrt_square (14143 / 10000)) by lra. apply sqrt_le_1_alt. lra. }
    assert (B : sqrt (4 - 2 * sqrt 2) <= 10827 / 10000).
    { rewrite <- (sqrt_square (10827 / 10000)) by lra. apply sqrt_le_1_alt. lra. }
    assert (C : 0 <= sqrt 722 <= 2688 / 100).
    { split; [apply sqrt_pos|]. rewrite <- (sqrt_square (2688 / 100)) by lra. apply sqrt_le_1_alt. lra. }
    set (u := sqrt (4 - 2 * sqrt 2)) in *. set (v := sqrt 722) in *. clearbody u v. assert ((u - 1) * v <= 827 / 10000 * (2688 / 100)) by nra. lra.
  - destruct (demo_world top topv 1 (Cell 0 0) 64 Ht Htv) as (k & w & g & d & E & Eg & Ed & Hd); [now left|unfold inside; cbn; lia|vm_compute; reflexivity|].
    destruct (short_valid (g_obs g) (- 19 / 2) (- 19 / 2) 0 0 d 8) as (r & Ev); try lia; try lra; auto.
    { unfold reported_distance. rewrite Rmult_1_r. rewrite <- (sqrt_square 8) by lra. apply sqrt_le_1_alt. replace (8 * 8) with (IZR 64) by ring. now apply IZR_le. }
    exists k, w, g, r. auto.
Qed.
