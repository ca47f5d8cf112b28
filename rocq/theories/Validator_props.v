(** Properties C28 to C30 of path validation. *)
From Coq Require Import Reals Lra.
From Verif Require Import Base RealBase Grid_model Grid_spec Coords_model Coords_proofs Pose_model Pose_proofs Straight_model Straight_spec Straight_proofs
  StateSpace_model Gvd_model Gvd_spec Gvd_props PathCost_model Validator_model Validator_spec Validator_proofs Validator_map_proofs.
From Coq Require Import ZifyBool ZifyNat ZifyN.
Local Open Scope R_scope.

(** C28. [g] is the true clearance of a position; the one looked up for its cell exceeds it by at most [eps]. *)
Theorem C28_clearance_bounded :
  forall f clearance lb ub minSafe minStep p fuel r g eps,
  0 < minStep -> 0 < p_length p -> unit_speed p -> nonexpansive g ->
  (forall q c d, world_to_cell f q true = Ok c -> inside_cell f c = true -> clearance c = Ok d -> d <= g q + eps) ->
  is_path_valid f clearance lb ub minSafe minStep fuel p = Ok (true, r) ->
  forall s x, 0 <= s <= p_length p -> state_at p s x -> minSafe - minStep - eps <= g (position x).
Proof. exact clearance_below. Qed.
Print Assumptions C28_clearance_bounded.

(** C28 for the distance map the validator uses, after any history that ends with an update: the distance of every position
    of an accepted path to every obstacle cell. The last term is the error of the map (C26), ... *)
Theorem C28_updated_map_clearance :
  forall rowsN colsN top topv occ ops f, representable rowsN colsN -> priority top -> priority topv -> sized rowsN colsN occ ->
  well_used rowsN colsN false (ops ++ [GUpdateObstacles]) ->
  fr_rows f = rowsN -> fr_cols f = colsN -> 0 < fr_res f ->
  reaches top topv occ (ops ++ [GUpdateObstacles]) (fun st =>
    forall lb ub minSafe minStep p fuel r, 0 < minStep -> 0 < p_length p -> unit_speed p ->
    is_path_valid f (map_clearance (g_obs st) (fr_res f)) lb ub minSafe minStep fuel p = Ok (true, r) ->
    forall o, inside rowsN colsN o -> obstacle ops o -> forall s x, 0 <= s <= p_length p -> state_at p s x ->
    minSafe - minStep - sqrt 2 * fr_res f
      - (sqrt (4 - 2 * sqrt 2) - 1) * reported_distance (fr_res f) ((rowsN - 1) * (rowsN - 1) + (colsN - 1) * (colsN - 1))
      <= distance (position x) (cell_to_world f o)).
Proof. exact updated_map_clearance. Qed.
Print Assumptions C28_updated_map_clearance.

(** ... which vanishes with at most two obstacles. *)
Theorem C28_two_obstacles_clearance :
  forall rowsN colsN top topv occ ops a b f, representable rowsN colsN -> priority top -> priority topv -> sized rowsN colsN occ ->
  well_used rowsN colsN false (ops ++ [GUpdateObstacles]) -> existsb is_unset ops = false ->
  inside rowsN colsN a -> inside rowsN colsN b -> obstacle ops a -> obstacle ops b ->
  (forall o, inside rowsN colsN o -> obstacle ops o -> o = a \/ o = b) ->
  fr_rows f = rowsN -> fr_cols f = colsN -> 0 < fr_res f ->
  reaches top topv occ (ops ++ [GUpdateObstacles]) (fun st =>
    forall lb ub minSafe minStep p fuel r, 0 < minStep -> 0 < p_length p -> unit_speed p ->
    is_path_valid f (map_clearance (g_obs st) (fr_res f)) lb ub minSafe minStep fuel p = Ok (true, r) ->
    forall o, inside rowsN colsN o -> obstacle ops o -> forall s x, 0 <= s <= p_length p -> state_at p s x ->
    minSafe - minStep - sqrt 2 * fr_res f <= distance (position x) (cell_to_world f o)).
Proof. exact updated_map_clearance_two. Qed.
Print Assumptions C28_two_obstacles_clearance.

(** The positions of an accepted path leave the bounds of the state space by at most the interpolation step, if the map is
    centred at the origin. *)
Theorem C28_border :
  forall f clearance lb ub minSafe minStep p fuel r,
  0 < minStep -> 0 < p_length p -> unit_speed p -> fr_local f = (0, 0) ->
  is_path_valid f clearance lb ub minSafe minStep fuel p = Ok (true, r) ->
  forall s x, 0 <= s <= p_length p -> state_at p s x ->
  px lb - minStep <= px x <= px ub + minStep /\ py lb - minStep <= py x <= py ub + minStep.
Proof. exact border_below. Qed.
Print Assumptions C28_border.

(** Straight paths travel at unit speed. *)
Theorem C28_straight_paths : forall p, sbuilt p -> 0 < s_length p -> unit_speed (straight p).
Proof. exact straight_unit_speed. Qed.
Print Assumptions C28_straight_paths.

(** C29. Validation terminates, after at most [length / step] samples; ... *)
Theorem C29_terminates :
  forall f clearance lb ub minSafe minStep, 0 < minStep ->
  forall p, total p -> checkable f clearance lb ub minSafe p -> 0 <= p_length p ->
  exists b r, forall fuel, p_length p <= INR fuel * minStep ->
  is_path_valid f clearance lb ub minSafe minStep fuel p = Ok (b, r).
Proof. exact check_ends. Qed.
Print Assumptions C29_terminates.

(** ... its ratio lies in [0,1], is 1 for an accepted path, and leads to a valid state of a rejected one. *)
Theorem C29_truncation_point :
  forall f clearance lb ub minSafe minStep, 0 < minStep ->
  forall p fuel b r, 0 <= p_length p -> p_at p 0 = Ok (p_init p) ->
  is_path_valid f clearance lb ub minSafe minStep fuel p = Ok (b, r) ->
  0 <= r <= 1 /\ (b = true -> r = 1) /\
  (b = false -> is_state_valid f clearance lb ub minSafe (p_init p) = Ok true ->
     r < 1 /\ forall x, p_at p r = Ok x -> is_state_valid f clearance lb ub minSafe x = Ok true).
Proof. exact check_ratio. Qed.
Print Assumptions C29_truncation_point.

(** A map of 10 by 10 cells of size 1 with an obstacle at (6,5), and the default parameters. *)
Definition ten : list gop := [GSet (Cell 6 5); GUpdateObstacles].
Definition ten_map : res dmap := do st0 <- g_new (empty_occ 10 10); rmap g_obs (g_run oldest oldest 3000 st0 ten).
Definition low : pose := Pose (-5) (-5) (-3).
Definition high : pose := Pose 5 5 3.

Lemma wrap_zero : wrap_theta 0 = 0.
Proof. apply wrap_keep. pose proof PI_gt_1. lra. Qed.

Lemma ten_cell x y r k : (0 <= r < 10)%Z -> (0 <= k < 10)%Z -> IZR r <= x + 5 < IZR r + 1 -> IZR k <= y + 5 < IZR k + 1 ->
  world_to_cell map10 (x, y) true = Ok (Cell r k).
Proof.
  intros Hr Hk Hx Hy. unfold world_to_cell, grid_to_cell. cbn [map10 fr_world_grid fr_res fst snd].
  assert (E : forall z n, (0 <= n < 10)%Z -> IZR n <= z + 5 < IZR n + 1 -> cast_int ((z - -5) / 1) = Ok n).
  { intros z n Hn Hz. apply cast_int_ok. split; [|unfold is_int, int_min, int_max; lia]. replace ((z - -5) / 1) with (z + 5) by field.
    unfold Rtrunc. destruct (Rle_dec 0 (z + 5)) as [L|L].
    - symmetry. apply Rfloor_unique. lra.
    - exfalso. apply L. destruct Hz as [Hz _]. apply Rle_trans with (IZR n); auto. apply (IZR_le 0). lia. }
  rewrite (E x r), (E y k) by auto. cbn [bind negb]. destruct (inside_cell map10 (Cell r k)) eqn:I; auto.
  exfalso. unfold inside_cell in I. cbn in I. lia.
Qed.

Lemma ten_inside r k : (0 <= r < 10)%Z -> (0 <= k < 10)%Z -> inside_cell map10 (Cell r k) = true.
Proof. intros. unfold inside_cell. cbn. lia. Qed.

Lemma ten_validate s : -5 <= px s <= 5 -> -5 <= py s <= 5 -> pth s = 0 ->
  se2_validate low high (mk_pose (fst (world_to_local map10 (position s))) (snd (world_to_local map10 (position s))) (pth s)) = true.
Proof.
  intros Hx Hy Ht. apply StateSpace_proofs.se2_validate_iff. unfold mk_pose. rewrite Ht, wrap_zero. cbn. lra.
Qed.

(** C30. Full statement: the final state of an accepted path is valid. It is false: with the default parameters a path of
    length 1/20 that ends on the obstacle is accepted. *)
Theorem C30_final_state_refuted :
  exists m p x, ten_map = Ok m /\ unit_speed p /\ total p /\ p_at p 1 = Ok x /\
    (exists r, is_path_valid map10 (map_clearance m 1) low high 1 (1 / 10) 1 p = Ok (true, r)) /\
    is_state_valid map10 (map_clearance m 1) low high 1 x = Ok false /\
    (exists c, world_to_cell map10 (position x) true = Ok c /\ nearest_obstacle m c = Ok c).
Proof.
  destruct ten_map as [m| | |] eqn:E; try (vm_compute in E; discriminate E).
  assert (D5 : squared_distance_to_obstacle m (Cell 5 5) = Ok 1%Z) by (vm_compute in E; injection E as <-; vm_compute; reflexivity).
  assert (D6 : squared_distance_to_obstacle m (Cell 6 5) = Ok 0%Z) by (vm_compute in E; injection E as <-; vm_compute; reflexivity).
  assert (N6 : nearest_obstacle m (Cell 6 5) = Ok (Cell 6 5)) by (vm_compute in E; injection E as <-; vm_compute; reflexivity).
  set (a := Pose (19 / 20) (1 / 2) 0). set (b := Pose 1 (1 / 2) 0). set (q := s_connect a b).
  assert (L : s_length q = 1 / 20).
  { cbn. unfold pnorm, psub. cbn. replace ((1 - 19 / 20) * (1 - 19 / 20) + (1 / 2 - 1 / 2) * (1 / 2 - 1 / 2)) with (Rsqr (1 / 20)) by (unfold Rsqr; field).
    apply sqrt_Rsqr. lra. }
  assert (A1 : s_at q 1 = b) by apply s_at_1. assert (A0 : s_at q 0 = a) by apply s_at_0.
  assert (C0 : world_to_cell map10 (position a) true = Ok (Cell 5 5)) by (apply ten_cell; cbn; try lia; lra).
  assert (C1 : world_to_cell map10 (position b) true = Ok (Cell 6 5)) by (apply ten_cell; cbn; try lia; lra).
  exists m, (straight q), b. split; auto. split; [apply straight_unit_speed; [constructor|lra]|].
  split; [intros r _; cbn; eauto|]. split; [cbn; now rewrite A1|].
  assert (P0 : reported_distance 1 1 = 1) by (unfold reported_distance; rewrite sqrt_1; ring).
  assert (P1 : reported_distance 1 0 = 0) by (unfold reported_distance; rewrite sqrt_0; ring).
  split; [|split].
  - exists 1. unfold is_path_valid. cbn [straight p_length]. rewrite L. destruct (Reqb_spec (1 / 20) 0); [exfalso; lra|].
    rewrite loop_unfold. cbn [straight p_length p_at]. rewrite L. destruct (Rltb_spec 0 (1 / 20)) as [_|]; [|exfalso; lra].
    replace (0 / (1 / 20)) with 0 by field. rewrite A0. cbn [bind].
    unfold is_state_valid at 1. rewrite C0. cbn [bind]. rewrite ten_validate by (cbn; lra). cbn [negb orb].
    rewrite ten_inside by lia. cbn [negb]. unfold map_clearance at 1. rewrite D5. cbn [rmap bind]. rewrite P0.
    destruct (Rleb_spec 1 1) as [_|]; [|exfalso; lra]. cbn [negb bind].
    unfold step_length. rewrite C0. cbn [bind]. unfold map_clearance at 1. rewrite D5. cbn [rmap bind]. rewrite P0.
    set (d := Rmax _ (1 / 10)). assert (1 / 10 <= d) by apply Rmax_r. cbn [validate_loop straight p_length]. rewrite L.
    destruct (Rltb_spec (0 + d) (1 / 20)); [exfalso; lra|]. reflexivity.
  - unfold is_state_valid. rewrite C1. cbn [bind]. rewrite ten_validate by (cbn; lra). cbn [negb orb].
    rewrite ten_inside by lia. cbn [negb]. unfold map_clearance. rewrite D6. cbn [rmap bind]. rewrite P1.
    destruct (Rleb_spec 1 0); [exfalso; lra|]. reflexivity.
  - exists (Cell 6 5). auto.
Qed.
Print Assumptions C30_final_state_refuted.

(** C30, what holds: the clearance of the final state is at least the safe radius less the step and the discretization
    error, and an accepted path of length zero does end in a valid state. *)
Theorem C30_final_clearance_partial :
  forall f clearance lb ub minSafe minStep p fuel r g eps,
  0 < minStep -> 0 < p_length p -> unit_speed p -> nonexpansive g ->
  (forall q c d, world_to_cell f q true = Ok c -> inside_cell f c = true -> clearance c = Ok d -> d <= g q + eps) ->
  is_path_valid f clearance lb ub minSafe minStep fuel p = Ok (true, r) ->
  forall x, p_at p 1 = Ok x -> minSafe - minStep - eps <= g (position x).
Proof.
  intros until 6. intros x Hx. apply (clearance_below f clearance lb ub minSafe minStep p fuel r g eps) with (s := p_length p); auto; try lra.
  unfold state_at. replace (p_length p / p_length p) with 1 by (field; lra). exact Hx.
Qed.
Print Assumptions C30_final_clearance_partial.

Theorem C30_no_motion_partial :
  forall f clearance lb ub minSafe minStep p fuel r, p_length p = 0 ->
  is_path_valid f clearance lb ub minSafe minStep fuel p = Ok (true, r) ->
  is_state_valid f clearance lb ub minSafe (p_init p) = Ok true.
Proof.
  intros *. intros Z E. unfold is_path_valid in E. destruct (Reqb_spec (p_length p) 0); [|contradiction].
  destruct (is_state_valid f clearance lb ub minSafe (p_init p)) as [v| | |]; try discriminate. cbn [bind] in E. congruence.
Qed.
Print Assumptions C30_no_motion_partial.

(** Why the step must be positive for C29: with a step of zero, validation does not end if the clearance equals the safe
    radius. *)
Theorem C29_zero_step_refuted :
  exists p, unit_speed p /\ total p /\ forall fuel, is_path_valid map10 (fun _ => Ok 1) low high 1 0 fuel p = NoFuel.
Proof.
  set (a := Pose 0 0 0). set (b := Pose 1 0 0). set (q := s_connect a b).
  assert (L : s_length q = 1).
  { cbn. unfold pnorm, psub. cbn. replace ((1 - 0) * (1 - 0) + (0 - 0) * (0 - 0)) with 1 by ring. apply sqrt_1. }
  assert (A0 : s_at q 0 = a) by apply s_at_0.
  assert (C0 : world_to_cell map10 (position a) true = Ok (Cell 5 5)) by (apply ten_cell; cbn; try lia; lra).
  exists (straight q). split; [apply straight_unit_speed; [constructor|lra]|]. split; [intros r _; cbn; eauto|].
  assert (K : forall fuel last, validate_loop map10 (fun _ => Ok 1) low high 1 0 fuel (straight q) 0 last = NoFuel).
  { induction fuel as [|k IH]; intros last.
    - cbn. destruct (Rltb_spec 0 (pnorm (psub (position b) (position a)))) as [_|N]; auto. exfalso. cbn in L. lra.
    - rewrite loop_unfold. cbn [straight p_length p_at]. rewrite L. destruct (Rltb_spec 0 1) as [_|]; [|exfalso; lra].
      replace (0 / 1) with 0 by field. rewrite A0. cbn [bind].
      unfold is_state_valid at 1. rewrite C0. cbn [bind]. rewrite ten_validate by (cbn; lra). cbn [negb orb].
      rewrite ten_inside by lia. cbn [negb bind]. destruct (Rleb_spec 1 1) as [_|]; [|exfalso; lra]. cbn [negb].
      unfold step_length. rewrite C0. cbn [bind]. set (border := Rmin _ (py high - py a)).
      assert (Rmax (Rmin (1 - 1) border) 0 = 0) as ->. { apply Rmax_right. pose proof (Rmin_l (1 - 1) border). lra. }
      rewrite Rplus_0_r. apply IH. }
  intros fuel. unfold is_path_valid. cbn [straight p_length]. rewrite L. destruct (Reqb_spec 1 0); [exfalso; lra|]. apply K.
Qed.
Print Assumptions C29_zero_step_refuted.
