(** Properties C52 to C55 and C67 to C72 of Hybrid A*. *)
From Coq Require Import Reals Lra.
From Verif Require Import Base RealBase Grid_model Grid_spec Coords_model Pose_model Pose_spec Pose_proofs Straight_model Straight_spec Bicycle_model Rs_model
  Gvd_model Gvd_spec PathCost_model Validator_model Validator_spec Composite_model Composite_spec AStar_model
  Hybrid_model Hybrid_spec Hybrid_proofs HybridSample_proofs HybridCell_proofs ValidatorPart_proofs HybridPath_proofs HybridSafe_proofs HybridDemo_proofs HybridMap_proofs.
From Coq Require Import ZifyBool ZifyNat ZifyN.
Local Open Scope R_scope.

(** C52. Full statement: poses of the same cell are [close]: their positions differ by less than the resolution per axis, and
    their headings by less than the angular resolution. It is false: there are only seven cells for the headings, ... *)
Theorem C52_seven_headings : forall m p c, discretize m p = Ok c -> (-3 <= ith c <= 3)%Z.
Proof. intros m p c E. apply discretize_inv in E as (_ & _ & ->). apply int_wrap_range. Qed.
Print Assumptions C52_seven_headings.

(** ... so that any resolution with more headings merges distant ones, ... *)
Theorem C52_headings_refuted :
  forall m, 0 < hp_ang m -> 7 * hp_ang m <= PI -> exists a b c, discretize m a = Ok c /\ discretize m b = Ok c /\ ~ close m a b.
Proof. exact headings_alias. Qed.
Print Assumptions C52_headings_refuted.

(** ... and the cells next to the axes are twice as large. *)
Theorem C52_positions_refuted :
  forall m, 0 < hp_res m -> exists a b c, pth a = 0 /\ pth b = 0 /\ discretize m a = Ok c /\ discretize m b = Ok c /\ ~ close m a b.
Proof. exact positions_alias. Qed.
Print Assumptions C52_positions_refuted.

(** What holds: the positions differ by less than twice the resolution, and by less than the resolution on the same side of the
    axis; ... *)
Theorem C52_positions_partial :
  forall m a b c, 0 < hp_res m -> discretize m a = Ok c -> discretize m b = Ok c ->
  Rabs (px a - px b) < 2 * hp_res m /\ Rabs (py a - py b) < 2 * hp_res m /\
  (0 <= px a * px b -> Rabs (px a - px b) < hp_res m) /\ (0 <= py a * py b -> Rabs (py a - py b) < hp_res m).
Proof. exact cell_positions. Qed.
Print Assumptions C52_positions_partial.

(** ... so do headings within four angular resolutions of zero. *)
Theorem C52_headings_partial :
  forall m a b c, 0 < hp_ang m -> discretize m a = Ok c -> discretize m b = Ok c ->
  Rabs (wrap_theta (pth a)) < 4 * hp_ang m -> Rabs (wrap_theta (pth b)) < 4 * hp_ang m ->
  heading_within (2 * hp_ang m) (pth a) (pth b) /\ (0 <= wrap_theta (pth a) * wrap_theta (pth b) -> heading_within (hp_ang m) (pth a) (pth b)).
Proof. exact cell_headings. Qed.
Print Assumptions C52_headings_partial.

(** The default angular resolution of the code, hybrid_a_star.h:36, is among those refuted. *)
Example C52_default : 0 < 872 / 10000 /\ 7 * (872 / 10000) <= PI.
Proof. pose proof PI_bounds. lra. Qed.

(** C53. *)
Theorem C53_motions :
  forall m f field vres validate heur Rng draw goal, 0 < hp_radius m ->
  forall vfuel fuel init g n st, graph_search m f field vres validate heur Rng draw goal vfuel fuel init g = Ok (Some n, st) ->
  exists l q, search_motions (Some n) = Ok l /\ leads init l q /\ arrived q goal /\ Forall (accepted validate) l /\ Forall (driveable m goal) l.
Proof. exact search_motions_spec. Qed.
Print Assumptions C53_motions.

(** A search that succeeds. *)
Example C53_demo : exists vres n st q, 0 < vres /\
  graph_search demo_params demo_frames demo_field vres demo_validate demo_heur unit demo_draw demo_goal 1 2 demo_init tt = Ok (Some n, st) /\
  search_motions (Some n) = Ok [Connected q].
Proof. exact demo_search. Qed.

(** C54. Full statement: the sampled path starts at the initial pose, ends at the final pose, and contains every cusp, and
    consecutive samples are at most one and a half steps apart. What holds: for motions found by the search, the sampled path
    starts at the initial pose and follows the motions; sample [i] is at most half a step away from [i] steps. *)
Theorem C54_samples_partial :
  forall m f field vres validate heur Rng draw goal, 0 < hp_radius m -> 0 < hp_res m ->
  (forall p r, 0 <= p_length p -> p_at p 0 = Ok (p_init p) -> validate p = Ok (false, r) -> 0 <= r <= 1) ->
  forall vfuel fuel init g n st sfuel step, graph_search m f field vres validate heur Rng draw goal vfuel fuel init g = Ok (Some n, st) ->
  exists l q, search_motions (Some n) = Ok l /\ leads init l q /\ arrived q goal /\
  (0 < dtotal l -> 0 < step -> dtotal l < INR sfuel * step ->
   exists poses marks, sampled_path sfuel step (dp_composite l) = Ok (poses, marks) /\
   (exists x, nth_error poses 0 = Some x /\ same_pose x init) /\
   (exists ds, Forall2 (on_way l) ds poses /\
      (forall i d, nth_error ds i = Some d -> INR i * step - step / 2 < d <= INR i * step + step / 2 /\ 0 <= d <= dtotal l)) /\
   dtotal l < INR (length poses) * step <= dtotal l + step).
Proof. exact result_spec. Qed.
Print Assumptions C54_samples_partial.

(** Consecutive samples are in order and less than two steps apart, the last one is less than one step and a half before the end,
    and the marked samples are cusps or ends. *)
Theorem C54_gaps_partial :
  forall total step, 0 < total -> 0 < step -> forall cusps, (forall c, In c cusps -> 0 <= c <= 1) ->
  forall fuel, total < INR fuel * step -> exists rs marks, sample fuel total step cusps = Ok (rs, marks) /\
  nth_error rs 0 = Some 0 /\
  (forall i a b, nth_error rs i = Some a -> nth_error rs (S i) = Some b -> a < b /\ b * total - a * total < 2 * step) /\
  (forall r, nth_error rs (pred (length rs)) = Some r -> total - r * total < 3 / 2 * step) /\
  (forall i, In i marks -> exists c, nth_error rs i = Some c /\ (c = 0 \/ c = 1 \/ In c cusps)).
Proof.
  intros total step Ht Hs cusps Hc fuel Hf. destruct (sample_spec total step Ht Hs cusps Hc fuel Hf) as (rs & marks & E & Sm & B & H0). exists rs, marks.
  split; [exact E|]. split; [exact H0|]. split; [intros; eapply sample_gaps; eauto|]. split; [intros; eapply sample_last; eauto; lra|].
  intros i I. destruct (sm_mark _ _ _ _ _ Sm i I) as (c & Ec & Ic). exists c. split; [exact Ec|]. now apply cusp_set_spec.
Qed.
Print Assumptions C54_gaps_partial.

(** If the cusps and the ends are at least a step apart, every cusp is sampled and marked, except in the last half step; ... *)
Theorem C54_cusps_partial :
  forall total step, 0 < total -> 0 < step -> forall cusps, (forall c, In c cusps -> 0 <= c <= 1) ->
  forall fuel rs marks,
  (forall c c', (c = 0 \/ c = 1 \/ In c cusps) -> (c' = 0 \/ c' = 1 \/ In c' cusps) -> c < c' -> c * total + step <= c' * total) ->
  sample fuel total step cusps = Ok (rs, marks) -> total < INR (length rs) * step ->
  forall c, (c = 0 \/ c = 1 \/ In c cusps) -> c * total <= INR (length rs) * step - step / 2 -> exists j, In j marks /\ nth_error rs j = Some c.
Proof.
  intros total step Ht Hs cusps Hc fuel rs marks Hsep E Hn c I. destruct (cusp_set_spec cusps) as [_ H].
  apply (sample_kept total step Ht Hs cusps Hc fuel rs marks); auto; [|now apply H]. intros a b Ia Ib. apply Hsep; now apply H.
Qed.
Print Assumptions C54_cusps_partial.

(** ... but the end is not sampled when the length exceeds a multiple of the step by more than its half, ... *)
Theorem C54_end_refuted :
  forall total step, 0 < total -> 0 < step -> forall cusps, (forall c, In c cusps -> 0 <= c <= 1) ->
  forall fuel rs marks k, sample fuel total step cusps = Ok (rs, marks) -> INR k * step + step / 2 < total < INR (S k) * step ->
  total < INR fuel * step -> ~ In 1 rs.
Proof. exact sample_end. Qed.
Print Assumptions C54_end_refuted.

Ltac decide_real H := first [destruct H; [|exfalso; lra]|destruct H; [exfalso; lra|]].
Ltac decide_reals := repeat (match goal with
  | |- context [Rltb ?a ?b] => decide_real (Rltb_spec a b)
  | |- context [Rleb ?a ?b] => decide_real (Rleb_spec a b)
  end; cbn [andb app length rset_insert fold_left]).

(** ... two cusps within half a step hide all the following ones, ... *)
Theorem C54_cusps_refuted :
  exists rs marks, sample 11 10 1 [1 / 5; 21 / 100; 101 / 200] = Ok (rs, marks) /\ ~ In (101 / 200) rs.
Proof.
  destruct (sample_spec 10 1 ltac:(lra) ltac:(lra) [1 / 5; 21 / 100; 101 / 200]) with (fuel := 11%nat) as (rs & marks & E & _).
  { intros c [<-|[<-|[<-|[]]]]; lra. }
  { cbn. lra. }
  exists rs, marks. split; [exact E|]. unfold sample in E. assert (Es : cusp_set [1 / 5; 21 / 100; 101 / 200] = [0; 1 / 5; 21 / 100; 101 / 200; 1]).
  { unfold cusp_set. cbn [fold_left rset_insert]. decide_reals. reflexivity. }
  rewrite Es in E. rewrite sample_unfold in E. revert E. decide_reals. intros E. rewrite sample_unfold in E. revert E. decide_reals. intros E.
  rewrite sample_unfold in E. revert E. decide_reals. intros E. replace (0 + 1 + 1 + 1) with (INR 3 * 1) in E by (cbn; ring).
  apply loop_stuck in E as (_ & tl & -> & Htl); [|lra|cbn; lra]. intros I. apply in_app_iff in I as [[I|[I|[I|[]]]]|I]; try (exfalso; lra).
  destruct (Htl _ I) as (j & Ej). assert (Hj : 20 * INR j = 101) by lra. rewrite INR_IZR_INZ, <- mult_IZR in Hj. apply eq_IZR in Hj. lia.
Qed.
Print Assumptions C54_cusps_refuted.

(** ... and two cusps can be nearly two steps apart without a sample between them. *)
Theorem C54_gaps_refuted :
  exists rs marks i a b, sample 11 10 1 [4 / 25; 7 / 20] = Ok (rs, marks) /\ nth_error rs i = Some a /\ nth_error rs (S i) = Some b /\ 3 / 2 * 1 < b * 10 - a * 10.
Proof.
  destruct (sample_spec 10 1 ltac:(lra) ltac:(lra) [4 / 25; 7 / 20]) with (fuel := 11%nat) as (rs & marks & E & _).
  { intros c [<-|[<-|[]]]; lra. }
  { cbn. lra. }
  exists rs, marks, 2%nat, (4 / 25), (7 / 20). split; [exact E|]. unfold sample in E. assert (Es : cusp_set [4 / 25; 7 / 20] = [0; 4 / 25; 7 / 20; 1]).
  { unfold cusp_set. cbn [fold_left rset_insert]. decide_reals. reflexivity. }
  rewrite Es in E. rewrite sample_unfold in E. revert E. decide_reals. intros E. rewrite sample_unfold in E. revert E. decide_reals. intros E.
  rewrite sample_unfold in E. revert E. decide_reals. intros E. rewrite sample_unfold in E. revert E. decide_reals. intros E.
  apply loop_prefix in E as [(tl & ->) _]. split; [reflexivity|]. split; [reflexivity|lra].
Qed.
Print Assumptions C54_gaps_refuted.

Example C54_sampled : 0 < 10 /\ 0 < 1 /\ (forall c, In c [1 / 2] -> 0 <= c <= 1) /\ 10 < INR 11 * 1 /\
  (forall c c', (c = 0 \/ c = 1 \/ In c [1 / 2]) -> (c' = 0 \/ c' = 1 \/ In c' [1 / 2]) -> c < c' -> c * 10 + 1 <= c' * 10).
Proof. split; [lra|]. split; [lra|]. split; [intros c [<-|[]]; lra|]. split; [cbn; lra|]. intros c c' [->|[->|[<-|[]]]] [->|[->|[<-|[]]]]; lra. Qed.

(** C55. Full statement: the steering angles are at most that of the minimum turning radius. It holds for at most five motions,
    as by default, ... *)
Theorem C55_steering_partial :
  forall m d, 0 < hp_wheelbase m -> 0 < hp_radius m -> (hp_motions m <= 5)%nat -> In d (deltas m) ->
  Rabs d <= atan (hp_wheelbase m / hp_radius m).
Proof.
  intros m d Hw Hr Hn I. destruct (hp_max_spec m Hw Hr) as [[H1 H2] T]. replace (atan (hp_wheelbase m / hp_radius m)) with (hp_max m); [apply deltas_bounded; auto; lra|].
  rewrite <- T. symmetry. apply atan_right_inv || (apply tan_inj; [apply atan_bound|lra|apply tan_atan]).
Qed.
Print Assumptions C55_steering_partial.

(** ... and fails for any larger number. *)
Theorem C55_steering_refuted :
  forall m, 0 < hp_wheelbase m -> 0 < hp_radius m -> (6 <= hp_motions m)%nat -> exists d, In d (deltas m) /\ d = 3 / 2 * hp_max m /\
  tan (hp_max m) = hp_wheelbase m / hp_radius m /\ hp_max m < d.
Proof.
  intros m Hw Hr Hn. destruct (hp_max_spec m Hw Hr) as [[H1 H2] T]. destruct (deltas_exceed m H1 Hn) as (d & I & ->). exists (3 / 2 * hp_max m). repeat split; auto. lra.
Qed.
Print Assumptions C55_steering_refuted.

(** With four motions or more, the largest angle is used. *)
Theorem C55_largest : forall m, (4 <= hp_motions m)%nat -> In (hp_max m) (deltas m) /\ In (- hp_max m) (deltas m).
Proof. exact deltas_max. Qed.
Print Assumptions C55_largest.

(** C67. Full statement: planning from a pose at the goal succeeds. It never does: an exception leaves [SearchPath]. *)
Theorem C67_start_at_goal_refuted :
  forall m f field vres validate heur Rng draw goal vfuel fuel init g sfuel step smoother old ci cg,
  discretize m init = Ok ci -> discretize m goal = Ok cg -> identical_poses init goal = true -> 0 < step ->
  hybrid_result (S sfuel) step smoother true (rmap fst (graph_search m f field vres validate heur Rng draw goal vfuel (S fuel) init g)) old = Throw.
Proof. exact at_goal_throws. Qed.
Print Assumptions C67_start_at_goal_refuted.

Example C67_at_goal : exists c, discretize demo_params demo_goal = Ok c /\ identical_poses demo_goal demo_goal = true.
Proof.
  pose proof PI_bounds. destruct (demo_cell demo_goal 1) as (n & E & _); try reflexivity; cbn [demo_goal pth]; rewrite ?Rabs_R0; try lra.
  exists (IPose n 0 0). split; [exact E|]. apply identical_same; [apply same_pose_refl|cbn; lra|cbn; lra].
Qed.

(** C69. The graph search ends, after at most as many expansions as there are cells within the bounds. *)
Theorem C69_terminates :
  forall m f field vres clearance lb ub minSafe minStep pfuel heur Rng draw goal, 0 < hp_radius m -> 0 < hp_res m -> 0 < minStep ->
  forall B init si vfuel fuel (g : res Rng), state_of_pose m init = Ok si ->
  reach m f lb ub / hp_res m <= IZR B -> Rabs (px goal) / hp_res m <= IZR B -> Rabs (py goal) / hp_res m <= IZR B ->
  (S (7 * Z.to_nat (2 * B + 1) * Z.to_nat (2 * B + 1)) < fuel)%nat ->
  exists r st, search_path hs_eqb x_ltb x_add (Some 0) (h_value heur)
      (h_succ m f field vres (is_path_valid f clearance lb ub minSafe minStep pfuel) heur Rng draw goal vfuel) (h_solution goal) h_guard true fuel si g = Ok (r, st) /\
    (length (st_queried st) <= S (7 * Z.to_nat (2 * B + 1) * Z.to_nat (2 * B + 1)))%nat.
Proof.
  intros m f field vres clearance lb ub minSafe minStep pfuel heur Rng draw goal Hr Hres Hs B init si vfuel fuel g Ei. apply search_ends; auto.
  unfold state_of_pose in Ei. destruct (discretize m init) as [c| | |] eqn:E; try discriminate. cbn [bind] in Ei. assert (si = HState NoMotion c init) as -> by congruence. exact E.
Qed.
Print Assumptions C69_terminates.

(** The bound exists for every bounds, resolution and goal. *)
Example C69_bound : forall x y z : R, exists B, x <= IZR B /\ y <= IZR B /\ z <= IZR B.
Proof.
  intros x y z. destruct (archimed (Rmax x (Rmax y z))) as [H _]. exists (up (Rmax x (Rmax y z))). pose proof (Rmax_l x (Rmax y z)). pose proof (Rmax_r x (Rmax y z)).
  pose proof (Rmax_l y z). pose proof (Rmax_r y z). lra.
Qed.

(** The samples of the Voronoi cost end too. *)
Theorem C69_voronoi_ends :
  forall f field vres p, 0 < vres -> (forall r, 0 <= r <= 1 -> exists x cell c, p_at p r = Ok x /\ world_to_cell f (position x) false = Ok cell /\ field cell = Ok c) ->
  forall k c, p_length p <= INR k * (vres * sqrt 2) -> exists v, voronoi_loop f field vres k p 0 c = Ok v.
Proof.
  intros f field vres p Hv H k c Hk. pose proof (voronoi_ends f field vres p Hv H k 0 c) as V. cbn [INR] in V. rewrite Rmult_0_l in V. apply V. lra.
Qed.
Print Assumptions C69_voronoi_ends.

(** C70. Full statement: the cost of a motion is its length, weighted by direction, plus the cost of changing direction, plus the
    path cost of the cells on the way. It is false: the cost of changing direction has no effect on motions with constant
    steering, ... *)
Theorem C70_switching_refuted :
  forall m f field vres validate c fuel s delta dir,
  steer_child (with_switching m c) f field vres validate fuel s delta dir = steer_child m f field vres validate fuel s delta dir.
Proof. exact switching_ignored. Qed.
Print Assumptions C70_switching_refuted.

(** ... and of the path cost only one sample, the last, counts. *)
Theorem C70_voronoi_refuted :
  forall m f field vres p fuel v, voronoi_cost m f field vres fuel p = Ok v -> 0 < vres -> 0 < dp_length p ->
  exists i cell c, INR i * (vres * sqrt 2) < dp_length p <= INR (S i) * (vres * sqrt 2) /\
  world_to_cell f (position (dp_at p (INR i * (vres * sqrt 2) / dp_length p))) false = Ok cell /\ field cell = Ok (Some c) /\
  v = hp_voronoi m * (c * (vres * sqrt 2)).
Proof. exact voronoi_cost_last. Qed.
Print Assumptions C70_voronoi_refuted.

(** What holds: the cost without these parts. *)
Theorem C70_length_partial :
  forall m f field vres fuel dir p c, steer_cost m f field vres fuel dir p = Ok c -> exists v, voronoi_cost m f field vres fuel p = Ok v /\
  c = Some (match dir with Forward => hp_forward m | Backward => hp_reverse m | NoMotion => 0 end * dp_length p + v).
Proof.
  intros m f field vres fuel dir p c E. unfold steer_cost in E. destruct (voronoi_cost m f field vres fuel p) as [v| | |]; try discriminate. exists v. split; [reflexivity|].
  cbn [bind] in E. assert (D : dir_eqb (dp_direction p 1) (dp_direction p 1) = true) by (destruct (dp_direction p 1); reflexivity). rewrite D in E.
  assert (c = Some (match dir with Forward => hp_forward m * dp_length p | Backward => hp_reverse m * dp_length p | NoMotion => 0 end + 0 + v)) as -> by congruence.
  f_equal. destruct dir; ring.
Qed.
Print Assumptions C70_length_partial.

(** C71. Full statement: the search recognizes the goal pose whichever way its heading is written. It is false; ... *)
Theorem C71_goal_heading_refuted : exists p goal, same_pose p goal /\ identical_poses p goal = false.
Proof.
  exists (Pose 0 0 PI), (Pose 0 0 (- PI)). pose proof PI_bounds. split.
  - split; [reflexivity|]. split; [reflexivity|]. exists 1%Z. cbn [pth]. lra.
  - unfold identical_poses. cbn [pth]. replace (PI - - PI) with (2 * PI) by ring. rewrite Rabs_pos_eq by lra. destruct (Rltb_spec (2 * PI) (1 / 1000 * PI / 180)); [exfalso; lra|]. apply Bool.andb_false_r.
Qed.
Print Assumptions C71_goal_heading_refuted.

(** ... it does for wrapped headings other than half a turn. *)
Theorem C71_goal_heading_partial :
  forall p goal, same_pose p goal -> - PI <= pth p <= PI -> - PI < pth goal < PI -> identical_poses p goal = true.
Proof. exact identical_same. Qed.
Print Assumptions C71_goal_heading_partial.

(** C72. Every pose of the motions found keeps the clearance of the validator, up to its step and the error [eps] of the clearance
    that it reads; ... *)
Theorem C72_clearance :
  forall m f field vres clearance lb ub minSafe minStep pfuel heur Rng draw goal, 0 < hp_radius m -> 0 < hp_res m -> 0 < minStep ->
  forall d eps vfuel fuel init g n st, nonexpansive d ->
  (forall q c v, world_to_cell f q true = Ok c -> inside_cell f c = true -> clearance c = Ok v -> v <= d q + eps) ->
  graph_search m f field vres (is_path_valid f clearance lb ub minSafe minStep pfuel) heur Rng draw goal vfuel fuel init g = Ok (Some n, st) ->
  exists l, search_motions (Some n) = Ok l /\ forall p a, In p l -> 0 <= a <= 1 -> minSafe - minStep - eps <= d (position (dp_at p a)).
Proof. exact motions_clearance. Qed.
Print Assumptions C72_clearance.

(** ... on an updated distance map, this is the distance to every obstacle, ... *)
Theorem C72_map_clearance :
  forall rowsN colsN top topv occ ops f, representable rowsN colsN -> priority top -> priority topv -> sized rowsN colsN occ ->
  well_used rowsN colsN false (ops ++ [GUpdateObstacles]) ->
  fr_rows f = rowsN -> fr_cols f = colsN -> 0 < fr_res f ->
  reaches top topv occ (ops ++ [GUpdateObstacles]) (fun st =>
    forall m field vres lb ub minSafe minStep pfuel heur Rng draw goal vfuel fuel init g n s,
    0 < hp_radius m -> 0 < hp_res m -> 0 < minStep ->
    graph_search m f field vres (is_path_valid f (map_clearance (g_obs st) (fr_res f)) lb ub minSafe minStep pfuel) heur Rng draw goal vfuel fuel init g = Ok (Some n, s) ->
    exists l, search_motions (Some n) = Ok l /\
    forall p a o, In p l -> 0 <= a <= 1 -> inside rowsN colsN o -> obstacle ops o ->
    minSafe - minStep - sqrt 2 * fr_res f
      - (sqrt (4 - 2 * sqrt 2) - 1) * reported_distance (fr_res f) ((rowsN - 1) * (rowsN - 1) + (colsN - 1) * (colsN - 1))
      <= distance (position (dp_at p a)) (cell_to_world f o)).
Proof. exact search_map_clearance. Qed.
Print Assumptions C72_map_clearance.

(** ... and the sampled poses (C54) are among those of the motions. *)
Theorem C72_samples : forall l d x, on_way l d x -> exists p a, In p l /\ 0 <= a <= 1 /\ x = dp_at p a.
Proof. exact on_way_motion. Qed.
Print Assumptions C72_samples.

(** C29 for the part of a rejected path that is kept: it has the clearance of an accepted one. *)
Theorem C29_truncated_clearance :
  forall f clearance lb ub minSafe minStep p fuel b r g eps, 0 < minStep -> 0 < p_length p -> unit_speed p -> nonexpansive g ->
  (forall q c d, world_to_cell f q true = Ok c -> inside_cell f c = true -> clearance c = Ok d -> d <= g q + eps) ->
  is_path_valid f clearance lb ub minSafe minStep fuel p = Ok (b, r) -> b = true \/ 0 < r ->
  forall s x, 0 <= s <= r * p_length p -> s <= p_length p -> state_at p s x -> minSafe - minStep - eps <= g (position x).
Proof. exact part_clearance. Qed.
Print Assumptions C29_truncated_clearance.
