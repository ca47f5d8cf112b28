(** A search after the map took a new size: the path goes through an obstacle. *)
From Coq Require Import Reals Lra.
From Verif Require Import Base RealBase Grid_model Grid_spec Coords_model Coords_proofs Pose_model Pose_spec Pose_proofs StateSpace_model Straight_model Straight_spec Straight_proofs
  Raster_model ObstacleMap_model Shape_model Shape_spec Gvd_model Gvd_api_proofs PathCost_model Validator_model Validator_spec Validator_proofs
  World_model World_spec World_proofs WorldClear_proofs WorldPlan_proofs WorldDemo_proofs ObstHeur_model ObstHeur_spec ObstHeur_proofs NonHol_model NonHol_proofs
  Hybrid_model Planner_model Planner_spec Planner_proofs PlannerDemo_proofs PlannerMap_proofs.
From Verif Require Gvd_spec.
From Coq Require Import ZifyBool ZifyNat ZifyN.
Local Open Scope R_scope.

(** A square with the corners [(-6, -8)] and [(-4, -6)]. *)
Definition blocking : obst := Obst (Some (Polygon (rectangle_vertices 2 2))) (Pose (-5) (-7) 0).
Definition stale_before : list call := [PValidator low20 high20; PInitialize (Some 0%nat)].
(** After [Initialize] the map takes the same size again; then the calls [ops] are made on it. *)
Definition stale_list (ops : list wop) : list call := stale_before ++ PMap (WSize 20 20) :: plan_after ++ map PMap ops.
Definition stale_calls : list call := stale_list [WAdd 0 blocking].

Lemma list_history ops : Forall calm ops \/ ops = [WAdd 0 (square 1); WUpdate] -> history (stale_list ops) = [WSize 20 20; WGvd] ++ WSize 20 20 :: ops.
Proof.
  intros H. unfold history, stale_list, stale_before, plan_after. cbn [app map_calls px py high20 low20]. replace (10 - -10) with 20 by ring. do 3 f_equal.
  destruct H as [H| ->]; [|reflexivity]. induction H as [|x l Hx Hl IH]; [reflexivity|]. destruct x; try easy; cbn [map map_calls]; now rewrite IH.
Qed.

Lemma stale_history : history stale_calls = [WSize 20 20; WGvd] ++ WSize 20 20 :: [WAdd 0 blocking].
Proof. apply list_history. left. repeat constructor. Qed.

Lemma demo20_again : fr_init demo20 20 20 = Ok demo20.
Proof. pose proof demo20_init as E. unfold fr_init in *. cbn [demo20 fr_new fr_res fr_local] in *. exact E. Qed.

Lemma blocking_cells : boundary_cells demo20 blocking = polygon_cells 20 20 [Cell 6 4; Cell 4 4; Cell 4 2; Cell 6 2].
Proof.
  unfold boundary_cells, blocking. cbn [ob_shape ob_pose shape_cells].
  assert (W : forall a b x y, x - 5 + 10 = IZR a -> y - 7 + 10 = IZR b -> (0 <= a < 20)%Z -> (0 <= b < 20)%Z ->
    world_to_cell demo20 (place (Pose (-5) (-7) 0) (x, y)) false = Ok (Cell a b)).
  { intros a b x y Hx Hy Ha Hb. unfold place, rot_x, rot_y. cbn [fst snd pth px py]. rewrite cos_0, sin_0. unfold world_to_cell, grid_to_cell. cbn [fst snd demo20 fr_world_grid fr_res].
    assert (E : forall n z, (0 <= n < 20)%Z -> z = IZR n -> cast_int z = Ok n).
    { intros n z Hn ->. apply cast_int_ok. split; [now rewrite Rtrunc_IZR|unfold is_int, int_min, int_max; lia]. }
    rewrite (E a), (E b); auto; [rewrite <- Hy|rewrite <- Hx]; field. }
  unfold rectangle_vertices. cbn [map map_res].
  rewrite (W 6%Z 4%Z), (W 4%Z 4%Z), (W 4%Z 2%Z), (W 6%Z 2%Z) by (lia || lra). reflexivity.
Qed.

Lemma stale_frames : world_frames f0 (history stale_calls) = demo20.
Proof. rewrite stale_history. unfold world_frames. cbn [app fold_left frames_after]. unfold f0. now rewrite demo20_init, demo20_again. Qed.

Lemma stale_covered c : world_covered f0 [] false (history stale_calls) c = draws demo20 blocking c.
Proof. rewrite stale_history. cbn [app world_covered frames_after registered_step in_dec]. unfold f0. rewrite demo20_init, demo20_again. apply orb_false_r. Qed.

Lemma stale_used : world_used f0 false false (history stale_calls).
Proof.
  rewrite stale_history. cbn [app world_used frames_after]. unfold f0. rewrite demo20_init, demo20_again.
  assert (Q : Gvd_spec.representable (fr_rows demo20) (fr_cols demo20)) by (unfold Gvd_spec.representable, Gvd_model.inf; cbn; lia).
  split; [exists demo20; auto|]. split; [auto|]. split; [exists demo20; auto|].
  split; [|auto]. split; [reflexivity|]. unfold drawable. rewrite blocking_cells. eexists. vm_compute. reflexivity.
Qed.

Lemma stale_kept : kept demo20 0 blocking [].
Proof. constructor. Qed.

(** The pose in the middle of the left side. *)
Lemma blocking_hit : on_obstacle blocking (position (Pose (-6) (-7) 0)) /\ off_border demo20 (position (Pose (-6) (-7) 0)).
Proof.
  split.
  - eexists. split; [reflexivity|]. cbn [on_shape]. exists (-1, 0). split.
    + exists (-1, 1), (-1, -1), (1 / 2). split; [|split; [lra|unfold along; cbn [fst snd]; f_equal; lra]].
      exists 1%nat. unfold rectangle_vertices. cbn [length nth_error Nat.modulo Nat.add]. split; [lia|]. replace (2 / 2) with 1 by field. replace (- (1)) with (-1) by lra. split; reflexivity.
    + unfold position, place, rot_x, rot_y. cbn. rewrite cos_0, sin_0. f_equal; ring.
  - unfold off_border, position. cbn. lra.
Qed.

(** ** A map with the calls [ops] after its new size *)
Lemma maps_run top topv fuel Rng draw ops : Forall (fun x => match x with WSize _ _ => False | _ => True end) ops -> forall s w, wd_run top topv fuel (sy_world s) ops = Ok w ->
  sy_run top topv fuel Rng draw s (map PMap ops) = Ok (System w (sy_validators s) (sy_planner s) (sy_rng s)).
Proof.
  induction 1 as [|x l Hx Hl IH]; intros s w E; cbn [wd_run map sy_run] in *; [injection E as <-; now destruct s|]. cbn [sy_step].
  destruct (wd_step _ _ _ _ _) as [w1| | |]; try discriminate. cbn [bind] in *. destruct x; try easy; rewrite (IH (System w1 _ _ _) w E); reflexivity.
Qed.

Section Demo.
Variables top topv : nat -> list (cell * Z) -> nat.
Hypothesis Htop : Gvd_spec.priority top.
Hypothesis Htopv : Gvd_spec.priority topv.
Variable ops : list wop.
Variable o : cell -> bool.
Hypothesis Hsz : Forall (fun x => match x with WSize _ _ => False | _ => True end) ops.
Hypothesis Hops : exists k w gm, (forall fuel, (k <= fuel)%nat -> wd_run top topv fuel (wd_new 1 (0, 0)) ([WSize 20 20; WGvd] ++ WSize 20 20 :: ops) = Ok w) /\
  wd_frames w = demo20 /\ wd_dist w = Some gm /\ answers 20 20 (om_occupied (wd_map w)) o /\
  forall c, inside 20 20 c -> exists d, squared_distance_to_obstacle (g_obs gm) c = Ok d /\ (0 <= d)%Z /\ (c = Cell 3 3 -> 72 <= d)%Z.

Lemma former_world : exists k wa wb wc gb g gm, (forall fuel, (k <= fuel)%nat ->
    wd_step top topv fuel (wd_new 1 (0, 0)) (WSize 20 20) = Ok wa /\ wd_step top topv fuel wa WGvd = Ok wb /\
    wd_run top topv fuel wb (WSize 20 20 :: ops) = Ok wc /\ g_run top topv fuel gb [GUpdateObstacles; GUpdateVoronoi] = Ok g) /\
  wd_frames wb = demo20 /\ wd_frames wc = demo20 /\ wd_dist wb = Some gb /\ wd_dist wc = Some gm /\
  answers 20 20 (om_occupied (wd_map wc)) o /\
  (forall c, inside 20 20 c -> exists d, squared_distance_to_obstacle (g_obs gm) c = Ok d /\ (0 <= d)%Z /\ (c = Cell 3 3 -> 72 <= d)%Z) /\
  (forall c, inside 20 20 c -> exists x, get_path_cost 20 30 1 g c = Ok (Some x) /\ 0 <= x <= 1).
Proof.
  destruct Hops as (k1 & wc & gm & E1 & F1 & Egm & A1 & R2).
  assert (Ub : world_used f0 false false ([WSize 20 20; WGvd] ++ [WGvdUpdate])).
  { cbn [app world_used frames_after]. unfold f0. rewrite demo20_init. split; [exists demo20; split; [reflexivity|unfold Gvd_spec.representable, Gvd_model.inf; cbn; lia]|]. auto. }
  destruct (world_costs top topv Htop Htopv 1 (0, 0) [WSize 20 20; WGvd] 20 30 ltac:(lra) ltac:(lra) ltac:(lra) Ub) as (k3 & wz & g & E3 & Eg & R3).
  fold f0 in R3. assert (Fb : world_frames f0 [WSize 20 20; WGvd] = demo20) by (unfold world_frames; cbn [fold_left frames_after]; unfold f0; now rewrite demo20_init). rewrite Fb in R3. cbn [demo20 fr_rows fr_cols] in *.
  assert (Hk : exists k, (k1 <= k /\ k3 <= k)%nat) by (exists (k1 + k3)%nat; lia). destruct Hk as (k & Hk1 & Hk3).
  assert (Steps : forall fuel, (k <= fuel)%nat -> exists wa wb gb, wd_step top topv fuel (wd_new 1 (0, 0)) (WSize 20 20) = Ok wa /\ wd_step top topv fuel wa WGvd = Ok wb /\
    wd_run top topv fuel wb (WSize 20 20 :: ops) = Ok wc /\ wd_dist wb = Some gb /\ g_run top topv fuel gb [GUpdateObstacles; GUpdateVoronoi] = Ok g /\ wd_frames wb = demo20).
  { intros fuel Hf. specialize (E3 fuel ltac:(lia)). specialize (E1 fuel ltac:(lia)). cbn [app] in *.
    change [WSize 20 20; WGvd; WGvdUpdate] with ([WSize 20 20] ++ [WGvd; WGvdUpdate]) in E3. cbn [app wd_run] in E3. cbn [wd_run] in E1.
    destruct (wd_step top topv fuel (wd_new 1 (0, 0)) (WSize 20 20)) as [wa| | |] eqn:Ea; try discriminate. cbn [bind] in *.
    destruct (wd_step top topv fuel wa WGvd) as [wb| | |] eqn:Eb; try discriminate. cbn [bind] in *.
    destruct (wd_step top topv fuel wb WGvdUpdate) as [wz'| | |] eqn:Ez; try discriminate. cbn [bind] in E3. injection E3 as ->.
    cbn [wd_step] in Ez. unfold wd_call in Ez. destruct (wd_dist wb) as [gb|] eqn:Egb; try discriminate.
    destruct (g_run top topv fuel gb _) as [g'| | |] eqn:Eg'; try discriminate. cbn [bind] in Ez. injection Ez as <-. cbn [wd_dist] in Eg. injection Eg as ->.
    exists wa, wb, gb. split; [reflexivity|]. split; [exact Eb|]. split; [exact E1|]. split; [exact Egb|]. split; [exact Eg'|].
    cbn [wd_step] in Ea, Eb. unfold wd_size in Ea. cbn [wd_new wd_frames] in Ea. rewrite demo20_init in Ea. cbn [bind] in Ea. destruct (om_init _ _ _) as [mm| | |]; try discriminate. cbn [bind] in Ea. destruct (om_matrix mm); try discriminate.
    destruct (g_new _); try discriminate. cbn [bind] in Ea. injection Ea as <-. unfold wd_call in Eb. cbn [wd_dist] in Eb. destruct (g_run _ _ _ _ _); try discriminate. cbn [bind] in Eb. now injection Eb as <-. }
  destruct (Steps k ltac:(lia)) as (wa & wb & gb & S1 & S2 & S3 & S4 & S5 & S6).
  exists k, wa, wb, wc, gb, g, gm. split; [|split; [exact S6|split; [exact F1|split; [exact S4|split; [exact Egm|split; [|split]]]]]].
  - intros fuel Hf. destruct (Steps fuel Hf) as (wa' & wb' & gb' & T1 & T2 & T3 & T4 & T5 & _).
    assert (wa' = wa) as -> by (cbn [wd_step] in S1, T1; congruence).
    assert (wb' = wb) as ->. { pose proof (wd_run_more top topv k fuel [WGvd] Hf wa wb) as M. cbn [wd_run] in M. rewrite S2, T2 in M. cbn [bind] in M. specialize (M eq_refl). congruence. }
    assert (gb' = gb) as -> by congruence. auto.
  - exact A1.
  - exact R2.
  - intros c Hc. destruct (R3 c Hc) as (x & H1 & H2 & _). eauto.
Qed.

Lemma former_planned : exists k, forall fuel, (k <= fuel)%nat ->
  exists s s', sy_run top topv fuel unit plan_draw (sy_new unit 1 (0, 0) plan_params tt) (stale_list ops) = Ok s /\
  sy_search top topv fuel unit plan_draw s = Ok (s', true) /\ pl_path (sy_planner s') = plan_path /\ sy_validators s = [Checker low20 high20 (69 / 10) (1 / 10)] /\
  pl_step (sy_planner s) = 1 / 2.
Proof.
  destruct former_world as (k & wa & wb & wc & gb & g & gm & E & Fb & Fc & Egb & Egm & A & Hd & Hc).
  assert (Hk : exists n, (k <= n /\ 500 <= n)%nat) by (exists (k + 500)%nat; lia). destruct Hk as (n & Hn1 & Hn2). exists n. intros fuel Hf. destruct (E fuel ltac:(lia)) as (Ea & Eb & Ec & Eg). assert (Hfuel : (500 <= fuel)%nat) by lia.
  cbn [wd_run] in Ec. destruct (wd_step top topv fuel wb (WSize 20 20)) as [wd| | |] eqn:Ed; try discriminate. cbn [bind] in Ec.
  destruct (plan_obst _ _ A fuel Hfuel) as (o0 & o1 & Eo0 & Eo1 & Ho & Hgoal).
  destruct (plan_search gm g Hd Hc fuel Hfuel o1 Ho Hgoal) as (st & a & c & fc & Es & Ep).
  eexists. eexists. split.
  { unfold stale_list, stale_before, plan_after. cbn [app Planner_model.sy_run Planner_model.sy_step]. unfold sy_validator. cbn [high20 low20 px py sy_new sy_world]. replace (10 - -10) with 20 by ring.
    change (wd_size (wd_new 1 (0, 0)) 20 20) with (wd_step top topv fuel (wd_new 1 (0, 0)) (WSize 20 20)). rewrite Ea. cbn [bind sy_world]. unfold sy_initialize. cbn [sy_validators sy_planner sy_world app sy_new detach pl_new pl_parts pl_params vget nth_error bind].
    rewrite Eb. cbn [bind va_lower va_upper plan_params hp_res hp_ang hp_radius hp_reverse hp_forward hp_switching]. fold low20 high20. rewrite plan_table. cbn [bind]. rewrite Fb. cbn [demo20 fr_rows fr_cols]. rewrite Eo0. cbn [bind rmap fst Planner_model.sy_run Planner_model.sy_step sy_world].
    rewrite Ed. cbn [bind sy_planner detach pl_parts]. unfold detach. cbn [pl_parts]. rewrite Egb. cbn [sy_world]. unfold change_validator, vset, vget. cbn [sy_validators nth_error bind va_lower va_upper va_step length Nat.ltb Nat.leb firstn skipn app sy_world sy_planner sy_rng].
    apply maps_run; [exact Hsz|]. cbn [with_planner sy_world]. exact Ec. }
  cbn [sy_planner with_planner pl_init pl_goal pl_step sy_validators].
  split; [|split; [|auto 10]].
  { unfold sy_search. cbn [sy_planner with_planner pl_ready negb pl_parts sy_validators vget nth_error bind sy_world pl_goal pl_init pl_step pl_smoothing sy_validators nth_error pl_path sy_rng va_lower va_upper va_safe va_step pl_params].
    rewrite Fc. assert (C : world_to_cell demo20 (position plan_goal) true = Ok (Cell 4 3)) by (unfold plan_goal, position; cbn [px py]; apply demo20_cell; first [lia|lra]). rewrite C. cbn [bind demo20 fr_rows fr_cols fr_res]. fold demo20. rewrite Eo1. cbn [bind].
    cbn [update_diagram]. rewrite Eg. cbn [bind]. rewrite Egm.
    match goal with |- bind ?a _ = _ => pose proof (Es : a = _) as X; rewrite X; clear X end. cbn [bind]. rewrite Ep. cbn [bind].
    match goal with |- bind ?a _ = _ => pose proof (plan_result gm g Hd fuel Hfuel _ _ _ _ _ : a = _) as X; rewrite X; clear X end. cbn [bind]. reflexivity. }
  reflexivity.
Qed.
End Demo.

Section Both.
Variables top topv : nat -> list (cell * Z) -> nat.
Hypothesis Htop : Gvd_spec.priority top.
Hypothesis Htopv : Gvd_spec.priority topv.

(** Without an update: ... *)
Lemma stale_planned : exists k, forall fuel, (k <= fuel)%nat ->
  exists s s', sy_run top topv fuel unit plan_draw (sy_new unit 1 (0, 0) plan_params tt) stale_calls = Ok s /\
  sy_search top topv fuel unit plan_draw s = Ok (s', true) /\ pl_path (sy_planner s') = plan_path /\ sy_validators s = [Checker low20 high20 (69 / 10) (1 / 10)] /\
  pl_step (sy_planner s) = 1 / 2.
Proof.
  apply (former_planned top topv Htop Htopv [WAdd 0 blocking] (draws demo20 blocking)); [repeat constructor|].
  pose proof stale_used as U. destruct (world_agrees top topv Htop Htopv 1 (0, 0) (history stale_calls) U) as (k1 & wc & gm & E1 & Egm & F1 & A1). { rewrite stale_history. now left. }
  rewrite stale_history in U. destruct (world_stale top topv Htop Htopv 1 (0, 0) [WSize 20 20; WGvd] 20 20 [WAdd 0 blocking] ltac:(repeat constructor) U) as (k2 & wc' & gm' & E2 & Egm' & R2).
  rewrite <- stale_history in E2, R2. assert (wc' = wc) as -> by (specialize (E1 (k1 + k2)%nat ltac:(lia)); specialize (E2 (k1 + k2)%nat ltac:(lia)); congruence). assert (gm' = gm) as -> by congruence.
  fold f0 in F1, A1, R2. rewrite stale_frames in F1. rewrite F1 in A1, R2. cbn [demo20 fr_rows fr_cols] in *.
  exists k2, wc, gm. split; [rewrite <- stale_history; exact E2|]. split; [exact F1|]. split; [exact Egm|]. split.
  - intros c Hc. rewrite (proj1 (A1 c Hc)). f_equal. apply stale_covered.
  - intros c Hc. eexists. split; [apply R2; exact Hc|]. rewrite stale_covered. split; [destruct (draws _ _ _); unfold inf; lia|]. intros ->.
    assert (draws demo20 blocking (Cell 3 3) = false) as ->; [|unfold inf; lia]. unfold draws. rewrite blocking_cells. vm_compute. reflexivity.
Qed.

(** ... and with one. *)
Definition fresh_ops : list wop := [WAdd 0 (square 1); WUpdate].
Lemma fresh_history : history (stale_list [WAdd 0 (square 1)]) = [WSize 20 20; WGvd; WSize 20 20; WAdd 0 (square 1)].
Proof. apply list_history. left. repeat constructor. Qed.
Lemma fresh_used l : Forall (fun x => x = WUpdate) l -> world_used f0 false false (history (stale_list [WAdd 0 (square 1)]) ++ l).
Proof.
  intros Hl. rewrite fresh_history. cbn [app world_used frames_after]. unfold f0. rewrite demo20_init, demo20_again.
  assert (Q : Gvd_spec.representable (fr_rows demo20) (fr_cols demo20)) by (unfold Gvd_spec.representable, Gvd_model.inf; cbn; lia).
  split; [exists demo20; auto|]. split; [auto|]. split; [exists demo20; auto|].
  split; [split; [reflexivity|]; unfold drawable; rewrite square_cells by lia; eexists; vm_compute; reflexivity|].
  induction Hl as [|x l -> _ IH]; [exact I|]. split; [reflexivity|exact IH].
Qed.
Lemma fresh_frames : world_frames f0 (history (stale_list [WAdd 0 (square 1)])) = demo20.
Proof. rewrite fresh_history. unfold world_frames. cbn [app fold_left frames_after]. unfold f0. now rewrite demo20_init, demo20_again. Qed.
Lemma fresh_covered c : world_covered f0 [] false (history (stale_list [WAdd 0 (square 1)])) c = draws demo20 (square 1) c.
Proof. rewrite fresh_history. cbn [app world_covered frames_after registered_step in_dec]. unfold f0. rewrite demo20_init, demo20_again. apply orb_false_r. Qed.

Lemma fresh_planned : exists k, forall fuel, (k <= fuel)%nat ->
  exists s s', sy_run top topv fuel unit plan_draw (sy_new unit 1 (0, 0) plan_params tt) (stale_list fresh_ops) = Ok s /\
  sy_search top topv fuel unit plan_draw s = Ok (s', true) /\ pl_path (sy_planner s') = plan_path /\ sy_validators s = [Checker low20 high20 (69 / 10) (1 / 10)] /\
  pl_step (sy_planner s) = 1 / 2.
Proof.
  apply (former_planned top topv Htop Htopv fresh_ops (draws demo20 (square 1))); [repeat constructor|].
  destruct (world_agrees top topv Htop Htopv 1 (0, 0) (history (stale_list [WAdd 0 (square 1)]) ++ [WUpdate])) as (k1 & w & gm & E1 & Egm & F1 & A1).
  { apply fresh_used. repeat constructor. } { rewrite fresh_history. now left. }
  destruct (world_reports top topv 1 (0, 0) (history (stale_list [WAdd 0 (square 1)])) WUpdate Htop Htopv (fresh_used [WUpdate] ltac:(repeat constructor))) as (k2 & w2 & g2 & E2 & Eg2 & F2 & R2).
  { now left. } { rewrite fresh_history. intros o x H. cbn in H. intuition discriminate. }
  { fold f0. rewrite fresh_frames. exists (Cell 9 9). rewrite fresh_covered. split; [unfold inside; cbn; lia|]. unfold draws. rewrite square_cells by lia. vm_compute. reflexivity. }
  assert (w2 = w) as -> by (specialize (E1 (k1 + k2)%nat ltac:(lia)); specialize (E2 (k1 + k2)%nat ltac:(lia)); congruence). assert (g2 = gm) as -> by congruence.
  fold f0 in F2, R2, A1. rewrite fresh_frames in F2, R2. rewrite F2 in A1. cbn [demo20 fr_rows fr_cols] in *.
  exists k2, w, gm. split; [rewrite fresh_history in E2; exact E2|]. split; [exact F2|]. split; [exact Egm|]. split.
  - intros c Hc. rewrite (proj1 (A1 c Hc)). f_equal. rewrite world_covered_app. cbn [world_covered]. apply fresh_covered.
  - intros c Hc. destruct (R2 c Hc) as (o & _ & Co & _ & ->). eexists. split; [reflexivity|]. split; [unfold Gvd_spec.sqd; apply Z.add_nonneg_nonneg; apply Z.square_nonneg|]. intros ->. rewrite fresh_covered in Co. apply (demo_far 1 (Cell 3 3) 72 o); auto.
Qed.
End Both.
