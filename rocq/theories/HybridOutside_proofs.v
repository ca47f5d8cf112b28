(** Hybrid A* on a map that ends where the state space does: the Voronoi cost of a valid motion is read outside the map. *)
From Coq Require Import Reals Lra.
From Verif Require Import Base RealBase Grid_model Coords_model Coords_proofs Pose_model Pose_spec Pose_proofs Straight_model StateSpace_model StateSpace_proofs Bicycle_model Bicycle_spec Bicycle_proofs
  Composite_model Rs_model Validator_model Frontier_model Frontier_spec AStar_model Hybrid_model Hybrid_spec HybridCell_proofs HybridDemo_proofs HybridDefined_spec HybridDefined_proofs.
From Coq Require Import ZifyBool ZifyNat ZifyN.
Local Open Scope R_scope.

Definition out_lb : pose := Pose 0 0 (- PI).
Definition out_ub : pose := Pose (999 / 100) (999 / 100) PI.
Definition out_clear (c : cell) : res R := if inside_cell demo_frames c then Ok (19 / 10) else UB.
Definition out_field (c : cell) : res (option R) := if inside_cell demo_frames c then Ok (Some 0) else UB.
Definition out_init : pose := Pose (859 / 100) 5 0.
Definition out_goal : pose := Pose 5 5 0.

Lemma demo_world x y a b : cast_int x = Ok a -> cast_int y = Ok b -> world_to_cell demo_frames (x, y) false = Ok (Cell a b).
Proof.
  intros Ha Hb. unfold world_to_cell, grid_to_cell. cbn [demo_frames fr_world_grid fr_res fst snd]. replace ((x - 0) / 1) with x by field. replace ((y - 0) / 1) with y by field.
  rewrite Ha, Hb. reflexivity.
Qed.

Lemma cast_inside x : 0 <= x < 10 -> exists n, cast_int x = Ok n /\ (0 <= n < 10)%Z.
Proof.
  intros H. exists (Rtrunc x). destruct (Rtrunc_spec x) as [(A & B & C)|(A & B & C)]; [|exfalso; lra].
  assert (Rtrunc x < 10)%Z by (apply lt_IZR; lra). split; [|lia]. apply cast_int_ok. split; auto. unfold is_int, int_min, int_max. lia.
Qed.

Lemma demo_inside x y : 0 <= x < 10 -> 0 <= y < 10 -> exists c, world_to_cell demo_frames (x, y) false = Ok c /\ inside_cell demo_frames c = true.
Proof.
  intros Hx Hy. destruct (cast_inside x Hx) as (a & Ea & Ia). destruct (cast_inside y Hy) as (b & Eb & Ib). exists (Cell a b). split; [now apply demo_world|].
  unfold inside_cell. cbn [row col demo_frames fr_rows fr_cols]. lia.
Qed.

Lemma cast_def x : - 1000 <= x <= 1000 -> exists n, cast_int x = Ok n.
Proof.
  intros H. exists (Rtrunc x). apply cast_int_ok. split; auto. assert (- 1001 < IZR (Rtrunc x) < 1001) as [A B] by (destruct (Rtrunc_spec x) as [(A & B & C)|(A & B & C)]; lra).
  apply lt_IZR in A, B. unfold is_int, int_min, int_max. lia.
Qed.

Lemma demo_discretize p : - 1000 <= px p <= 1000 -> - 1000 <= py p <= 1000 -> exists c, discretize demo_params p = Ok c.
Proof.
  intros X Y. unfold discretize. cbn [demo_params hp_res hp_ang]. unfold Rdiv. rewrite Rinv_1, !Rmult_1_r. destruct (cast_def _ X) as [a ->]. destruct (cast_def _ Y) as [b ->]. cbn [bind].
  destruct (cast_def (wrap_theta (pth p))) as [c ->]; [|cbn [bind]; eauto]. pose proof (wrap_range (pth p)). pose proof PI_bounds. lra.
Qed.

Lemma out_prepared : prepared demo_params demo_frames out_field 1 out_clear out_lb out_ub (1 / 10) demo_heur 0.
Proof.
  split; cbn [demo_params hp_radius hp_res]; try lra; try reflexivity.
  - intros [x y] [X Y]. cbn [out_lb out_ub px py fst snd] in X, Y. apply demo_inside; lra.
  - intros c I. unfold out_clear. rewrite I. eauto.
  - intros c I. unfold out_field. rewrite I. eauto.
  - intros p _. unfold demo_heur. eauto.
  - intros p [X Y]. cbn [out_lb out_ub px py position fst snd] in X, Y. apply demo_discretize; lra.
Qed.

(** The same map with bounds that leave a margin. *)
Definition in_lb : pose := Pose 1 1 (- PI).
Definition in_ub : pose := Pose 9 9 PI.
Lemma in_prepared : prepared demo_params demo_frames out_field 1 out_clear in_lb in_ub (1 / 10) demo_heur (1 / 10).
Proof.
  split; cbn [demo_params hp_radius hp_res]; try lra; try reflexivity.
  - intros [x y] [X Y]. cbn [in_lb in_ub px py fst snd] in X, Y. apply demo_inside; lra.
  - intros c I. unfold out_clear. rewrite I. eauto.
  - intros c I. unfold out_field. rewrite I. eauto.
  - intros p _. unfold demo_heur. eauto.
  - intros p [X Y]. cbn [in_lb in_ub px py position fst snd] in X, Y. apply demo_discretize; lra.
Qed.

(** Driving straight ahead. *)
Lemma out_straight d : constant_steer (hp_model demo_params) out_init 0 d Forward = Pose (859 / 100 + d) 5 0.
Proof.
  assert (B : beta (hp_model demo_params) 0 = 0) by (unfold beta; cbn [hp_model demo_params rear_to_center]; unfold Rdiv; rewrite !Rmult_0_l; apply atan_0).
  assert (D : dtheta_ddist (hp_model demo_params) 0 = 0) by (unfold dtheta_ddist; rewrite tan_0; unfold Rdiv; ring).
  unfold constant_steer. rewrite B, D, Rabs_R0, cos_0. cbn [out_init px py pth]. destruct (Rltb_spec (1 / 1000000000) 0); [exfalso; lra|].
  rewrite ?Rplus_0_l, cos_0, sin_0. f_equal; field.
Qed.


Lemma out_valid x y : 0 <= x <= 999 / 100 -> 0 <= y <= 999 / 100 -> is_state_valid demo_frames out_clear out_lb out_ub (1 / 2) (Pose x y 0) = Ok true.
Proof.
  intros Hx Hy. destruct (demo_inside x y) as (c & E & I); [lra..|]. unfold is_state_valid. change (position (Pose x y 0)) with (x, y). cbn [pth]. rewrite (cell_bounded _ _ _ E I). cbn [bind]. rewrite I.
  unfold world_to_local, psub. cbn [demo_frames fr_local fst snd]. pose proof PI_bounds.
  assert (V : se2_validate out_lb out_ub (mk_pose (x - 0) (y - 0) 0) = true).
  { apply se2_validate_iff. unfold mk_pose. rewrite wrap_keep by lra. cbn [out_lb out_ub px py pth]. lra. }
  rewrite V. cbn [negb orb]. unfold out_clear. rewrite I. cbn [bind]. destruct (Rleb_spec (1 / 2) (19 / 10)); [reflexivity|exfalso; lra].
Qed.

Lemma out_step x : 0 <= x <= 999 / 100 -> step_length demo_frames out_clear out_lb out_ub (1 / 2) (1 / 10) (Pose x 5 0) =
  Ok (Rmax (Rmin (7 / 5) (Rmin (Rmin (Rmin x (999 / 100 - x)) 5) (499 / 100))) (1 / 10)).
Proof.
  intros Hx. destruct (demo_inside x 5) as (c & E & I); [lra..|]. unfold step_length. change (position (Pose x 5 0)) with (x, 5). cbn [px py]. rewrite (cell_bounded _ _ _ E I). cbn [bind]. unfold out_clear. rewrite I. cbn [bind out_lb out_ub px py].
  replace (19 / 10 - 1 / 2) with (7 / 5) by lra. replace (x - 0) with x by ring. replace (5 - 0) with 5 by ring. replace (999 / 100 - 5) with (499 / 100) by lra. reflexivity.
Qed.

Notation out_path := (c_new (hp_model demo_params) out_init 0 (1 * (3 / 2)) Forward).

Lemma out_accepted i : (2 <= i)%nat -> is_path_valid demo_frames out_clear out_lb out_ub (1 / 2) (1 / 10) i (as_path (Steered out_path)) = Ok (true, 1).
Proof.
  intros Hi. destruct i as [|[|k]]; [lia..|]. unfold is_path_valid. cbn [as_path p_length dp_length c_length c_new]. destruct (Reqb_spec (1 * (3 / 2)) 0); [exfalso; lra|].
  cbn [validate_loop as_path p_length p_at dp_length dp_at c_length c_new bind]. destruct (Rltb_spec 0 (1 * (3 / 2))); [|exfalso; lra].
  unfold c_at. cbn [c_model c_init c_steering c_length c_direction c_new]. rewrite !out_straight. replace (859 / 100 + 1 * (3 / 2) * (0 / (1 * (3 / 2)))) with (859 / 100) by (field; lra).
  rewrite out_valid by lra. cbn [bind negb]. rewrite out_step by lra. cbn [bind].
  assert (Rmax (Rmin (7 / 5) (Rmin (Rmin (Rmin (859 / 100) (999 / 100 - 859 / 100)) 5) (499 / 100))) (1 / 10) = 7 / 5) as ->.
  { replace (999 / 100 - 859 / 100) with (7 / 5) by lra. rewrite (Rmin_right (859 / 100) (7 / 5)), (Rmin_left (7 / 5) 5), (Rmin_left (7 / 5) (499 / 100)), (Rmin_left (7 / 5) (7 / 5)), Rmax_left; lra. }
  destruct (Rltb_spec (0 + 7 / 5) (1 * (3 / 2))); [|exfalso; lra]. rewrite out_straight. replace (859 / 100 + 1 * (3 / 2) * ((0 + 7 / 5) / (1 * (3 / 2)))) with (999 / 100) by field.
  rewrite out_valid by lra. cbn [bind negb]. rewrite out_step by lra. cbn [bind].
  assert (Rmax (Rmin (7 / 5) (Rmin (Rmin (Rmin (999 / 100) (999 / 100 - 999 / 100)) 5) (499 / 100))) (1 / 10) = 1 / 10) as ->.
  { replace (999 / 100 - 999 / 100) with 0 by lra. rewrite (Rmin_right (999 / 100) 0), (Rmin_left 0 5), (Rmin_left 0 (499 / 100)), (Rmin_right (7 / 5) 0), Rmax_right; lra. }
  destruct k; cbn [validate_loop as_path p_length dp_length c_length c_new]; (destruct (Rltb_spec (0 + 7 / 5 + 1 / 10) (1 * (3 / 2))); [exfalso; lra|reflexivity]).
Qed.

Lemma sqrt2_range : 141 / 100 <= sqrt 2 <= 142 / 100.
Proof.
  split; [rewrite <- (sqrt_Rsqr (141 / 100)) by lra|rewrite <- (sqrt_Rsqr (142 / 100)) by lra]; apply sqrt_le_1_alt; unfold Rsqr; lra.
Qed.

(** The second sample of the Voronoi cost is outside the map. *)
Lemma out_voronoi j : (2 <= j)%nat -> voronoi_cost demo_params demo_frames out_field 1 j (Steered out_path) = UB.
Proof.
  intros Hj. destruct j as [|[|k]]; [lia..|]. pose proof sqrt2_range as [A B]. unfold voronoi_cost. cbn [voronoi_loop as_path p_length p_at dp_length dp_at c_length c_new bind].
  destruct (Rltb_spec 0 (1 * (3 / 2))); [|exfalso; lra]. unfold c_at. cbn [c_model c_init c_steering c_length c_direction c_new]. rewrite out_straight.
  replace (859 / 100 + 1 * (3 / 2) * (0 / (1 * (3 / 2)))) with (859 / 100) by field. change (position (Pose (859 / 100) 5 0)) with (859 / 100, 5). destruct (demo_inside (859 / 100) 5) as (c & E & I); [lra..|]. rewrite E. cbn [bind]. unfold out_field at 1. rewrite I. cbn [bind].
  destruct (Rltb_spec (0 + 1 * sqrt 2) (1 * (3 / 2))); [|exfalso; lra]. rewrite out_straight.
  replace (859 / 100 + 1 * (3 / 2) * ((0 + 1 * sqrt 2) / (1 * (3 / 2)))) with (859 / 100 + sqrt 2) by field. change (position (Pose (859 / 100 + sqrt 2) 5 0)) with (859 / 100 + sqrt 2, 5).
  rewrite (demo_world (859 / 100 + sqrt 2) 5 10 5); [|apply cast_near; [unfold is_int, int_min, int_max; lia|left; lra]..]. cbn [bind]. reflexivity.
Qed.

Lemma out_child i j c : (2 <= i)%nat -> (2 <= j)%nat ->
  steer_child demo_params demo_frames out_field 1 (is_path_valid demo_frames out_clear out_lb out_ub (1 / 2) (1 / 10) i) j (HState NoMotion c out_init) 0 Forward = UB.
Proof.
  intros Hi Hj. unfold steer_child. cbn [hs_pose]. change (hp_res demo_params) with 1. unfold state_of_path. cbn [dp_final c_final c_new]. rewrite out_straight.
  destruct (demo_discretize (Pose (859 / 100 + 1 * (3 / 2) * 1) 5 0)) as [c' ->]; [cbn [px py]; lra..|]. cbn [bind].
  fold (c_new (hp_model demo_params) out_init 0 (1 * (3 / 2)) Forward). rewrite out_accepted by auto. cbn [bind]. unfold steer_cost. rewrite out_voronoi by auto. reflexivity.
Qed.

Lemma out_search i j n : (2 <= i)%nat -> (2 <= j)%nat -> (2 <= n)%nat ->
  graph_search demo_params demo_frames out_field 1 (is_path_valid demo_frames out_clear out_lb out_ub (1 / 2) (1 / 10) i) demo_heur unit demo_draw out_goal j n out_init tt = UB.
Proof.
  intros Hi Hj Hn. destruct n as [|[|n]]; [lia..|]. unfold graph_search, state_of_pose. destruct (demo_discretize out_init) as [c0 ->]; [cbn [out_init px py]; lra..|]. destruct (demo_discretize out_goal) as [c1 ->]; [cbn [out_goal px py]; lra..|].
  cbn [bind]. unfold search_path. set (r := HState NoMotion c0 out_init).
  change (init_search hs_eqb x_ltb (Some 0) r (Ok tt)) with (Ok (Search (Frontier [Root r] [Root r]) [@Root hstate drive_path xreal r] (Ok tt) [])). cbn [bind].
  set (hv := h_value _). set (su := h_succ _ _ _ _ _ _ _ _ _ _). set (so := h_solution _). set (gu := h_guard).
  assert (S0 : so r = false).
  { unfold so, h_solution, identical_poses, r. cbn [hs_pose]. assert (359 / 100 <= pnorm (psub (position out_init) (position out_goal))) as L.
    { unfold position, out_init, out_goal, psub, pnorm. cbn [fst snd px py]. rewrite <- (sqrt_Rsqr (359 / 100)) by lra. apply sqrt_le_1_alt. unfold Rsqr. lra. }
    destruct (Rltb_spec (pnorm (psub (position out_init) (position out_goal))) (1 / 1000)); [exfalso; lra|reflexivity]. }
  assert (Es : su (Ok tt) r = ([], UB)).
  { unfold su, h_succ, neighbors. change (deltas demo_params) with [0]. cbn [steer_children]. unfold r. rewrite out_child by auto. reflexivity. }
  assert (E0 : ipose_eqb c0 c0 = true) by (now apply Hybrid_proofs.ipose_eqb_eq).
  cbn [search_loop st_front f_is_empty vec f_pop]. unfold f_is_empty, f_pop. cbn [vec]. clearbody so su hv gu.
  cbn -[ipose_eqb]. rewrite S0. unfold expand. cbn [st_prop n_state]. rewrite Es. cbn -[ipose_eqb]. unfold n_eq, hs_eqb, r. cbn [n_state hs_cell]. rewrite ?E0. cbn [bind]. reflexivity.
Qed.
