(** A planner that finds a path on a map with an obstacle. *)
From Coq Require Import Reals Lra.
From Verif Require Import Base RealBase Grid_model Grid_spec Coords_model Coords_proofs Pose_model Pose_spec Pose_proofs StateSpace_model Straight_model Straight_spec Straight_proofs
  Bicycle_model Bicycle_spec Bicycle_proofs ObstacleMap_model Shape_model Shape_spec Gvd_model Gvd_api_proofs PathCost_model Validator_model Validator_spec Validator_proofs
  World_model World_spec World_proofs WorldClear_proofs WorldPlan_proofs WorldDemo_proofs ObstHeur_model ObstHeur_spec ObstHeur_proofs Rs_model NonHol_model NonHol_spec NonHol_proofs
  Smoother_model SmootherGrad_model Frontier_model AStar_model Composite_model Hybrid_model Hybrid_spec Hybrid_proofs HybridCell_proofs HybridDemo_proofs
  Planner_model Planner_spec Planner_proofs.
From Verif Require Gvd_spec Rs_spec.
From Coq Require Import ZifyBool ZifyNat ZifyN.
Local Open Scope R_scope.

(** * Path costs of a map *)
Section Costs.
Variables top topv : nat -> list (cell * Z) -> nat.
Hypothesis Htop : Gvd_spec.priority top.
Hypothesis Htopv : Gvd_spec.priority topv.

Lemma calls_edge f reg x m : existsb Gvd_spec.is_edge (calls f reg x m) = false.
Proof.
  assert (K : forall (h : cell -> gop) l, (forall c, Gvd_spec.is_edge (h c) = false) -> existsb Gvd_spec.is_edge (map h l ++ occ_change m) = false).
  { intros h l H. unfold occ_change. induction l as [|c l IH]; cbn; [destruct (om_matrix m); reflexivity|]. now rewrite H. }
  destruct x; try reflexivity; cbn [calls]; destruct (in_dec _ _ _); auto; destruct (boundary_cells f x); auto; apply K; reflexivity.
Qed.

Lemma wd_run_edges ops : forall w f reg sized made cov gops, winv top topv w f reg sized made cov gops -> world_used f sized made ops -> existsb Gvd_spec.is_edge gops = false ->
  exists k w' gops', (forall fuel, (k <= fuel)%nat -> wd_run top topv fuel w ops = Ok w') /\
    winv top topv w' (world_frames f ops) (world_registered reg ops) (fold_left sized_step ops sized) (fold_left made_step ops made)
      (fun c => world_covered f reg (cov c) ops c) gops' /\ existsb Gvd_spec.is_edge gops' = false.
Proof.
  induction ops as [|x ops IH]; intros w f reg sized made cov gops W U N.
  - exists O, w, gops. split; [reflexivity|]. split; [exact W|auto].
  - destruct U as [U1 U2]. destruct (wd_step_ok top topv Htop Htopv w f reg sized made cov gops x W (conj U1 I)) as (k1 & w1 & m & E1 & W1).
    assert (N1 : existsb Gvd_spec.is_edge (match x with WSize _ _ => [] | _ => gops ++ calls f reg x m end) = false).
    { assert (existsb Gvd_spec.is_edge (gops ++ calls f reg x m) = false) by (rewrite existsb_app, N; apply calls_edge). destruct x; auto. }
    destruct (IH _ _ _ _ _ _ _ W1 U2 N1) as (k2 & w2 & gops2 & E2 & W2 & T2). exists (Nat.max k1 k2), w2, gops2. split; [|split; auto].
    intros fuel Hf. cbn [wd_run]. rewrite E1 by lia. cbn [bind]. apply E2. lia.
Qed.

Lemma world_used_app last ops : forall f s m, world_used f s m (ops ++ [last]) -> world_used f s m ops /\
    world_used (world_frames f ops) (fold_left sized_step ops s) (fold_left made_step ops m) [last].
Proof.
  induction ops as [|x ops IH]; intros f s m H; [split; [exact I|exact H]|]. destruct H as [A B]. apply IH in B as [B C].
  split; [split; auto|]. exact C.
Qed.

(** After an update of the diagram, the path cost of every cell is between 0 and 1. *)
Lemma world_costs resolution junk ops alpha dMax : 0 < resolution -> 0 < alpha -> 0 < dMax ->
  world_used (fr_new resolution junk) false false (ops ++ [WGvdUpdate]) ->
  let f := world_frames (fr_new resolution junk) ops in
  exists k w g, (forall fuel, (k <= fuel)%nat -> wd_run top topv fuel (wd_new resolution junk) (ops ++ [WGvdUpdate]) = Ok w) /\ wd_dist w = Some g /\
  forall c, inside (fr_rows f) (fr_cols f) c -> exists x, get_path_cost alpha dMax resolution g c = Ok (Some x) /\ 0 <= x <= 1 /\
    (world_covered (fr_new resolution junk) [] false ops c = true -> x = 1).
Proof.
  intros Hr Ha Hm U f. destruct (world_used_app _ _ _ _ _ U) as [U1 U2].
  destruct (wd_run_edges ops _ _ _ _ _ _ _ (winv_new top topv resolution junk) U1 eq_refl) as (k & w & gops & E & W & T).
  assert (Hs : fold_left sized_step ops false = true) by (cbn in U2; intuition). rewrite Hs in *.
  pose proof W as [_ _ _ (_ & _ & _ & _ & D5 & _)].
  destruct (wd_step_ok top topv Htop Htopv _ _ _ _ _ _ _ WGvdUpdate W U2) as (k' & w' & m' & E' & W').
  exists (Nat.max k k'), w'. destruct W' as [_ _ _ (D1 & _ & D3 & _ & _ & _ & occ & g0 & g & k0 & G1 & G2 & G3 & G4)]. exists g. split; [|split; [exact G1|]].
  { intros fuel Hf. rewrite wd_run_app, E by lia. cbn [bind wd_run]. rewrite E' by lia. reflexivity. }
  cbn [calls frames_after] in *. fold f in D1, D3, D5, G2.
  destruct (api_costs _ _ D1 top topv Htop Htopv occ G2 gops alpha dMax resolution Ha Hm Hr D3 T) as (k1 & st0 & st & F0 & F & P).
  assert (st0 = g0) as -> by congruence. specialize (F (Nat.max k0 k1) ltac:(lia)). rewrite G4 in F by lia. assert (st = g) as -> by congruence.
  intros c Hc. destruct (P c Hc) as (x & P1 & P2 & _ & _ & P3). exists x. split; auto. split; auto. intros Hcov. apply P3. unfold Gvd_spec.obstacle. now rewrite <- D5.
Qed.
End Costs.

(** * A search with two neighbours *)
Lemma two_neighbors (S A P : Type) eqs h succ issol guard fuel (r a b : S) (pa pb : A) ca cb (p p' : P) :
  succ p r = ([(a, pa, ca); (b, pb, cb)], p') -> issol r = false -> issol a = true ->
  eqs r a = false -> eqs r b = false -> eqs b a = false -> eqs a a = true -> eqs r r = true ->
  x_ltb (x_add (x_add (Some 0) ca) (h a)) (x_add (x_add (Some 0) cb) (h b)) = true ->
  exists st, search_path eqs x_ltb x_add (Some 0) h succ issol guard true (2 + fuel) r p =
    Ok (Some (Child a pa (x_add (Some 0) ca) (x_add (x_add (Some 0) ca) (h a)) (Root r)), st) /\ st_prop st = p'.
Proof.
  intros E1 Sr Sa Era Erb Eba Eaa Err L. unfold search_path, init_search, f_push, f_empty, set_find. cbn -[x_add x_ltb]. rewrite Sr. unfold expand. cbn [st_prop n_state]. rewrite E1.
  set (ga := x_add (Some 0) ca) in *. set (gb := x_add (Some 0) cb) in *. set (fa := x_add ga (h a)) in *. set (fb := x_add gb (h b)) in *.
  assert (Rr : @n_eq S A xreal eqs (Root r) (Root r) = true) by exact Err.
  cbn -[x_add x_ltb n_eq]. fold ga gb fa fb. unfold e_insert, e_contains. cbn -[x_add x_ltb n_eq]. rewrite Rr. cbn -[x_add x_ltb n_eq].
  unfold e_contains. cbn -[x_add x_ltb n_eq]. unfold n_eq at 1 2. cbn [n_state]. rewrite Era. cbn -[x_add x_ltb n_eq].
  unfold f_find, set_find, f_push. cbn -[x_add x_ltb n_eq]. unfold n_eq at 1. cbn [n_state]. rewrite Eba. unfold n_eq at 1. cbn [n_state]. rewrite Erb.
  unfold f_push, set_find. cbn -[x_add x_ltb n_eq n_cmp]. unfold n_eq at 1. cbn [n_state]. rewrite Eba. cbn -[x_add x_ltb n_eq n_cmp].
  unfold n_cmp at 1. cbn [n_f]. rewrite L. cbn -[x_add x_ltb n_eq n_cmp]. rewrite Sa. cbn [bind]. eexists. split; reflexivity.
Qed.

(** * The map *)
Definition plan_params : params := Params 1 1 0 10 10 1 1 1 (PI / 2).
Definition plan_init : pose := Pose (-7) (-7) 0.
Definition plan_goal : pose := Pose (-11 / 2) (-7) 0.
Definition plan_draw (u : unit) : R * unit := (1, tt).
(** A validator, a square obstacle, [Initialize], and the two poses. *)
Definition plan_before : list call := [PValidator low20 high20; PMap (WAdd 0 (square 1))].
Definition plan_after : list call := [PSafe 0 (69 / 10); PInit plan_init; PGoal plan_goal; PInterpolation (1 / 2)].
Definition plan_calls : list call := plan_before ++ PInitialize (Some 0%nat) :: plan_after.

Lemma plan_history : history plan_calls = [WSize 20 20; WAdd 0 (square 1); WGvd].
Proof. unfold history, plan_calls, plan_before, plan_after. cbn [app map_calls px py high20 low20]. replace (10 - -10) with 20 by ring. reflexivity. Qed.

Lemma plan_used : world_used f0 false false (history plan_calls ++ [WGvdUpdate]).
Proof.
  rewrite plan_history. cbn [app world_used frames_after]. unfold f0. rewrite demo20_init. split; [|split; [|auto]].
  - exists demo20. split; [reflexivity|]. unfold Gvd_spec.representable, Gvd_model.inf. cbn. lia.
  - split; [reflexivity|]. unfold drawable. rewrite square_cells by lia. eexists. vm_compute. reflexivity.
Qed.

Lemma plan_frames : world_frames f0 (history plan_calls) = demo20.
Proof. rewrite plan_history. unfold world_frames. cbn [fold_left frames_after]. unfold f0. now rewrite demo20_init. Qed.

Lemma plan_covered c : world_covered f0 [] false (history plan_calls) c = draws demo20 (square 1) c.
Proof. rewrite plan_history. cbn [world_covered frames_after registered_step in_dec]. unfold f0. rewrite demo20_init. apply orb_false_r. Qed.

Section Demo.
Variables top topv : nat -> list (cell * Z) -> nat.
Hypothesis Htop : Gvd_spec.priority top.
Hypothesis Htopv : Gvd_spec.priority topv.

Lemma plan_world : exists k w1 w2 g, (forall fuel, (k <= fuel)%nat ->
    wd_run top topv fuel (wd_new 1 (0, 0)) (history plan_calls) = Ok w1 /\ wd_step top topv fuel w1 WGvdUpdate = Ok w2) /\
  wd_frames w1 = demo20 /\ wd_frames w2 = demo20 /\ wd_dist w2 = Some g /\
  answers 20 20 (om_occupied (wd_map w1)) (draws demo20 (square 1)) /\
  (forall c, inside 20 20 c -> exists d, squared_distance_to_obstacle (g_obs g) c = Ok d /\ (0 <= d)%Z /\ (c = Cell 3 3 -> 72 <= d)%Z) /\
  (forall c, inside 20 20 c -> exists x, get_path_cost 20 30 1 g c = Ok (Some x) /\ 0 <= x <= 1).
Proof.
  pose proof plan_used as U. destruct (world_used_app _ _ _ _ _ U) as [U1 _].
  destruct (world_agrees top topv Htop Htopv 1 (0, 0) (history plan_calls) U1) as (k1 & w1 & g1 & E1 & _ & F1 & A1). { rewrite plan_history. now left. }
  destruct (world_reports top topv 1 (0, 0) (history plan_calls) WGvdUpdate Htop Htopv U) as (k2 & w2 & g2 & E2 & Eg2 & F2 & R2).
  { now right. } { rewrite plan_history. intros o x [H|[H|[H|[]]]]; discriminate. }
  { fold f0. rewrite plan_frames. exists (Cell 9 9). rewrite plan_covered. split; [unfold inside; cbn; lia|]. unfold draws. rewrite square_cells by lia. vm_compute. reflexivity. }
  destruct (world_costs top topv Htop Htopv 1 (0, 0) (history plan_calls) 20 30 ltac:(lra) ltac:(lra) ltac:(lra) U) as (k3 & w3 & g3 & E3 & Eg3 & R3).
  fold f0 in F1, F2, R2, R3, A1. rewrite plan_frames in *. rewrite F1 in A1. cbn [demo20 fr_rows fr_cols] in A1, R2, R3.
  assert (Hk : exists k, (k1 <= k /\ k2 <= k /\ k3 <= k)%nat) by (exists (k1 + k2 + k3)%nat; lia). destruct Hk as (k & Hk1 & Hk2 & Hk3). assert (w3 = w2) as -> by (specialize (E2 k ltac:(lia)); specialize (E3 k ltac:(lia)); congruence). assert (g3 = g2) as -> by congruence.
  exists k, w1, w2, g2. split.
  { intros fuel Hf. split; [apply E1; lia|]. specialize (E2 fuel ltac:(lia)). rewrite wd_run_app, E1 in E2 by lia. cbn [bind wd_run] in E2. now destruct (wd_step top topv fuel w1 WGvdUpdate). }
  split; auto. split; auto. split; auto. split; [|split].
  - intros c Hc. rewrite (proj1 (A1 c Hc)). f_equal. apply plan_covered.
  - intros c Hc. destruct (R2 c Hc) as (o & _ & Co & _ & ->). eexists. split; [reflexivity|]. split; [unfold Gvd_spec.sqd; apply Z.add_nonneg_nonneg; apply Z.square_nonneg|]. intros ->. rewrite plan_covered in Co. apply (demo_far 1 (Cell 3 3) 72 o); auto.
  - intros c Hc. destruct (R3 c Hc) as (x & H1 & H2 & _). eauto.
Qed.
End Demo.

(** * Motions *)
Lemma plan_straight d dir : constant_steer (hp_model plan_params) plan_init 0 d dir = Pose (-7 + signed dir d) (-7) 0.
Proof.
  assert (B : beta (hp_model plan_params) 0 = 0) by (unfold beta; cbn [hp_model plan_params rear_to_center]; unfold Rdiv; rewrite !Rmult_0_l; apply atan_0).
  assert (D : dtheta_ddist (hp_model plan_params) 0 = 0) by (unfold dtheta_ddist; rewrite tan_0; unfold Rdiv; ring).
  rewrite steer_signed. unfold constant_steer. rewrite B, D, Rabs_R0, cos_0. cbn [plan_init px py pth]. destruct (Rltb_spec (1 / 1000000000) 0); [exfalso; lra|].
  rewrite cos_0, sin_0. f_equal; field.
Qed.

Lemma plan_cell x n : is_int n -> IZR n - 1 < x <= IZR n -> x < 0 -> discretize plan_params (Pose x (-7) 0) = Ok (IPose n (-7) 0).
Proof.
  intros Hn H Hx. pose proof PI_RGT_0. unfold discretize. cbn [plan_params hp_res hp_ang px py pth]. rewrite wrap_keep by lra. unfold Rdiv. rewrite Rinv_1, !Rmult_1_r, Rmult_0_l.
  rewrite (cast_near n x) by auto. rewrite (cast_near (-7) (-7)) by (unfold is_int, int_min, int_max; auto with zarith || right; lra).
  rewrite cast_0. reflexivity.
Qed.

(** Positions on the map have a cell. *)
Lemma plan_inside x y : -10 <= x < 10 -> -10 <= y < 10 -> exists c, inside 20 20 c /\ world_to_cell demo20 (x, y) true = Ok c /\ world_to_cell demo20 (x, y) false = Ok c.
Proof.
  intros Hx Hy. exists (Cell (Rfloor (x + 10)) (Rfloor (y + 10))).
  assert (B : forall z, -10 <= z < 10 -> (0 <= Rfloor (z + 10) < 20)%Z /\ IZR (Rfloor (z + 10)) <= z + 10 < IZR (Rfloor (z + 10)) + 1).
  { intros z Hz. pose proof (Rfloor_spec (z + 10)) as Q. split; [|exact Q]. split; [apply Zlt_succ_le, lt_IZR; rewrite succ_IZR; lra|apply lt_IZR; lra]. }
  destruct (B x Hx) as [X1 X2]. destruct (B y Hy) as [Y1 Y2]. pose proof (demo20_cell x y _ _ X1 Y1 X2 Y2) as E. split; [unfold inside; cbn [row col]; lia|]. split; [exact E|].
  unfold world_to_cell, grid_to_cell in *. match type of E with bind ?a _ = _ => destruct a as [r| | |] end; try discriminate. cbn [bind] in *.
  match type of E with bind ?a _ = _ => destruct a as [k| | |] end; try discriminate. cbn [bind negb] in *. destruct (inside_cell demo20 (Cell r k)); [exact E|]. exfalso. cbn in E. injection E. lia.
Qed.

Definition plan_motion (dir : direction) : csteer := c_new (hp_model plan_params) plan_init 0 (1 * (3 / 2)) dir.
Lemma plan_at dir r : c_at (plan_motion dir) r = Pose (-7 + signed dir (3 / 2 * r)) (-7) 0.
Proof. unfold c_at, plan_motion, c_new. cbn [c_model c_init c_steering c_length c_direction]. rewrite plan_straight. now rewrite Rmult_1_l. Qed.
Lemma plan_final dir : c_final (plan_motion dir) = Pose (-7 + signed dir (3 / 2)) (-7) 0.
Proof. unfold plan_motion, c_new. cbn [c_final]. rewrite plan_straight. now rewrite Rmult_1_l, Rmult_1_r. Qed.

Lemma signed_bound dir d : - Rabs d <= signed dir d <= Rabs d.
Proof. pose proof (Rle_abs d). pose proof (Rle_abs (- d)). rewrite Rabs_Ropp in *. destruct dir; cbn; lra. Qed.

Section Found.
Variables gm g : gst.
Hypothesis Hd : forall c, inside 20 20 c -> exists d, squared_distance_to_obstacle (g_obs gm) c = Ok d /\ (0 <= d)%Z /\ (c = Cell 3 3 -> 72 <= d)%Z.
Hypothesis Hc : forall c, inside 20 20 c -> exists x, get_path_cost 20 30 1 g c = Ok (Some x) /\ 0 <= x <= 1.
Variable fuel : nat.
Hypothesis Hfuel : (500 <= fuel)%nat.
Notation clearance := (map_clearance (g_obs gm) 1).
Notation state_ok := (is_state_valid demo20 clearance low20 high20 (69 / 10)).
Notation path_ok := (is_path_valid demo20 clearance low20 high20 (69 / 10) (1 / 10) fuel).

Lemma state_answers x y t : -10 <= x < 10 -> -10 <= y < 10 -> exists b, state_ok (Pose x y t) = Ok b.
Proof.
  intros Hx Hy. destruct (plan_inside x y Hx Hy) as (c & I & E & _). destruct (Hd c I) as (d & Ed & _). unfold is_state_valid. cbn [position px py]. change (position (Pose x y t)) with (x, y). rewrite E. cbn [bind].
  destruct (_ || _); [eauto|]. unfold map_clearance. rewrite Ed. cbn. eauto.
Qed.

Lemma init_valid : state_ok plan_init = Ok true /\ exists d, step_length demo20 clearance low20 high20 (69 / 10) (1 / 10) plan_init = Ok d /\ 3 / 2 <= d.
Proof.
  assert (E : world_to_cell demo20 (position plan_init) true = Ok (Cell 3 3)) by (unfold plan_init, position; cbn [px py]; apply demo20_cell; first [lia|lra]).
  destruct (Hd (Cell 3 3)) as (d & Ed & _ & Hb). { unfold inside. cbn. lia. } specialize (Hb eq_refl).
  assert (L : 84 / 10 <= reported_distance 1 d). { unfold reported_distance. rewrite Rmult_1_r. replace (84 / 10) with (sqrt (84 / 10 * (84 / 10))) by (apply sqrt_square; lra). apply sqrt_le_1_alt. apply IZR_le in Hb. lra. }
  split.
  - unfold is_state_valid. rewrite E. cbn [bind].
    assert (V : se2_validate low20 high20 (mk_pose (fst (world_to_local demo20 (position plan_init))) (snd (world_to_local demo20 (position plan_init))) (pth plan_init)) = true).
    { apply StateSpace_proofs.se2_validate_iff. unfold mk_pose. cbn [plan_init pth]. pose proof PI_RGT_0. rewrite wrap_keep by lra. cbn. lra. }
    rewrite V. assert (inside_cell demo20 (Cell 3 3) = true) as -> by reflexivity. cbn [negb orb]. unfold map_clearance. rewrite Ed. cbn [rmap bind]. destruct (Rleb_spec (69 / 10) (reported_distance 1 d)); [reflexivity|exfalso; lra].
  - unfold step_length. rewrite E. cbn [bind]. unfold map_clearance. rewrite Ed. cbn [rmap bind]. eexists. split; [reflexivity|]. cbn [plan_init low20 high20 px py].
    apply Rle_trans with (Rmin (reported_distance 1 d - (69 / 10)) (Rmin (Rmin (Rmin (-7 - -10) (10 - -7)) (-7 - -10)) (10 - -7))); [|apply Rmax_l]. repeat apply Rmin_glb; lra.
Qed.

Lemma motion_valid dir : path_ok (as_path (Steered (plan_motion dir))) = Ok (true, 1).
Proof.
  destruct init_valid as [V (d & Es & Ld)]. unfold is_path_valid. cbn [as_path p_length dp_length]. assert (L : c_length (plan_motion dir) = 3 / 2) by (cbn; ring). rewrite L. destruct (Reqb_spec (3 / 2) 0); [exfalso; lra|].
  destruct fuel as [|k]; [lia|]. cbn [validate_loop as_path p_length dp_length p_at dp_at]. rewrite L. destruct (Rltb_spec 0 (3 / 2)); [|exfalso; lra].
  replace (0 / (3 / 2)) with 0 by field. rewrite c_at_0. change (c_init (plan_motion dir)) with plan_init. cbn [bind]. rewrite V. cbn [bind negb]. rewrite Es. cbn [bind].
  destruct k as [|k]; [lia|]. cbn [validate_loop as_path p_length dp_length]. rewrite L. destruct (Rltb_spec (0 + d) (3 / 2)); [exfalso; lra|]. reflexivity.
Qed.

Lemma motion_cost dir : exists v, voronoi_cost plan_params demo20 (get_path_cost 20 30 1 g) 1 fuel (Steered (plan_motion dir)) = Ok v /\ 0 <= v <= sqrt 2.
Proof.
  pose proof sqrt2_gt as S2. assert (L : c_length (plan_motion dir) = 3 / 2) by (cbn; ring).
  assert (P : forall r, 0 <= r <= 1 -> exists c, inside 20 20 c /\ world_to_cell demo20 (position (c_at (plan_motion dir) r)) false = Ok c).
  { intros r Hr. rewrite plan_at. unfold position. cbn [px py]. pose proof (signed_bound dir (3 / 2 * r)) as B. rewrite Rabs_pos_eq in B by lra. destruct (plan_inside (-7 + signed dir (3 / 2 * r)) (-7)) as (c & I & _ & E); [lra|lra|]. eauto. }
  unfold voronoi_cost. destruct (voronoi_ends demo20 (get_path_cost 20 30 1 g) 1 (as_path (Steered (plan_motion dir))) Rlt_0_1) with (k := fuel) (j := 0%nat) (c := Some 0) as (v & E).
  { intros r Hr. destruct (P r Hr) as (c & I & Ec). destruct (Hc c I) as (x & Ex & _). exists (c_at (plan_motion dir) r), c, (Some x). auto. }
  { cbn [as_path p_length dp_length]. rewrite L. assert (2 <= INR fuel) by (apply (le_INR 2); lia). cbn [INR]. nra. }
  pose proof E as E0. apply voronoi_last in E as (i & x & c & Hi & Ex & Ec & Ev); [|lra|cbn [as_path p_length dp_length]; rewrite L; cbn [INR]; lra].
  cbn [as_path p_at dp_at p_length dp_length] in Ex, Hi. rewrite L in *. injection Ex as <-. destruct (P (INR i * (1 * sqrt 2) / (3 / 2))) as (c' & I & Ec').
  { pose proof (pos_INR i). assert (0 <= INR i * (1 * sqrt 2)) by nra. lra. }
  assert (c' = c) as -> by congruence. destruct (Hc c I) as (y & Ey & Hy). assert (v = Some y) as -> by congruence.
  replace (INR 0 * (1 * sqrt 2)) with 0 in E0 by (cbn; ring). rewrite E0. cbn [bind plan_params hp_voronoi]. eexists. split; [reflexivity|]. nra.
Qed.

Lemma motion_child dir n : dir = Forward \/ dir = Backward -> is_int n -> IZR n - 1 < -7 + signed dir (3 / 2) <= IZR n -> exists c d, steer_child plan_params demo20 (get_path_cost 20 30 1 g) 1 path_ok fuel (HState NoMotion (IPose (-7) (-7) 0) plan_init) 0 dir =
  Ok (Some (HState d (IPose n (-7) 0) (Pose (-7 + signed dir (3 / 2)) (-7) 0), Steered (plan_motion dir), Some c)) /\ 15 <= c <= 15 + sqrt 2.
Proof.
  intros Hdir Hn H. unfold steer_child. cbn [hs_pose plan_params hp_res]. fold (plan_motion dir). unfold state_of_path. cbn [dp_final]. rewrite plan_final.
  rewrite (plan_cell _ n); auto. 2: { pose proof (signed_bound dir (3 / 2)) as B. rewrite Rabs_pos_eq in B by lra. lra. }
  cbn [bind]. rewrite motion_valid. cbn [bind]. unfold steer_cost. destruct (motion_cost dir) as (v & -> & Hv). cbn [bind]. eexists. eexists. split; [reflexivity|].
  destruct (dp_direction _ 1); cbn [dir_eqb]; destruct Hdir as [-> | ->]; cbn; lra.
Qed.
End Found.

(** ** The heuristics *)
Lemma plan_table : nh_build low20 high20 1 (PI / 2) 1 10 10 0 = Ok (demo 1 10 10).
Proof.
  pose proof PI_gt_1. unfold nh_build, nh_nodes, low20, high20. cbn [px py]. replace ((10 - -10) / 1) with (IZR 20) by field. rewrite Rceil_IZR, cast_uint_IZR by (unfold uint_max; lia). cbn [bind].
  change (if Z.even 20 then (20 + 1) mod 2 ^ 32 else 20)%Z with 21%Z. unfold nh_new. replace (2 * PI / (PI / 2)) with (IZR 4) by (field; lra). rewrite Rceil_IZR, cast_uint_IZR by (unfold uint_max; lia). cbn [bind].
  assert (Rfloor (21 / 2) = 10%Z) as -> by (apply Rfloor_unique; lra). unfold demo. do 2 f_equal; ring.
Qed.

Lemma plan_delta x : pose_sub plan_goal (Pose x (-7) 0) = pose_sub (Pose (-11 / 2 - x) 0 0) zero_pose.
Proof.
  rewrite zero_delta. destruct (sub_fields plan_goal (Pose x (-7) 0)) as (E1 & E2 & E3). destruct (pose_sub _ _) as [a b c]. cbn in *. pose proof PI_RGT_0. rewrite E1, E2, E3, cos_0, sin_0. rewrite wrap_keep by lra. f_equal; ring.
Qed.
Lemma plan_nh x i : -15 <= x <= 4 -> Rround (-11 / 2 - x + 10) = i -> exists v, nh_value (demo 1 10 10) plan_goal (Pose x (-7) 0) = Ok (Some v) /\
  10 * Rabs (IZR i - 10) <= v /\ (i = 10%Z -> v <= 0).
Proof.
  intros Hx Hi. destruct (demo_value 1 10 10 (-11 / 2 - x) i ltac:(lra) ltac:(lra) Hi) as (v & Ev & Sv). exists v. split.
  { rewrite <- Ev. unfold nh_value. now rewrite plan_delta. }
  split.
  - pose proof (solver_cost_distance (demo 1 10 10) _ _ _ ltac:(cbn; lra) ltac:(cbn; lra) ltac:(cbn; lra) ltac:(cbn; lra) Sv) as D. cbn [demo nh_reverse nh_forward] in D. rewrite Rmin_left in D by lra.
    unfold distance, position, mk_pose in D. cbn [px py fst snd] in D. replace ((0 - (IZR i - 10)) * (0 - (IZR i - 10)) + (0 - 0) * (0 - 0)) with ((IZR i - 10) * (IZR i - 10)) in D by ring.
    change ((IZR i - 10) * (IZR i - 10)) with (Rsqr (IZR i - 10)) in D. now rewrite sqrt_Rsqr_abs in D.
  - intros ->. replace 0 with (nh_forward (demo 1 10 10) * (nh_radius (demo 1 10 10) * 0)) by (cbn; ring).
    apply (ahead_cost (demo 1 10 10) (Pose (10 - 10) 0 0) 0 v); cbn [demo nh_radius nh_forward nh_reverse]; try lra.
    replace (Rs_spec.driven 1 SStraight (Pose (10 - 10) 0 0) 0) with (mk_pose 0 0 0); [exact Sv|].
    unfold mk_pose. pose proof PI_RGT_0. rewrite wrap_keep by lra. unfold Rs_spec.driven. cbn. f_equal; rewrite ?cos_0, ?sin_0; try ring.
Qed.

Section Heur.
Variable occ : cell -> res bool.
Variable o : cell -> bool.
Hypothesis Hocc : answers 20 20 occ o.
Variable fuel : nat.
Hypothesis Hfuel : (500 <= fuel)%nat.

Lemma plan_obst : exists o0 o1, oh_new 20 20 = Ok o0 /\ oh_update Rltb Rplus 0 1 (sqrt 2) fuel 20 20 occ (Cell 4 3) o0 = Ok o1 /\
  (forall x, -10 <= x < 10 -> exists v, oh_value demo20 10 10 (position plan_goal) (x, -7) o1 = Ok (Some v) /\ Rabs (-11 / 2 - x) <= v) /\
  oh_value demo20 10 10 (position plan_goal) (position plan_goal) o1 = Ok (Some 0).
Proof.
  destruct (oh_new 20 20) as [o0| | |] eqn:E0; try discriminate.
  assert (U : updated Rltb Rplus 0 1 (sqrt 2) 20 20 o0) by (now constructor).
  assert (I : inside 20 20 (Cell 4 3)) by (unfold inside; cbn; lia). assert (F : (Z.to_nat 20 * Z.to_nat 20 < fuel)%nat) by (change (Z.to_nat 20 * Z.to_nat 20)%nat with 400%nat; lia).
  destruct (update_explored Rltb Rplus 0 1 (sqrt 2) (fun x => x) exact_R 20%Z 20%Z occ o (Cell 4 3) fuel o0) as (o1 & E1 & Hx); auto.
  exists o0, o1. split; [reflexivity|]. split; [exact E1|]. split.
  - intros x Hr. destruct (plan_inside x (-7)) as (c & _ & _ & Ec); [lra|lra|].
    destruct (value_spec demo20 10 10 (position plan_goal) (x, -7) 20 20 occ o (Cell 4 3) fuel o0 o1 c) as (v & Ev & _); auto. exists v. split; [exact Ev|]. apply value_euclid in Ev.
    eapply Rle_trans; [|exact Ev]. unfold Straight_spec.distance, position, plan_goal. cbn [px py fst snd]. replace ((-11 / 2 - x) * (-11 / 2 - x) + (-7 - -7) * (-7 - -7)) with (Rsqr (-11 / 2 - x)) by (unfold Rsqr; ring). rewrite sqrt_Rsqr_abs. lra.
  - destruct (update_stored Rltb Rplus 0 1 (sqrt 2) (fun x => x) exact_R 20%Z 20%Z occ o (Cell 4 3) fuel o0 o1 (Cell 4 3)) as [Hw _]; auto.
    destruct (Hw []) as (x & Ex & _ & Bx & _). { exact eq_refl. }
    destruct (Hx (Cell 4 3) I) as (b & Eb & Hb). assert (b = true) as -> by (apply Hb; exists []; exact eq_refl).
    assert (C : world_to_cell demo20 (position plan_goal) true = Ok (Cell 4 3)) by (unfold plan_goal, position; cbn [px py]; apply demo20_cell; first [lia|lra]).
    unfold oh_value. rewrite C. cbn [bind]. assert (cell_is_valid (Cell 4 3) = true) as -> by reflexivity. cbn [negb]. rewrite Eb. cbn [bind negb]. rewrite Ex. cbn [bind option_map]. do 2 f_equal.
    change (position plan_goal) with (-11 / 2, -7). cbn [psub fst snd]. match goal with |- Rmax _ (sqrt ?a) = _ => replace a with 0 by ring end. rewrite sqrt_0. apply Rmax_right. unfold oh_multiplier, oh_diagonal. cbn [demo20 fr_res]. rewrite Rmin_left by lra. pose proof sqrt2_gt. cbn in Bx. lra.
Qed.
End Heur.

(** ** The search *)
Lemma x_max_least a b v : v <= a -> v <= b -> exists c, x_max (Some a) (Some b) = Some c /\ v <= c.
Proof. intros. unfold x_max. destruct (x_ltb (Some a) (Some b)); eauto. Qed.

Lemma plan_identical x : identical_poses (Pose x (-7) 0) plan_goal = Rltb (Rabs (x - -11 / 2)) (1 / 1000).
Proof.
  unfold identical_poses, pnorm, psub, plan_goal. cbn [position px py pth fst snd]. replace ((x - -11 / 2) * (x - -11 / 2) + (-7 - -7) * (-7 - -7)) with (Rsqr (x - -11 / 2)) by (unfold Rsqr; ring).
  rewrite sqrt_Rsqr_abs. rewrite Rminus_0_r, Rabs_R0. pose proof PI_RGT_0. destruct (Rltb_spec 0 (1 / 1000 * PI / 180)); [now rewrite andb_true_r|exfalso; nra].
Qed.

Lemma single_at p r : 0 < dp_length p -> 0 <= r <= 1 -> dp_composite_at (dp_composite [p]) r = Ok (dp_at p r).
Proof.
  intros Hp Hr. unfold dp_composite_at, dp_composite, k_at, push_back, k_new, find_segment. cbn [fold_left k_paths k_length app upper_bound seg_final forallb length].
  rewrite Rplus_0_l. destruct (Rltb_spec (r * dp_length p) (dp_length p)) as [L|L].
  - cbn [bind nth_error seg_path seg_init]. destruct (Reqb_spec (dp_length p) 0); [exfalso; lra|]. cbn. do 2 f_equal. field. lra.
  - assert (r = 1) as -> by nra. reflexivity.
Qed.

Section Search.
Variables gm g : gst.
Hypothesis Hd : forall c, inside 20 20 c -> exists d, squared_distance_to_obstacle (g_obs gm) c = Ok d /\ (0 <= d)%Z /\ (c = Cell 3 3 -> 72 <= d)%Z.
Hypothesis Hc : forall c, inside 20 20 c -> exists x, get_path_cost 20 30 1 g c = Ok (Some x) /\ 0 <= x <= 1.
Variable fuel : nat.
Hypothesis Hfuel : (500 <= fuel)%nat.
Variable o1 : ostate R.
Hypothesis Ho : forall x, -10 <= x < 10 -> exists v, oh_value demo20 10 10 (position plan_goal) (x, -7) o1 = Ok (Some v) /\ Rabs (-11 / 2 - x) <= v.
Hypothesis Hgoal : oh_value demo20 10 10 (position plan_goal) (position plan_goal) o1 = Ok (Some 0).
Notation clearance := (map_clearance (g_obs gm) 1).
Notation path_ok := (is_path_valid demo20 clearance low20 high20 (69 / 10) (1 / 10) fuel).
Notation heur := (combined plan_params demo20 (demo 1 10 10) o1 plan_goal).

Lemma heur_goal : exists v, heur (Pose (-11 / 2) (-7) 0) = Ok (Some v) /\ v <= 0.
Proof.
  destruct (plan_nh (-11 / 2) 10) as (v & Ev & _ & Hv); [lra|replace (-11 / 2 - -11 / 2 + 10) with (IZR 10) by lra; apply Rround_IZR|]. specialize (Hv eq_refl).
  unfold combined. rewrite Ev. cbn [bind]. change (position (Pose (-11 / 2) (-7) 0)) with (position plan_goal). cbn [plan_params hp_reverse hp_forward]. rewrite Hgoal. cbn [bind]. unfold x_max.
  destruct (x_ltb (Some v) (Some 0)); eexists; (split; [reflexivity|lra]).
Qed.
Lemma heur_away x i : -10 <= x < 4 -> Rround (-11 / 2 - x + 10) = i -> exists v, heur (Pose x (-7) 0) = Ok (Some v) /\ Rabs (-11 / 2 - x) <= v /\ (x = -7 -> 20 <= v).
Proof.
  intros Hx Hi. destruct (plan_nh x i) as (a & Ea & Ha & _); [lra|exact Hi|]. destruct (Ho x) as (b & Eb & Hb); [lra|]. unfold combined. rewrite Ea. cbn [bind plan_params hp_reverse hp_forward].
  change (position (Pose x (-7) 0)) with (x, -7). rewrite Eb. cbn [bind]. unfold x_max, x_ltb.
  assert (E : x = -7 -> 20 <= a).
  { intros ->. assert (i = 12%Z) as ->. { rewrite <- Hi. unfold Rround. destruct (Rle_dec 0 (-11 / 2 - -7 + 10)); [|exfalso; lra]. apply Rfloor_unique. lra. } rewrite Rabs_pos_eq in Ha; lra. }
  destruct (Rltb_spec a b).
  - exists b. split; [reflexivity|]. split; [exact Hb|]. intros X. specialize (E X). lra.
  - exists a. split; [reflexivity|]. split; [lra|exact E].
Qed.

Definition plan_root : hstate := HState NoMotion (IPose (-7) (-7) 0) plan_init.

Lemma plan_search : exists st a c f, graph_search plan_params demo20 (get_path_cost 20 30 1 g) 1 path_ok heur unit plan_draw plan_goal fuel fuel plan_init tt =
  Ok (Some (Child a (Steered (plan_motion Forward)) c f (Root plan_root)), st) /\ st_prop st = Ok tt.
Proof.
  pose proof sqrt2_gt as S2. assert (S22 : sqrt 2 < 3 / 2). { apply Rsqr_incrst_0; [rewrite Rsqr_sqrt by lra; unfold Rsqr; lra|apply sqrt_pos|lra]. }
  destruct (motion_child gm g Hd Hc fuel Hfuel Forward (-5)) as (ca & da & Ea & Ha); [auto|unfold is_int, int_min, int_max; lia|cbn; lra|].
  destruct (motion_child gm g Hd Hc fuel Hfuel Backward (-8)) as (cb & db & Eb & Hb); [auto|unfold is_int, int_min, int_max; lia|cbn; lra|].
  cbn [signed] in Ea, Eb. replace (-7 + 3 / 2) with (-11 / 2) in Ea by lra. replace (-7 + - (3 / 2)) with (-17 / 2) in Eb by lra. fold plan_root in Ea, Eb.
  destruct heur_goal as (va & Eva & Hva). destruct (heur_away (-17 / 2) _ ltac:(lra) eq_refl) as (vb & Evb & Hvb & _). destruct (heur_away (-7) _ ltac:(lra) eq_refl) as (vr & Evr & _ & Hvr). specialize (Hvr eq_refl).
  assert (Hvb' : 3 <= vb) by (rewrite Rabs_pos_eq in Hvb; lra).
  set (sa := HState da (IPose (-5) (-7) 0) (Pose (-11 / 2) (-7) 0)) in *. set (sb := HState db (IPose (-8) (-7) 0) (Pose (-17 / 2) (-7) 0)) in *.
  assert (D : deltas plan_params = [0]). { unfold deltas, plan_params. cbn. reflexivity. }
  assert (N : neighbors plan_params demo20 (get_path_cost 20 30 1 g) 1 path_ok heur unit plan_draw plan_goal fuel tt plan_root =
    Ok ([(sa, Steered (plan_motion Forward), Some ca); (sb, Steered (plan_motion Backward), Some cb)], tt)).
  { unfold neighbors. rewrite D. cbn [steer_children]. rewrite Ea. cbn [bind]. rewrite Eb. cbn [bind]. cbn [opt_list app plan_root hs_pose]. change plan_init with (Pose (-7) (-7) 0). rewrite Evr. cbn [bind].
    unfold try_connection. destruct (Rltb_spec vr 10); [exfalso; lra|]. unfold plan_draw. destruct (Rltb_spec 1 (10 / (vr * vr))) as [L|L]; [|reflexivity].
    exfalso. assert (0 < vr * vr) by nra. apply (Rmult_lt_compat_r (vr * vr)) in L; auto. unfold Rdiv in L. rewrite Rmult_assoc, Rinv_l in L by lra. nra. }
  assert (Su : h_succ plan_params demo20 (get_path_cost 20 30 1 g) 1 path_ok heur unit plan_draw plan_goal fuel (Ok tt) plan_root =
    ([(sa, Steered (plan_motion Forward), Some ca); (sb, Steered (plan_motion Backward), Some cb)], Ok tt)).
  { unfold h_succ. rewrite N. cbn [bind estimates_ok]. unfold sa, sb. cbn [hs_pose]. rewrite Eva. cbn [bind]. rewrite Evb. reflexivity. }
  assert (Gi : discretize plan_params plan_init = Ok (IPose (-7) (-7) 0)) by (apply plan_cell; [unfold is_int, int_min, int_max; lia|lra|lra]).
  assert (Gg : discretize plan_params plan_goal = Ok (IPose (-5) (-7) 0)) by (apply plan_cell; [unfold is_int, int_min, int_max; lia|lra|lra]).
  unfold graph_search, state_of_pose. rewrite Gi, Gg. cbn [bind]. fold plan_root.
  destruct (two_neighbors hstate drive_path (res unit) hs_eqb (h_value heur) (h_succ plan_params demo20 (get_path_cost 20 30 1 g) 1 path_ok heur unit plan_draw plan_goal fuel)
    (h_solution plan_goal) h_guard (fuel - 2) plan_root sa sb _ _ _ _ (Ok tt) (Ok tt) Su) as (st & E & P); try reflexivity.
  - unfold h_solution, plan_root. cbn [hs_pose]. change plan_init with (Pose (-7) (-7) 0). rewrite plan_identical. rewrite Rabs_left by lra. destruct (Rltb_spec (- (-7 - -11 / 2)) (1 / 1000)); [exfalso; lra|reflexivity].
  - unfold h_solution, sa. cbn [hs_pose]. rewrite plan_identical. replace (-11 / 2 - -11 / 2) with 0 by lra. rewrite Rabs_R0. destruct (Rltb_spec 0 (1 / 1000)); [reflexivity|exfalso; lra].
  - unfold h_value, sa, sb. cbn [hs_pose]. rewrite Eva, Evb. cbn [x_add x_ltb]. destruct (Rltb_spec (0 + ca + va) (0 + cb + vb)); [reflexivity|exfalso; lra].
  - replace (2 + (fuel - 2))%nat with fuel in E by lia. rewrite E. cbn [bind]. rewrite P. cbn [bind]. eauto 10.
Qed.

Definition plan_path : list pose := [Pose (-7) (-7) 0; Pose (-13 / 2) (-7) 0; Pose (-6) (-7) 0; Pose (-11 / 2) (-7) 0].

Lemma plan_result a c f s old :
  hybrid_result fuel (1 / 2) (smooth_path fuel s (Checker low20 high20 (69 / 10) (1 / 10)) demo20 clearance g) true (Ok (Some (Child a (Steered (plan_motion Forward)) c f (Root plan_root)))) old = Ok (true, plan_path).
Proof.
  unfold hybrid_result. cbn [negb bind]. unfold search_motions, get_actions. cbn [n_depth fill_back n_parent n_action bind].
  set (p := Steered (plan_motion Forward)). assert (L : dp_length p = 3 / 2) by (cbn; ring).
  unfold sampled_path. assert (k_cusps pose drive_path dp_length dp_direction dp_cusps (dp_composite [p]) = []) as ->.
  { unfold k_cusps, dp_composite, push_back, k_new. cbn [fold_left k_paths app cusp_loop seg_path]. unfold p. match goal with |- context [if ?b then _ else _] => assert (b = true) as -> by (now destruct (c_get_direction (plan_motion Forward) 0)); reflexivity end. }
  assert (Lk : k_length pose drive_path (dp_composite [p]) = 3 / 2) by (unfold dp_composite, push_back, k_new; cbn [fold_left k_length]; rewrite L; ring). rewrite Lk.
  assert (C : cusp_set [] = [0; 1]). { unfold cusp_set. cbn [fold_left rset_insert]. destruct (Rltb_spec 1 0); [exfalso; lra|]. destruct (Rltb_spec 0 1); [reflexivity|exfalso; lra]. }
  unfold sample. rewrite C. destruct fuel as [|[|[|[|[|k]]]]] eqn:Ef; try lia. rewrite <- Ef.
  assert (S : forall k, sample_loop (S (S (S (S k)))) (3 / 2) (1 / 2) 0 [0; 1] [] [] = Ok ([0; 1 / 3; 2 / 3; 1], [0%nat; 3%nat])).
  { intros n. cbn [sample_loop].
    destruct (Rleb_spec 0 (3 / 2)); [|exfalso; lra]. destruct (Rleb_spec (0 * (3 / 2) - 1 / 2 / 2) 0); [|exfalso; lra]. destruct (Rltb_spec 0 (0 * (3 / 2) + 1 / 2 / 2)); [|exfalso; lra]. cbn [andb app length].
    destruct (Rleb_spec (0 + 1 / 2) (3 / 2)); [|exfalso; lra]. destruct (Rleb_spec (1 * (3 / 2) - 1 / 2 / 2) (0 + 1 / 2)); [exfalso; lra|]. cbn [andb app length].
    destruct (Rleb_spec (0 + 1 / 2 + 1 / 2) (3 / 2)); [|exfalso; lra]. destruct (Rleb_spec (1 * (3 / 2) - 1 / 2 / 2) (0 + 1 / 2 + 1 / 2)); [exfalso; lra|]. cbn [andb app length].
    destruct (Rleb_spec (0 + 1 / 2 + 1 / 2 + 1 / 2) (3 / 2)); [|exfalso; lra]. destruct (Rleb_spec (1 * (3 / 2) - 1 / 2 / 2) (0 + 1 / 2 + 1 / 2 + 1 / 2)); [|exfalso; lra]. destruct (Rltb_spec (0 + 1 / 2 + 1 / 2 + 1 / 2) (1 * (3 / 2) + 1 / 2 / 2)); [|exfalso; lra]. cbn [andb app length].
    assert (X : Rleb (0 + 1 / 2 + 1 / 2 + 1 / 2 + 1 / 2) (3 / 2) = false) by (destruct (Rleb_spec (0 + 1 / 2 + 1 / 2 + 1 / 2 + 1 / 2) (3 / 2)); [exfalso; lra|reflexivity]).
    replace ((0 + 1 / 2) / (3 / 2)) with (1 / 3) by field. replace ((0 + 1 / 2 + 1 / 2) / (3 / 2)) with (2 / 3) by field. destruct n; cbn [sample_loop]; rewrite X; reflexivity. }
  rewrite Ef at 1. rewrite S. cbn [bind interpolate_all].
  rewrite !single_at by (rewrite ?L; lra). cbn [bind]. unfold p, dp_at. rewrite !plan_at. cbn [signed].
  replace (-7 + 3 / 2 * 0) with (-7) by field. replace (-7 + 3 / 2 * (1 / 3)) with (-13 / 2) by field. replace (-7 + 3 / 2 * (2 / 3)) with (-6) by field. replace (-7 + 3 / 2 * 1) with (-11 / 2) by field. fold plan_path.
  unfold smooth_path, run, smooth. cbn [negb va_lower va_upper va_safe].
  assert (Hs : forall l, (forall q, In q l -> exists b, is_state_valid demo20 clearance low20 high20 (69 / 10) q = Ok b) -> exists b, is_path_safe point R (fun x => is_state_valid demo20 clearance low20 high20 (69 / 10) (join_pose x)) (map split_pose l) = Ok b).
  { induction l as [|q l IH]; intros H; cbn [map is_path_safe]; [eauto|]. assert (join_pose (split_pose q) = q) as -> by (now destruct q). destruct (H q) as (b & ->); [now left|]. cbn [bind]. destruct b; cbn [negb]; [|eauto]. apply IH. intros. apply H. now right. }
  destruct (Hs plan_path) as (b & Eb). { intros q [<-|[<-|[<-|[<-|[]]]]]; apply (state_answers gm); auto; lra. }
  change (Z.of_nat (length (map split_pose plan_path)) <? 5)%Z with true. cbv iota. rewrite Eb. cbn [bind]. destruct (0 <=? _)%Z; reflexivity.
Qed.
End Search.

(** ** The planner *)
Lemma demo_planned top topv : Gvd_spec.priority top -> Gvd_spec.priority topv -> exists k, forall fuel, (k <= fuel)%nat ->
  exists s s', sy_run top topv fuel unit plan_draw (sy_new unit 1 (0, 0) plan_params tt) plan_calls = Ok s /\
  sy_search top topv fuel unit plan_draw s = Ok (s', true) /\ pl_path (sy_planner s') = plan_path /\
  pl_init (sy_planner s) = plan_init /\ pl_goal (sy_planner s) = plan_goal /\ pl_step (sy_planner s) = 1 / 2 /\ sy_validators s = [Checker low20 high20 (69 / 10) (1 / 10)].
Proof.
  intros Htop Htopv. destruct (plan_world top topv Htop Htopv) as (k & w1 & w2 & g & E & F1 & F2 & Eg & A & Hd & Hc).
  assert (Hk : exists n, (k <= n /\ 500 <= n)%nat) by (exists (k + 500)%nat; lia). destruct Hk as (n & Hn1 & Hn2). exists n. intros fuel Hf. destruct (E fuel ltac:(lia)) as [E1 E2]. assert (Hfuel : (500 <= fuel)%nat) by lia.
  rewrite plan_history in E1. cbn [wd_run] in E1.
  destruct (wd_step top topv fuel (wd_new 1 (0, 0)) (WSize 20 20)) as [wa| | |] eqn:Ea; try discriminate. cbn [bind] in E1.
  destruct (wd_step top topv fuel wa (WAdd 0 (square 1))) as [wb| | |] eqn:Eb; try discriminate. cbn [bind] in E1.
  destruct (wd_step top topv fuel wb WGvd) as [wc| | |] eqn:Ec; try discriminate. cbn [bind] in E1. injection E1 as ->.
  destruct (plan_obst _ _ A fuel Hfuel) as (o0 & o1 & Eo0 & Eo1 & Ho & Hgoal).
  destruct (plan_search g g Hd Hc fuel Hfuel o1 Ho Hgoal) as (st & a & c & fc & Es & Ep).
  eexists. eexists. split.
  { unfold plan_calls, plan_before, plan_after. cbn [app Planner_model.sy_run Planner_model.sy_step]. unfold sy_validator. cbn [high20 low20 px py sy_new sy_world]. replace (10 - -10) with 20 by ring.
    change (wd_size (wd_new 1 (0, 0)) 20 20) with (wd_step top topv fuel (wd_new 1 (0, 0)) (WSize 20 20)). rewrite Ea. cbn [bind sy_world]. rewrite Eb. cbn [bind]. unfold sy_initialize. cbn [sy_validators sy_planner sy_world app sy_new detach pl_new pl_parts pl_params vget nth_error bind].
    rewrite Ec. cbn [bind va_lower va_upper plan_params hp_res hp_ang hp_radius hp_reverse hp_forward hp_switching]. fold low20 high20. rewrite plan_table. cbn [bind]. rewrite F1. cbn [demo20 fr_rows fr_cols]. rewrite Eo0. cbn [bind rmap fst Planner_model.sy_run Planner_model.sy_step]. unfold change_validator, vset, vget. cbn [sy_validators nth_error bind va_lower va_upper va_step length Nat.ltb Nat.leb firstn skipn app sy_world sy_planner sy_rng]. reflexivity. }
  cbn [sy_planner with_planner pl_init pl_goal pl_step sy_validators].
  split; [|split; [|auto 10]].
  { unfold sy_search. cbn [sy_planner with_planner pl_ready negb pl_parts sy_validators vget nth_error bind sy_world pl_goal pl_init pl_step pl_smoothing sy_validators nth_error pl_path sy_rng va_lower va_upper va_safe va_step pl_params].
    rewrite F1. assert (C : world_to_cell demo20 (position plan_goal) true = Ok (Cell 4 3)) by (unfold plan_goal, position; cbn [px py]; apply demo20_cell; first [lia|lra]). rewrite C. cbn [bind demo20 fr_rows fr_cols fr_res]. fold demo20. rewrite Eo1. cbn [bind].
    unfold update_diagram. rewrite E2. cbn [bind]. rewrite Eg. cbn [bind]. rewrite Eg.
    match goal with |- bind ?a _ = _ => pose proof (Es : a = _) as X; rewrite X; clear X end. cbn [bind]. rewrite Ep. cbn [bind].
    match goal with |- bind ?a _ = _ => pose proof (plan_result g g Hd fuel Hfuel _ _ _ _ _ : a = _) as X; rewrite X; clear X end. cbn [bind]. reflexivity. }
  reflexivity.
Qed.

Lemma plan_margin : 0 < margin (69 / 10) (1 / 10) 1 demo20.
Proof.
  assert (B : forall x y, 0 <= y -> x <= y * y -> sqrt x <= y). { intros x y Hy H. rewrite <- (sqrt_square y) by auto. now apply sqrt_le_1_alt. }
  assert (S2 : sqrt 2 <= 1.4143) by (apply B; lra). assert (L2 : 1.4142 <= sqrt 2). { rewrite <- (sqrt_square 1.4142) by lra. apply sqrt_le_1_alt. lra. }
  assert (S3 : sqrt (4 - 2 * sqrt 2) <= 1.0825) by (apply B; lra).
  assert (S4 : reported_distance 1 ((20 - 1) * (20 - 1) + (20 - 1) * (20 - 1)) <= 26.871). { unfold reported_distance. rewrite Rmult_1_r. apply B; [lra|]. change ((20 - 1) * (20 - 1) + (20 - 1) * (20 - 1))%Z with 722%Z. lra. }
  assert (P4 : 0 <= reported_distance 1 ((20 - 1) * (20 - 1) + (20 - 1) * (20 - 1))). { unfold reported_distance. rewrite Rmult_1_r. apply sqrt_pos. }
  unfold margin, map_slack. cbn [demo20 fr_res fr_rows fr_cols]. nra.
Qed.
