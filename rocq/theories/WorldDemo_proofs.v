(** A map with a square obstacle. *)
From Coq Require Import Reals Lra.
From Verif Require Import Base RealBase Grid_model Grid_spec Raster_model Coords_model Coords_proofs Pose_model StateSpace_model Straight_model Straight_spec Straight_proofs
  Shape_model Shape_spec Shape_proofs Gvd_model Gvd_api_proofs PathCost_model ObstacleMap_model ObstacleMap_proofs
  Validator_model Validator_spec Validator_proofs World_model World_spec World_proofs WorldClear_proofs.
From Verif Require Gvd_spec.
From Coq Require Import ZifyBool ZifyNat ZifyN.
Local Open Scope R_scope.

(** Without removals, the distance map reports the distance to an obstacle. *)
Lemma world_reports top topv resolution junk ops last : Gvd_spec.priority top -> Gvd_spec.priority topv ->
  world_used (fr_new resolution junk) false false (ops ++ [last]) -> updates last ->
  (forall o x, ~ In (WRemove o x) ops) ->
  let F := world_frames (fr_new resolution junk) ops in
  let covered c := world_covered (fr_new resolution junk) [] false ops c = true in
  (exists c, inside (fr_rows F) (fr_cols F) c /\ covered c) ->
  exists k w g, (forall fuel, (k <= fuel)%nat -> wd_run top topv fuel (wd_new resolution junk) (ops ++ [last]) = Ok w) /\
    wd_dist w = Some g /\ wd_frames w = F /\
    forall c, inside (fr_rows F) (fr_cols F) c -> exists o, inside (fr_rows F) (fr_cols F) o /\ covered o /\
      nearest_obstacle (g_obs g) c = Ok o /\ squared_distance_to_obstacle (g_obs g) c = Ok (Gvd_spec.sqd c o).
Proof.
  intros Ht Htv U L Hn F covered (c0 & I0 & C0).
  destruct (world_updated top topv Ht Htv resolution junk ops last U L) as (gops & occ & k & w & g & E & Eg & Ew & Hp & Hz & Hu & Hc & Hun & K).
  fold F in Ew, Hp, Hz, Hu, Hc. specialize (Hun Hn). exists k, w, g. split; auto. split; auto. split; auto. intros c Ic.
  assert (O0 : exists o, inside (fr_rows F) (fr_cols F) o /\ Gvd_spec.obstacle gops o).
  { exists c0. split; auto. unfold Gvd_spec.obstacle. rewrite <- Hc by auto. exact C0. }
  set (ins := inside (fr_rows F) (fr_cols F)) in *.
  assert (AB : (fun d => ((exists o, ins o /\ Gvd_spec.obstacle gops o) -> forall c, ins c -> exists o, nearest_obstacle d c = Ok o /\ ins o) /\
    (forall c o e, ins c -> ins o -> nearest_obstacle d c = Ok o -> squared_distance_to_obstacle d c = Ok e -> Gvd_spec.obstacle gops o)) (g_obs g)).
  { apply K. destruct (api_reports _ _ Hp top topv Ht Htv occ Hz gops Hu) as (k' & st0 & st & E0 & E' & H1 & _ & H2). exists k', st0, st.
    split; auto. split; auto. split; auto. intros c' o e Q1 Q2 Q3 Q4. exact (proj1 (H2 Hun c' o e Q1 Q2 Q3 Q4)). }
  destruct AB as [A B].
  pose proof (K (fun d => forall c, inside (fr_rows F) (fr_cols F) c -> Gvd_spec.consistent (fr_rows F) (fr_cols F) d c)) as Kc. cbn beta in Kc.
  assert (Hcons : forall c, inside (fr_rows F) (fr_cols F) c -> Gvd_spec.consistent (fr_rows F) (fr_cols F) (g_obs g) c).
  { apply Kc. destruct (api_consistent _ _ Hp top topv Ht Htv occ Hz _ Hu) as (k' & st0 & st & E0 & E' & H & _). exists k', st0, st. auto. }
  destruct (A O0 c Ic) as (o & Eo & Io). destruct (Hcons c Ic) as [(N & _)|(o' & N & I' & D)].
  - exfalso. assert (o = Gvd_model.no_cell) as -> by congruence. destruct Io as [[Q _] _]. cbn in Q. lia.
  - assert (o' = o) as -> by congruence. exists o. split; auto. split; [|split; auto].
    unfold covered. rewrite Hc by auto. exact (B c o _ Ic Io Eo D).
Qed.

(** A map of 20 by 20 cells of size 1, centred on the origin, with the obstacle [x]. *)
Definition demo20 : frames := Frames 1 20 20 (0, 0) (- 20 / 2, - 20 / 2) (0 + - 20 / 2, 0 + - 20 / 2).
Lemma demo20_init : fr_init (fr_new 1 (0, 0)) 20 20 = Ok demo20.
Proof.
  unfold fr_init, fr_new. cbn [fr_res fr_local].
  assert (C : cast_int (IZR (Rceil (20 / 1))) = Ok 20%Z).
  { replace (20 / 1) with (IZR 20) by field. rewrite Rceil_IZR. apply cast_int_ok. split; [now rewrite Rtrunc_IZR|unfold is_int, int_min, int_max; lia]. }
  rewrite C. reflexivity.
Qed.

(** The square with the corners [(-h, -h)] and [(h, h)]. *)
Definition square (h : Z) : obst := Obst (Some (Polygon (rectangle_vertices (2 * IZR h) (2 * IZR h)))) (Pose 0 0 0).
Definition square_corners (h : Z) : list cell := [Cell (10 + h) (10 + h); Cell (10 - h) (10 + h); Cell (10 - h) (10 - h); Cell (10 + h) (10 - h)].

Lemma square_cells h : (1 <= h <= 8)%Z -> boundary_cells demo20 (square h) = polygon_cells 20 20 (square_corners h).
Proof.
  intros Hh. unfold boundary_cells, square. cbn [ob_shape ob_pose shape_cells].
  assert (W : forall a b x y, x = IZR a -> y = IZR b -> (Z.abs a <= 8)%Z -> (Z.abs b <= 8)%Z ->
    world_to_cell demo20 (place (Pose 0 0 0) (x, y)) false = Ok (Cell (10 + a) (10 + b))).
  { intros a b x y -> -> Ha Hb. unfold place, rot_x, rot_y. cbn [fst snd pth px py]. rewrite cos_0, sin_0. unfold world_to_cell, grid_to_cell. cbn [fst snd demo20 fr_world_grid fr_res].
    assert (E : forall n z, (Z.abs n <= 8)%Z -> z = IZR (10 + n) -> cast_int z = Ok (10 + n)%Z).
    { intros n z Hn ->. apply cast_int_ok. split; [now rewrite Rtrunc_IZR|unfold is_int, int_min, int_max; lia]. }
    rewrite (E a), (E b); auto; rewrite plus_IZR; field. }
  unfold rectangle_vertices. cbn [map map_res].
  rewrite (W h h), (W (- h)%Z h), (W (- h)%Z (- h)%Z), (W h (- h)%Z); try lia; rewrite ?opp_IZR; try (field || lra).
  reflexivity.
Qed.

Definition f0 : frames := fr_new 1 (0, 0).
Definition demo_pre : list wop := [WSize 20 20].

Lemma demo_frames h : world_frames f0 (demo_pre ++ [WAdd 0 (square h)]) = demo20.
Proof. unfold world_frames. cbn [demo_pre app fold_left frames_after]. unfold f0. now rewrite demo20_init. Qed.

Lemma demo_used h : (h = 1 \/ h = 8)%Z -> world_used f0 false false ((demo_pre ++ [WAdd 0 (square h)]) ++ [WUpdate]).
Proof.
  intros Hh. cbn [demo_pre app world_used frames_after]. unfold f0. rewrite demo20_init. split; [|split; [|auto]].
  - exists demo20. split; [reflexivity|]. unfold Gvd_spec.representable, Gvd_model.inf. cbn. lia.
  - split; [reflexivity|]. unfold drawable. rewrite square_cells by lia. destruct Hh as [-> | ->]; eexists; vm_compute; reflexivity.
Qed.

Lemma demo_covered h c : world_covered f0 [] false (demo_pre ++ [WAdd 0 (square h)]) c = draws demo20 (square h) c.
Proof. cbn [demo_pre app world_covered frames_after registered_step in_dec]. unfold f0. rewrite demo20_init. apply orb_false_r. Qed.

Lemma demo_far h c0 D c : (h = 1 \/ h = 8)%Z ->
  match polygon_cells 20 20 (square_corners h) with Ok l => forallb (fun c => (D <=? Gvd_spec.sqd c0 c)%Z) l | _ => false end = true ->
  draws demo20 (square h) c = true -> (D <= Gvd_spec.sqd c0 c)%Z.
Proof.
  intros Hh Hf. unfold draws. rewrite square_cells by lia. destruct (polygon_cells 20 20 (square_corners h)) as [l| | |]; try discriminate.
  intros Hc. apply existsb_cells in Hc. rewrite forallb_forall in Hf. specialize (Hf c Hc). lia.
Qed.

(** The map, with the distance reported for a cell far from the square. *)
Lemma demo_world top topv h c0 D : Gvd_spec.priority top -> Gvd_spec.priority topv -> (h = 1 \/ h = 8)%Z -> inside 20 20 c0 ->
  match polygon_cells 20 20 (square_corners h) with Ok l => forallb (fun c => (D <=? Gvd_spec.sqd c0 c)%Z) l | _ => false end = true ->
  exists k w g d, (forall fuel, (k <= fuel)%nat -> wd_run top topv fuel (wd_new 1 (0, 0)) ((demo_pre ++ [WAdd 0 (square h)]) ++ [WUpdate]) = Ok w) /\
    wd_dist w = Some g /\ squared_distance_to_obstacle (g_obs g) c0 = Ok d /\ (D <= d)%Z.
Proof.
  intros Ht Htv Hh I0 HD.
  destruct (world_reports top topv 1 (0, 0) (demo_pre ++ [WAdd 0 (square h)]) WUpdate Ht Htv (demo_used h Hh)) as (k & w & g & E & Eg & _ & R).
  - now left.
  - intros o x [H|[H|[]]]; discriminate.
  - fold f0. rewrite demo_frames. exists (Cell (10 + h) (10 + h)). split; [unfold inside; cbn [demo20 fr_rows fr_cols row col]; lia|]. rewrite demo_covered. unfold draws. rewrite square_cells by lia.
    destruct Hh as [-> | ->]; vm_compute; reflexivity.
  - fold f0 in R. rewrite demo_frames in R. destruct (R c0 I0) as (o & _ & Co & _ & Ed). exists k, w, g, (Gvd_spec.sqd c0 o). split; auto. split; auto. split; auto.
    rewrite demo_covered in Co. now apply demo_far with h.
Qed.

Definition low20 : pose := Pose (-10) (-10) (-3).
Definition high20 : pose := Pose 10 10 3.

Lemma demo20_cell x y r k : (0 <= r < 20)%Z -> (0 <= k < 20)%Z -> IZR r <= x + 10 < IZR r + 1 -> IZR k <= y + 10 < IZR k + 1 ->
  world_to_cell demo20 (x, y) true = Ok (Cell r k).
Proof.
  intros Hr Hk Hx Hy. unfold world_to_cell, grid_to_cell. cbn [demo20 fr_world_grid fr_res fst snd].
  assert (E : forall z n, (0 <= n < 20)%Z -> IZR n <= z + 10 < IZR n + 1 -> cast_int ((z - (0 + - 20 / 2)) / 1) = Ok n).
  { intros z n Hn Hz. apply cast_int_ok. split; [|unfold is_int, int_min, int_max; lia]. replace ((z - (0 + - 20 / 2)) / 1) with (z + 10) by field.
    unfold Rtrunc. destruct (Rle_dec 0 (z + 10)) as [L|L].
    - symmetry. apply Rfloor_unique. lra.
    - exfalso. apply L. destruct Hz as [Hz _]. apply Rle_trans with (IZR n); auto. apply (IZR_le 0). lia. }
  rewrite (E x r), (E y k) by auto. cbn [bind negb]. destruct (inside_cell demo20 (Cell r k)) eqn:I; auto.
  exfalso. unfold inside_cell in I. cbn in I. lia.
Qed.

(** A short straight path. *)
Definition short (x y : R) : spath := s_connect (Pose x y 0) (Pose (x + 1 / 20) y 0).
Lemma short_length x y : s_length (short x y) = 1 / 20.
Proof.
  cbn. unfold pnorm, psub. cbn. replace ((x + 1 / 20 - x) * (x + 1 / 20 - x) + (y - y) * (y - y)) with (Rsqr (1 / 20)) by (unfold Rsqr; field).
  apply sqrt_Rsqr. lra.
Qed.

Lemma short_valid m x y r k d minSafe : (0 <= r < 20)%Z -> (0 <= k < 20)%Z -> IZR r <= x + 10 < IZR r + 1 -> IZR k <= y + 10 < IZR k + 1 ->
  squared_distance_to_obstacle m (Cell r k) = Ok d -> minSafe <= reported_distance 1 d ->
  exists q, is_path_valid demo20 (map_clearance m 1) low20 high20 minSafe (1 / 10) 1 (straight (short x y)) = Ok (true, q).
Proof.
  intros Hr Hk Hx Hy Ed Hs. pose proof (short_length x y) as L. set (q := short x y) in *. set (a := Pose x y 0).
  assert (C0 : world_to_cell demo20 (position a) true = Ok (Cell r k)) by (now apply demo20_cell).
  assert (A0 : s_at q 0 = a) by apply s_at_0.
  assert (0 <= IZR r /\ IZR r + 1 <= 20) as [R1 R2].
  { split; [apply (IZR_le 0); lia|]. rewrite <- plus_IZR. apply (IZR_le _ 20). lia. }
  assert (0 <= IZR k /\ IZR k + 1 <= 20) as [K1 K2].
  { split; [apply (IZR_le 0); lia|]. rewrite <- plus_IZR. apply (IZR_le _ 20). lia. }
  assert (W : wrap_theta 0 = 0) by (apply Pose_proofs.wrap_keep; pose proof PI_RGT_0; lra).
  assert (V : se2_validate low20 high20 (mk_pose (fst (world_to_local demo20 (position a))) (snd (world_to_local demo20 (position a))) (pth a)) = true).
  { apply StateSpace_proofs.se2_validate_iff. unfold mk_pose, a. cbn [pth]. rewrite W. cbn. lra. }
  assert (In : inside_cell demo20 (Cell r k) = true) by (unfold inside_cell; cbn; lia).
  exists 1. unfold is_path_valid. cbn [straight p_length]. rewrite L. destruct (Reqb_spec (1 / 20) 0); [exfalso; lra|].
  rewrite loop_unfold. cbn [straight p_length p_at]. rewrite L. destruct (Rltb_spec 0 (1 / 20)) as [_|]; [|exfalso; lra].
  replace (0 / (1 / 20)) with 0 by field. rewrite A0. cbn [bind].
  unfold is_state_valid at 1. rewrite C0. cbn [bind]. rewrite V. cbn [negb orb].
  rewrite In. cbn [negb]. unfold map_clearance at 1. rewrite Ed. cbn [rmap bind].
  destruct (Rleb_spec minSafe (reported_distance 1 d)) as [_|]; [|exfalso; lra]. cbn [negb bind].
  unfold step_length. rewrite C0. cbn [bind]. unfold map_clearance at 1. rewrite Ed. cbn [rmap bind].
  set (dd := Rmax _ (1 / 10)). assert (1 / 10 <= dd) by apply Rmax_r. cbn [validate_loop straight p_length]. rewrite L.
  destruct (Rltb_spec (0 + dd) (1 / 20)); [exfalso; lra|]. reflexivity.
Qed.
