(** Validated paths and planned motions do not enter the obstacles of the map. *)
From Coq Require Import Reals Lra.
From Verif Require Import Base RealBase Grid_model Grid_spec Coords_model Coords_proofs Pose_model Pose_spec Pose_proofs Straight_model Straight_spec Straight_proofs
  Shape_model Shape_spec Shape_proofs Enter_proofs ObstacleMap_model Gvd_model Gvd_api_proofs PathCost_model
  Validator_model Validator_spec Validator_proofs World_model World_spec World_proofs WorldClear_proofs Composite_spec
  AStar_model AStar_spec Hybrid_model Hybrid_spec Hybrid_proofs HybridPath_proofs HybridSafe_proofs HybridMap_proofs.
From Verif Require Gvd_spec.
From Coq Require Import ZifyBool ZifyNat ZifyN.
Local Open Scope R_scope.

Lemma library_sharp vs : library_polygon vs -> sharp vs.
Proof.
  intros [dx dy Hx Hy|r n vs' Hr Hn E|r n vs' Hr Hn E];
    [now apply rectangle_sharp|now apply (regular_vertices_sharp r n)|now apply (circle_vertices_sharp r n)].
Qed.

Lemma part_outline s vs p q : part s vs -> on_outline (map (place p) vs) q -> on_shape p s q.
Proof.
  induction 1 as [vs|cs c vs Hc _ IH]; intros Hq.
  - cbn. now apply place_outline.
  - specialize (IH Hq). revert Hc. cbn [on_shape]. induction cs as [|d cs IHc]; intros Hc; [easy|]. destruct Hc as [->|Hc]; [now left|right]. now apply IHc.
Qed.

(** The margin left by the discretization. *)
Definition margin (minSafe minStep resolution : R) (F : frames) : R :=
  minSafe - minStep - sqrt 2 * resolution - map_slack F - sqrt 2 * (2 * resolution).

Lemma validated_outside top topv resolution junk pre o x post last : Gvd_spec.priority top -> Gvd_spec.priority topv -> 0 < resolution ->
  let ops := pre ++ WAdd o x :: post in
  let F := world_frames (fr_new resolution junk) ops in
  world_used (fr_new resolution junk) false false (ops ++ [last]) -> updates last ->
  ~ In o (world_registered [] pre) -> kept F o x post ->
  forall s vs, ob_shape x = Some s -> part s vs -> library_polygon vs ->
  let placed_vs := map (place (ob_pose x)) vs in
  (forall q, on_outline placed_vs q -> off_border F q) ->
  exists k w g, (forall fuel, (k <= fuel)%nat -> wd_run top topv fuel (wd_new resolution junk) (ops ++ [last]) = Ok w) /\
    wd_dist w = Some g /\ wd_frames w = F /\
    forall lb ub minSafe minStep p fuel r, 0 < minStep -> 0 < p_length p -> unit_speed p -> Validator_spec.total p ->
    0 < margin minSafe minStep resolution F ->
    is_path_valid F (map_clearance (g_obs g) resolution) lb ub minSafe minStep fuel p = Ok (true, r) ->
    (exists y, state_at p 0 y /\ ~ in_polygon placed_vs (position y)) ->
    forall u y, 0 <= u <= p_length p -> state_at p u y -> ~ in_polygon placed_vs (position y).
Proof.
  intros Ht Htv Hres ops F U L Hn Hk s vs Es Hp Hl placed_vs Hb.
  destruct (validated_outline top topv resolution junk pre o x post last Ht Htv Hres U L Hn Hk) as (k & w & g & E & Eg & Ew & K).
  exists k, w, g. split; auto. split; auto. split; auto. intros lb ub minSafe minStep p fuel r Hm Hlen Hsp Htot Hmar Ev (y0 & Y0 & N0) u y Hu Hy.
  refine (stays_outside placed_vs (fun t q => exists z, state_at p t z /\ q = position z) (p_length p) (margin minSafe minStep resolution F) _ Hmar _ _ _ _ u (position y) Hu _).
  - apply sharp_placed. now apply library_sharp.
  - intros t Hs. destruct (Htot (t / p_length p)) as (z & Ez); [now apply div_unit|]. exists (position z), z. auto.
  - intros a b qa qb Ha Hb' (za & Za & ->) (zb & Zb & ->). eapply Hsp; eauto.
  - intros t q z Hs (zy & Zy & ->) Hz. unfold margin. eapply (K lb ub minSafe minStep p fuel r); eauto.
    exists s. split; auto. now apply part_outline with vs.
  - exists (position y0). split; eauto.
  - eauto.
Qed.

(** * The motions of Hybrid A* *)
Lemma path_sane m f field vres clearance lb ub minSafe minStep pfuel heur Rng draw goal vfuel : 0 < hp_radius m -> 0 < hp_res m -> 0 < minStep ->
  forall l s t, placed m s -> is_path (h_succ m f field vres (is_path_valid f clearance lb ub minSafe minStep pfuel) heur Rng draw goal vfuel) s l t ->
  Forall sane (path_actions l).
Proof.
  intros Hr Hres Hstep. induction l as [|e l IH]; intros s t Hs H; [constructor|]. cbn [is_path] in H. destruct H as [[g I'] H]. apply succ_spec in I'.
  cbn [path_actions map]. constructor.
  - apply (transition_covered m f clearance lb ub minSafe minStep pfuel goal Hr Hres Hstep _ _ _ Hs I').
  - refine (IH _ _ _ H). apply I'.
Qed.

Lemma motions_outside vs m l : sharp vs -> 0 < m -> Forall sane l -> forall init q, leads init l q ->
  (forall p a z, In p l -> 0 <= a <= 1 -> on_outline vs z -> m <= distance (position (dp_at p a)) z) ->
  ~ in_polygon vs (position init) ->
  forall p a, In p l -> 0 <= a <= 1 -> ~ in_polygon vs (position (dp_at p a)).
Proof.
  intros Hs Hm. induction 1 as [|x l Hx _ IH]; intros init q Hl Hc Hi p a Ip Ha; [easy|]. cbn [leads] in Hl. destruct Hl as [H0 Hl].
  assert (E0 : position (dp_at x 0) = position init) by (destruct H0 as (A & B & _); unfold position; now rewrite A, B).
  assert (K : forall a, 0 <= a <= 1 -> ~ in_polygon vs (position (dp_at x a))).
  { clear a Ha. intros a Ha. destruct (Req_dec (dp_length x) 0) as [Z|N]; [rewrite (sn_still x Hx Z a Ha), E0; exact Hi|].
    pose proof (sn_length x Hx) as P. assert (0 < dp_length x) by lra.
    refine (stays_outside vs (fun t q => q = position (dp_at x (t / dp_length x))) (dp_length x) m Hs Hm _ _ _ _ (a * dp_length x) _ _ _).
    - eauto.
    - intros s t qa qb Hsa Hta -> ->. eapply Rle_trans; [apply (sn_speed x Hx); now apply div_unit|].
      rewrite <- (Rabs_pos_eq (dp_length x)) at 3 by lra. rewrite <- Rabs_mult. right. f_equal. field. lra.
    - intros s qq z Hsl -> Hz. apply Hc; auto; [now left|now apply div_unit].
    - exists (position (dp_at x 0)). split; [f_equal; f_equal; field; lra|]. now rewrite E0.
    - split; [apply Rmult_le_pos; lra|]. rewrite <- (Rmult_1_l (dp_length x)) at 2. apply Rmult_le_compat_r; lra.
    - f_equal. f_equal. field. lra. }
  destruct Ip as [->|Ip]; [now apply K|].
  apply (IH (dp_at x 1) q); auto; [intros; apply Hc; auto; now right|]. apply K. lra.
Qed.

Lemma planned_outline top topv resolution junk pre o x post last : Gvd_spec.priority top -> Gvd_spec.priority topv -> 0 < resolution ->
  let ops := pre ++ WAdd o x :: post in
  let F := world_frames (fr_new resolution junk) ops in
  world_used (fr_new resolution junk) false false (ops ++ [last]) -> updates last ->
  ~ In o (world_registered [] pre) -> kept F o x post ->
  exists k w g, (forall fuel, (k <= fuel)%nat -> wd_run top topv fuel (wd_new resolution junk) (ops ++ [last]) = Ok w) /\
    wd_dist w = Some g /\ wd_frames w = F /\
    forall m field vres lb ub minSafe minStep pfuel heur Rng draw goal vfuel fuel init st n s',
    0 < hp_radius m -> 0 < hp_res m -> 0 < minStep ->
    graph_search m F field vres (is_path_valid F (map_clearance (g_obs g) resolution) lb ub minSafe minStep pfuel) heur Rng draw goal vfuel fuel init st = Ok (Some n, s') ->
    exists l, search_motions (Some n) = Ok l /\
    (forall q p a, on_obstacle x q -> off_border F q -> In p l -> 0 <= a <= 1 -> margin minSafe minStep resolution F <= distance (position (dp_at p a)) q) /\
    (forall s vs, ob_shape x = Some s -> part s vs -> library_polygon vs -> 0 < margin minSafe minStep resolution F ->
      (forall q, on_outline (map (place (ob_pose x)) vs) q -> off_border F q) ->
      ~ in_polygon (map (place (ob_pose x)) vs) (position init) ->
      forall p a, In p l -> 0 <= a <= 1 -> ~ in_polygon (map (place (ob_pose x)) vs) (position (dp_at p a))).
Proof.
  intros Ht Htv Hres ops F U L Hn Hk.
  assert (EF : fr_res F = resolution) by (unfold F; rewrite frames_res; reflexivity).
  destruct (world_updated top topv Ht Htv resolution junk ops last U L) as (gops & occ & k & w & g & E & Eg & Ew & Hp & Hz & Hu & Hc & _ & K).
  fold F in Ew, Hp, Hz, Hu, Hc. exists k, w, g. split; auto. split; auto. split; auto.
  intros m field vres lb ub minSafe minStep pfuel heur Rng draw goal vfuel fuel init st n s' Hr Hhres Hm Es.
  assert (Ud : drawable (world_frames (fr_new resolution junk) pre) x).
  { unfold ops in U. rewrite <- app_assoc in U. cbn [app] in U. eapply drawable_at; exact U. }
  assert (M : exists l, search_motions (Some n) = Ok l /\ forall p a o, In p l -> 0 <= a <= 1 -> inside (fr_rows F) (fr_cols F) o -> Gvd_spec.obstacle gops o ->
    minSafe - minStep - sqrt 2 * resolution - map_slack F <= distance (position (dp_at p a)) (cell_to_world F o)).
  { pose proof (K (fun d => forall m field vres lb ub minSafe minStep pfuel heur Rng draw goal vfuel fuel init g n s,
      0 < hp_radius m -> 0 < hp_res m -> 0 < minStep ->
      graph_search m F field vres (is_path_valid F (map_clearance d (fr_res F)) lb ub minSafe minStep pfuel) heur Rng draw goal vfuel fuel init g = Ok (Some n, s) ->
      exists l, search_motions (Some n) = Ok l /\
      forall p a o, In p l -> 0 <= a <= 1 -> inside (fr_rows F) (fr_cols F) o -> Gvd_spec.obstacle gops o ->
      minSafe - minStep - sqrt 2 * fr_res F
        - (sqrt (4 - 2 * sqrt 2) - 1) * reported_distance (fr_res F) ((fr_rows F - 1) * (fr_rows F - 1) + (fr_cols F - 1) * (fr_cols F - 1))
        <= distance (position (dp_at p a)) (cell_to_world F o))) as KK. cbn beta in KK.
    specialize (KK (search_map_clearance _ _ top topv occ gops F Hp Ht Htv Hz Hu eq_refl eq_refl ltac:(lra))).
    rewrite EF in KK. unfold map_slack. rewrite EF. eapply KK; eauto. }
  destruct M as (l & El & M). exists l. split; [exact El|].
  assert (Q : forall q p a, on_obstacle x q -> off_border F q -> In p l -> 0 <= a <= 1 -> margin minSafe minStep resolution F <= distance (position (dp_at p a)) q).
  { intros q p a Hq Ho Ip Ha.
    destruct (kept_outline (fr_new resolution junk) pre o x post ltac:(fold ops F; lra) Hn Hk Ud q Hq Ho) as (c & Ic & Cc & Wc). fold ops F in Ic, Cc, Wc.
    specialize (M p a c Ip Ha Ic). unfold Gvd_spec.obstacle in M. rewrite <- (Hc c Ic) in M. specialize (M Cc). rewrite EF in Wc. apply within_distance in Wc; [|lra].
    pose proof (distance_triangle (position (dp_at p a)) q (cell_to_world F c)). unfold margin. lra. }
  split; [exact Q|]. intros s vs Esh Hpart Hlib Hmar Hb Hi.
  destruct (search_placed _ _ _ _ _ _ _ _ _ _ _ _ _ _ _ _ _ _ _ _ Es) as (s0 & lp & Ei & Hs0 & Hpath & Eact).
  destruct (search_motions_spec _ _ _ _ _ _ _ _ _ Hr _ _ _ _ _ _ Es) as (l' & q' & El' & Hlead & _).
  assert (l' = l) as -> by congruence. assert (path_actions lp = l) as <- by congruence.
  refine (motions_outside _ _ _ _ Hmar _ init q' Hlead _ Hi).
  - apply sharp_placed. now apply library_sharp.
  - exact (path_sane _ _ _ _ _ _ _ _ _ _ _ _ _ _ _ Hr Hhres Hm lp s0 _ Hs0 Hpath).
  - intros p a z Ip Ha Hzz. apply Q; auto. exists s. split; auto. now apply part_outline with vs.
Qed.
