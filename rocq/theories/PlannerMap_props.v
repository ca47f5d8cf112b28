(** Properties C81 to C83: the planner, its validators and the size of the map; repeated searches. *)
From Coq Require Import Reals Lra.
From Verif Require Import Base RealBase Grid_model Grid_spec Coords_model Pose_model Straight_model Straight_spec Bicycle_model
  Raster_model Shape_model Shape_spec ObstacleMap_model Gvd_model PathCost_model Validator_model World_model World_spec World_proofs WorldClear_proofs WorldPlan_proofs WorldDemo_proofs
  Pose_spec Hybrid_model Hybrid_spec Planner_model Planner_spec Planner_proofs PlannerPath_proofs PlannerDemo_proofs PlannerMap_proofs PlannerStale_proofs PlannerRepeat_proofs.
From Verif Require Gvd_spec.
From Coq Require Import ZifyBool ZifyNat ZifyN.
Local Open Scope R_scope.

(** C81. Making a validator for a map keeps the obstacles on the map: refuted, because the constructor sets the size of the map. No cell
    is occupied afterwards, and obstacles that were on the map are still registered, so that adding them again changes nothing. *)
Theorem C81_validator_keeps_obstacles_refuted :
  forall top topv, Gvd_spec.priority top -> Gvd_spec.priority topv -> forall fuel Rng draw resolution junk m rng l lower upper s,
  sy_run top topv fuel Rng draw (sy_new Rng resolution junk m rng) (l ++ [PValidator lower upper]) = Ok s ->
  world_used (fr_new resolution junk) false false (history (l ++ [PValidator lower upper])) ->
  forall c, inside (fr_rows (wd_frames (sy_world s))) (fr_cols (wd_frames (sy_world s))) c -> om_occupied (wd_map (sy_world s)) c = Ok false.
Proof. intros top topv Ht Htv fuel Rng draw resolution junk m rng l lower upper s. exact (resize_clears top topv Ht Htv fuel Rng draw resolution junk m rng l (PValidator lower upper) s I). Qed.
Print Assumptions C81_validator_keeps_obstacles_refuted.

Theorem C81_added_again_refuted :
  forall top topv, Gvd_spec.priority top -> Gvd_spec.priority topv -> forall fuel Rng draw resolution junk m rng l lower upper o x s,
  In o (world_registered [] (history l)) ->
  sy_run top topv fuel Rng draw (sy_new Rng resolution junk m rng) (l ++ [PValidator lower upper; PMap (WAdd o x)]) = Ok s ->
  world_used (fr_new resolution junk) false false (history (l ++ [PValidator lower upper; PMap (WAdd o x)])) ->
  forall c, inside (fr_rows (wd_frames (sy_world s))) (fr_cols (wd_frames (sy_world s))) c -> om_occupied (wd_map (sy_world s)) c = Ok false.
Proof.
  intros top topv Ht Htv fuel Rng draw resolution junk m rng l lower upper o x s. exact (resize_forgets top topv Ht Htv fuel Rng draw resolution junk m rng l (PValidator lower upper) o x s I).
Qed.
Print Assumptions C81_added_again_refuted.

(** Obstacles added when they are not registered, and kept since (in particular, no validator was made since), are on the map. *)
Theorem C81_validator_keeps_obstacles_partial :
  forall top topv, Gvd_spec.priority top -> Gvd_spec.priority topv -> forall fuel Rng draw resolution junk m rng l s pre o x post,
  sy_run top topv fuel Rng draw (sy_new Rng resolution junk m rng) l = Ok s -> world_used (fr_new resolution junk) false false (history l) ->
  history l = pre ++ WAdd o x :: post -> ~ In o (world_registered [] pre) -> kept (wd_frames (sy_world s)) o x post ->
  forall c, inside (fr_rows (wd_frames (sy_world s))) (fr_cols (wd_frames (sy_world s))) c -> draws (wd_frames (sy_world s)) x c = true ->
  om_occupied (wd_map (sy_world s)) c = Ok true.
Proof. exact added_later. Qed.
Print Assumptions C81_validator_keeps_obstacles_partial.

(** A square, and then another validator. *)
Example C81_demo : forall top topv, Gvd_spec.priority top -> Gvd_spec.priority topv ->
  let l := [PValidator low20 high20; PMap (WAdd 0 (square 1))] in
  world_used (fr_new 1 (0, 0)) false false (history (l ++ [PValidator low20 high20; PMap (WAdd 0 (square 1))])) /\ In 0%nat (world_registered [] (history l)) /\
  exists k, forall fuel, (k <= fuel)%nat -> exists s s1 s2,
  sy_run top topv fuel unit plan_draw (sy_new unit 1 (0, 0) plan_params tt) l = Ok s /\ om_occupied (wd_map (sy_world s)) (Cell 9 9) = Ok true /\
  sy_run top topv fuel unit plan_draw (sy_new unit 1 (0, 0) plan_params tt) (l ++ [PValidator low20 high20]) = Ok s1 /\ om_occupied (wd_map (sy_world s1)) (Cell 9 9) = Ok false /\
  sy_run top topv fuel unit plan_draw (sy_new unit 1 (0, 0) plan_params tt) (l ++ [PValidator low20 high20; PMap (WAdd 0 (square 1))]) = Ok s2 /\ om_occupied (wd_map (sy_world s2)) (Cell 9 9) = Ok false.
Proof.
  intros top topv Ht Htv l.
  assert (H0 : history l = [WSize 20 20; WAdd 0 (square 1)]) by (unfold history, l; cbn [map_calls low20 high20 px py]; replace (10 - -10) with 20 by ring; reflexivity).
  assert (H1 : history (l ++ [PValidator low20 high20]) = [WSize 20 20; WAdd 0 (square 1); WSize 20 20]) by (unfold history, l; cbn [app map_calls low20 high20 px py]; replace (10 - -10) with 20 by ring; reflexivity).
  assert (H2 : history (l ++ [PValidator low20 high20; PMap (WAdd 0 (square 1))]) = [WSize 20 20; WAdd 0 (square 1); WSize 20 20; WAdd 0 (square 1)]) by (unfold history, l; cbn [app map_calls low20 high20 px py]; replace (10 - -10) with 20 by ring; reflexivity).
  assert (Q : Gvd_spec.representable (fr_rows demo20) (fr_cols demo20)) by (unfold Gvd_spec.representable, Gvd_model.inf; cbn; lia).
  assert (D : drawable demo20 (square 1)) by (unfold drawable; rewrite square_cells by lia; eexists; vm_compute; reflexivity).
  assert (U2 : world_used f0 false false (history (l ++ [PValidator low20 high20; PMap (WAdd 0 (square 1))]))).
  { rewrite H2. cbn [world_used frames_after]. unfold f0. rewrite demo20_init, demo20_again. repeat split; auto; exists demo20; auto. }
  assert (U1 : world_used f0 false false (history (l ++ [PValidator low20 high20]))).
  { rewrite H1. cbn [world_used frames_after]. unfold f0. rewrite demo20_init. repeat split; auto; exists demo20; auto using demo20_again. }
  assert (U0 : world_used f0 false false (history l)).
  { rewrite H0. cbn [world_used frames_after]. unfold f0. rewrite demo20_init. repeat split; auto; exists demo20; auto. }
  assert (R0 : In 0%nat (world_registered [] (history l))) by (rewrite H0; now left).
  split; [exact U2|]. split; [exact R0|].
  assert (Sz : forall x, resizes (PValidator low20 high20) /\ has_size (WSize 20 20 :: x)) by (intros; split; [exact I|now left]).
  assert (Run : forall x, world_used f0 false false (history x) -> has_size (history x) -> Forall (fun x => match x with PMap _ | PValidator _ _ => True | _ => False end) x ->
    exists k, forall fuel, (k <= fuel)%nat -> exists s, sy_run top topv fuel unit plan_draw (sy_new unit 1 (0, 0) plan_params tt) x = Ok s /\
    (world_frames f0 (history x) = demo20 -> om_occupied (wd_map (sy_world s)) (Cell 9 9) = Ok (world_covered f0 [] false (history x) (Cell 9 9)))).
  { intros x U S M. destruct (world_agrees top topv Ht Htv 1 (0, 0) (history x) U S) as (k & w & g & E & _ & F & A). exists k. intros fuel Hf.
    destruct (mapping_run top topv fuel unit plan_draw x M (sy_new unit 1 (0, 0) plan_params tt) false false w) as (s & Es & Ew); [apply (E fuel Hf)|].
    exists s. split; [exact Es|]. intros Fd. fold f0 in F, A. rewrite Fd in F. rewrite Ew. apply A. rewrite F. unfold inside. cbn. lia. }
  destruct (Run l U0) as (k0 & R1); [rewrite H0; apply Sz|repeat constructor|].
  destruct (Run _ U1) as (k1 & R2); [rewrite H1; apply Sz|repeat constructor|].
  destruct (Run _ U2) as (k2 & R3); [rewrite H2; apply Sz|repeat constructor|].
  exists (Nat.max k0 (Nat.max k1 k2)). intros fuel Hf. destruct (R1 fuel ltac:(lia)) as (s & E0 & O0). destruct (R2 fuel ltac:(lia)) as (s1 & E1 & O1). destruct (R3 fuel ltac:(lia)) as (s2 & E2 & O2).
  exists s, s1, s2. split; [exact E0|]. rewrite O0, O1, O2.
  - rewrite H0, H1, H2. cbn [world_covered frames_after registered_step in_dec]. unfold f0. rewrite demo20_init. split; [|split; [exact E1|split; [reflexivity|split; [exact E2|reflexivity]]]].
    unfold draws. rewrite square_cells by lia. vm_compute. reflexivity.
  - rewrite H2. unfold world_frames. cbn [fold_left frames_after]. unfold f0. now rewrite demo20_init, demo20_again.
  - rewrite H1. unfold world_frames. cbn [fold_left frames_after]. unfold f0. now rewrite demo20_init, demo20_again.
  - rewrite H0. unfold world_frames. cbn [fold_left frames_after]. unfold f0. now rewrite demo20_init.
Qed.

(** C82. After the map took a new size, [SearchPath] still keeps the path away from the obstacles: refuted. The planner updates the
    distance maps from before, so that the free cells of the map count as infinitely far from all obstacles, ... *)
Theorem C82_distances_after_resize_refuted :
  forall top topv, Gvd_spec.priority top -> Gvd_spec.priority topv -> forall fuel Rng draw resolution junk m rng a x b s,
  resizes x -> only_searched b ->
  sy_run top topv fuel Rng draw (sy_new Rng resolution junk m rng) (a ++ x :: b) = Ok s -> world_used (fr_new resolution junk) false false (history (a ++ x :: b)) ->
  exists g, wd_dist (sy_world s) = Some g /\
  forall c, inside (fr_rows (wd_frames (sy_world s))) (fr_cols (wd_frames (sy_world s))) c -> om_occupied (wd_map (sy_world s)) c = Ok false ->
    squared_distance_to_obstacle (g_obs g) c = Ok inf.
Proof. exact resized_stale. Qed.
Print Assumptions C82_distances_after_resize_refuted.

(** ... and a path can go through an obstacle on the map. *)
Theorem C82_search_after_resize_refuted :
  forall top topv, Gvd_spec.priority top -> Gvd_spec.priority topv -> exists resolution junk m l v va pre o x post k,
  let F := world_frames (fr_new resolution junk) (history l) in
  0 < resolution /\ 0 < hp_radius m /\ 0 < hp_res m /\ In (PInitialize (Some v)) l /\ world_used (fr_new resolution junk) false false (history l) /\
  history l = pre ++ WAdd o x :: post /\ ~ In o (world_registered [] pre) /\ kept F o x post /\ 0 < margin (va_safe va) (va_step va) resolution F /\
  forall fuel, (k <= fuel)%nat ->
  exists s s' y, sy_run top topv fuel unit plan_draw (sy_new unit resolution junk m tt) l = Ok s /\ nth_error (sy_validators s) v = Some va /\
  sy_search top topv fuel unit plan_draw s = Ok (s', true) /\ In y (pl_path (sy_planner s')) /\ on_obstacle x (position y) /\ off_border F (position y).
Proof.
  intros top topv Ht Htv. destruct (stale_planned top topv Ht Htv) as (k & P).
  exists 1, (0, 0), plan_params, stale_calls, 0%nat, (Checker low20 high20 (69 / 10) (1 / 10)), [WSize 20 20; WGvd; WSize 20 20], 0%nat, blocking, [], k.
  fold f0. rewrite stale_frames. split; [lra|]. split; [cbn; lra|]. split; [cbn; lra|]. split; [right; now left|]. split; [exact stale_used|]. split; [exact stale_history|]. split; [intros []|]. split; [exact stale_kept|]. split; [exact plan_margin|].
  intros fuel Hf. destruct (P fuel Hf) as (s & s' & E & Es & Ep & Ev & _). exists s, s', (Pose (-6) (-7) 0). split; [exact E|]. split; [now rewrite Ev|]. split; [exact Es|]. rewrite Ep. split; [right; right; now left|]. exact blocking_hit.
Qed.
Print Assumptions C82_search_after_resize_refuted.

(** If the user updates the map just before the search, the path keeps its margin, whatever happened to the map since [Initialize]. *)
Theorem C82_search_after_update_partial :
  forall top topv, Gvd_spec.priority top -> Gvd_spec.priority topv -> forall fuel Rng draw resolution junk m rng a v b last s s',
  0 < resolution -> 0 < hp_radius m -> 0 < hp_res m ->
  let l := a ++ PInitialize (Some v) :: b in
  let F := world_frames (fr_new resolution junk) (history l) in
  (forall v', ~ In (PInitialize v') b) -> updates last ->
  sy_run top topv fuel Rng draw (sy_new Rng resolution junk m rng) (l ++ [PMap last]) = Ok s -> sy_search top topv fuel Rng draw s = Ok (s', true) ->
  world_used (fr_new resolution junk) false false (history (l ++ [PMap last; PSearch])) ->
  exists va, nth_error (sy_validators s) v = Some va /\
  let p := sy_planner s in let path := pl_path (sy_planner s') in
  (0 < pl_step p -> 0 < va_step va ->
   (exists x, nth_error path 0 = Some x /\ same_pose x (pl_init p)) /\
   (exists y, nth_error path (length path - 1) = Some y /\ distance (position y) (position (pl_goal p)) < 3 / 2 * pl_step p + 1 / 1000) /\
   forall pre o x post, history l = pre ++ WAdd o x :: post -> ~ In o (world_registered [] pre) -> kept F o x post ->
   forall y q, In y path -> on_obstacle x q -> off_border F q -> margin (va_safe va) (va_step va) resolution F <= distance (position y) q).
Proof. exact planned_updated. Qed.
Print Assumptions C82_search_after_update_partial.

(** The calls above, which meet the hypotheses of [C82_distances_after_resize_refuted]; ... *)
Example C82_stale_demo : forall top topv, Gvd_spec.priority top -> Gvd_spec.priority topv ->
  let b := plan_after ++ [PMap (WAdd 0 blocking)] in let l := stale_before ++ PMap (WSize 20 20) :: b in
  resizes (PMap (WSize 20 20)) /\ only_searched b /\ world_used (fr_new 1 (0, 0)) false false (history l) /\
  exists k, forall fuel, (k <= fuel)%nat -> exists s, sy_run top topv fuel unit plan_draw (sy_new unit 1 (0, 0) plan_params tt) l = Ok s.
Proof.
  intros top topv Ht Htv b l. split; [exact I|]. split; [repeat constructor|]. split; [exact stale_used|]. destruct (stale_planned top topv Ht Htv) as (k & P). exists k. intros fuel Hf. destruct (P fuel Hf) as (s & _ & E & _). exists s. exact E.
Qed.

(** ... and the same with another obstacle and an update of the map: a path is found, and it keeps its margin. *)
Example C82_update_demo : forall top topv, Gvd_spec.priority top -> Gvd_spec.priority topv ->
  let b := PMap (WSize 20 20) :: plan_after ++ [PMap (WAdd 0 (square 1))] in
  let l := [PValidator low20 high20] ++ PInitialize (Some 0%nat) :: b in
  world_used (fr_new 1 (0, 0)) false false (history (l ++ [PMap WUpdate; PSearch])) /\
  0 < margin (69 / 10) (1 / 10) 1 (world_frames (fr_new 1 (0, 0)) (history l)) /\
  history l = [WSize 20 20; WGvd; WSize 20 20] ++ WAdd 0 (square 1) :: [] /\
  exists k, forall fuel, (k <= fuel)%nat -> exists s s', sy_run top topv fuel unit plan_draw (sy_new unit 1 (0, 0) plan_params tt) (l ++ [PMap WUpdate]) = Ok s /\
  sy_search top topv fuel unit plan_draw s = Ok (s', true) /\ sy_validators s = [Checker low20 high20 (69 / 10) (1 / 10)] /\ pl_path (sy_planner s') = plan_path /\
  forall y q, In y plan_path -> on_obstacle (square 1) q -> off_border demo20 q -> margin (69 / 10) (1 / 10) 1 demo20 <= distance (position y) q.
Proof.
  intros top topv Ht Htv b l.
  assert (H0 : history l = history (stale_list [WAdd 0 (square 1)])) by reflexivity.
  assert (U : world_used f0 false false (history (l ++ [PMap WUpdate; PSearch]))).
  { assert (history (l ++ [PMap WUpdate; PSearch]) = history (stale_list [WAdd 0 (square 1)]) ++ [WUpdate]) as -> by reflexivity. apply fresh_used. repeat constructor. }
  assert (K : kept demo20 0 (square 1) []) by constructor.
  split; [exact U|]. rewrite H0. fold f0. rewrite fresh_frames. split; [exact plan_margin|]. split; [exact fresh_history|].
  destruct (fresh_planned top topv Ht Htv) as (k & P). exists k. intros fuel Hf. destruct (P fuel Hf) as (s & s' & E & Es & Ep & Ev & Est).
  exists s, s'. split; [exact E|]. split; [exact Es|]. split; [exact Ev|]. split; [exact Ep|].
  assert (Hb : forall v', ~ In (PInitialize v') b) by (intros v' H; cbn in H; intuition discriminate).
  pose proof (C82_search_after_update_partial top topv Ht Htv fuel unit plan_draw 1 (0, 0) plan_params tt [PValidator low20 high20] 0%nat b WUpdate s s' ltac:(lra) ltac:(cbn; lra) ltac:(cbn; lra) Hb (or_introl eq_refl) E Es U) as (va & Eva & X).
  rewrite Ev in Eva. injection Eva as <-. cbn [va_safe va_step] in X. rewrite Est, Ep in X. destruct (X ltac:(lra) ltac:(lra)) as (_ & _ & Y).
  fold l in Y. rewrite H0 in Y. fold f0 in Y. rewrite fresh_frames in Y.
  apply (Y [WSize 20 20; WGvd; WSize 20 20] 0%nat (square 1) []); [rewrite fresh_history; reflexivity|intros []|exact K].
Qed.

(** C83. Searching again with nothing changed, and with the random generator in the same state as before, gives the same result, the same
    path and the same state of the map and the planner (searches before, and changes of the map between initialization and the first of
    the two searches, are allowed). *)
Theorem C83_search_again :
  forall top topv fuel Rng draw resolution junk m rng a v b s s' r,
  undisturbed b -> sy_run top topv fuel Rng draw (sy_new Rng resolution junk m rng) (a ++ PInitialize (Some v) :: b) = Ok s ->
  sy_search top topv fuel Rng draw s = Ok (s', r) -> sy_search top topv fuel Rng draw (reseed s' (sy_rng s)) = Ok (s', r).
Proof. exact planned_again. Qed.
Print Assumptions C83_search_again.

(** The plan of C78, twice. *)
Example C83_demo : forall top topv, Gvd_spec.priority top -> Gvd_spec.priority topv -> undisturbed plan_after /\ exists k, forall fuel, (k <= fuel)%nat ->
  exists s s', sy_run top topv fuel unit plan_draw (sy_new unit 1 (0, 0) plan_params tt) plan_calls = Ok s /\
  sy_search top topv fuel unit plan_draw s = Ok (s', true) /\ sy_search top topv fuel unit plan_draw s' = Ok (s', true) /\ pl_path (sy_planner s') = plan_path.
Proof.
  intros top topv Ht Htv. assert (U : undisturbed plan_after) by repeat constructor. split; [exact U|]. destruct (demo_planned top topv Ht Htv) as (k & P). exists k. intros fuel Hf. destruct (P fuel Hf) as (s & s' & E & Es & Ep & _).
  exists s, s'. split; [exact E|]. split; [exact Es|]. split; [|exact Ep].
  pose proof (C83_search_again top topv fuel unit plan_draw 1 (0, 0) plan_params tt plan_before 0%nat plan_after s s' true U E Es) as X.
  assert (reseed s' (sy_rng s) = s') as H by (destruct s' as [? ? ? []], (sy_rng s); reflexivity). rewrite H in X. exact X.
Qed.
