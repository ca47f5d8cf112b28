(** Property C86: the picture of the obstacle heuristic. *)
From Coq Require Import Reals Lra.
From Verif Require Import Base RealBase Grid_model Grid_spec AStarN2_spec Coords_model Coords_proofs Pose_model Straight_model ObstHeur_spec ObstHeur_proofs
  Shape_model World_model World_spec WorldDemo_proofs Planner_model Planner_spec PlannerDemo_proofs Visual_model Visual_spec Visual_proofs VisualCost_proofs.
From Verif Require Gvd_spec.
From Coq Require Import ZifyBool ZifyNat ZifyN.
Local Open Scope R_scope.

(** Once the planner was initialized, [VisualizeObstacleHeuristic] always writes a well-formed picture; before, it uses a null pointer. *)
Theorem C86_well_formed :
  forall top topv fuel Rng draw resolution junk m rng a v b s,
  sy_run top topv fuel Rng draw (sy_new Rng resolution junk m rng) (a ++ PInitialize (Some v) :: b) = Ok s -> exists bytes p, sy_picture s = Ok bytes /\ read_ppm bytes = Some p.
Proof. exact always_pictured. Qed.
Print Assumptions C86_well_formed.

Theorem C86_not_initialized :
  forall top topv fuel Rng draw resolution junk m rng l s, (forall v, ~ In (PInitialize (Some v)) l) ->
  sy_run top topv fuel Rng draw (sy_new Rng resolution junk m rng) l = Ok s -> sy_picture s = UB.
Proof.
  intros top topv fuel Rng draw resolution junk m rng l s N E. unfold sy_picture. now rewrite (run_no_parts top topv fuel Rng draw l _ s N E eq_refl eq_refl).
Qed.
Print Assumptions C86_not_initialized.

(** After a search, each pixel shows how far its cell is from that of the goal: cells that cannot be reached are black, and
    the others get darker with the length [len] of a walk around the obstacles, up to the largest one [M]. *)
Theorem C86_shows_distances :
  forall top topv, Gvd_spec.priority top -> Gvd_spec.priority topv -> forall fuel Rng draw resolution junk m rng a v b s s' r start,
  let l := a ++ PInitialize (Some v) :: b in
  let F := world_frames (fr_new resolution junk) (history l) in
  let blocked := world_covered (fr_new resolution junk) [] false (history l) in
  let reaches := walk (fr_rows F) (fr_cols F) blocked start in
  undisturbed b -> sy_run top topv fuel Rng draw (sy_new Rng resolution junk m rng) l = Ok s -> world_used (fr_new resolution junk) false false (history l) ->
  sy_search top topv fuel Rng draw s = Ok (s', r) -> world_to_cell F (position (pl_goal (sy_planner s))) true = Ok start -> inside (fr_rows F) (fr_cols F) start ->
  exists bytes p len M, sy_picture s' = Ok bytes /\ read_ppm bytes = Some p /\ p_width p = fr_rows F /\ p_height p = fr_cols F /\ p_max p = 255%Z /\
  (forall c w, reaches w c -> (exists w', reaches w' c /\ len c = walk_cost octile start w') /\ len c <= sqrt 2 * walk_cost octile start w /\ len c <= M) /\
  (exists c w, reaches w c /\ len c = M) /\
  forall c, inside (fr_rows F) (fr_cols F) c -> exists g, shown p c = Some (g, g, g) /\
    ((forall w, ~ reaches w c) -> g = 0%Z) /\
    (forall w, reaches w c -> (M = 0 -> g = 0%Z) /\ (0 < M -> IZR g <= 255 * (1 - len c / M) < IZR g + 1)).
Proof. exact searched_picture. Qed.
Print Assumptions C86_shows_distances.

(** In particular, the goal is white if another cell can be reached; ... *)
Theorem C86_goal_white :
  forall top topv, Gvd_spec.priority top -> Gvd_spec.priority topv -> forall fuel Rng draw resolution junk m rng a v b s s' r start c w,
  let l := a ++ PInitialize (Some v) :: b in
  let F := world_frames (fr_new resolution junk) (history l) in
  let blocked := world_covered (fr_new resolution junk) [] false (history l) in
  undisturbed b -> sy_run top topv fuel Rng draw (sy_new Rng resolution junk m rng) l = Ok s -> world_used (fr_new resolution junk) false false (history l) ->
  sy_search top topv fuel Rng draw s = Ok (s', r) -> world_to_cell F (position (pl_goal (sy_planner s))) true = Ok start -> inside (fr_rows F) (fr_cols F) start ->
  walk (fr_rows F) (fr_cols F) blocked start w c -> c <> start ->
  exists bytes p, sy_picture s' = Ok bytes /\ read_ppm bytes = Some p /\ shown p start = Some (255, 255, 255)%Z.
Proof.
  intros top topv Ht Htv fuel Rng draw resolution junk m rng a v b s s' r start c w l F blocked Ub E U Es Est Hs W N.
  destruct (searched_picture top topv Ht Htv fuel Rng draw resolution junk m rng a v b s s' r start Ub E U Es Est Hs) as (bytes & p & len & M & P1 & P2 & _ & _ & _ & L & _ & Sh).
  exists bytes, p. split; auto. split; auto. destruct (Sh start Hs) as (g & Eg & _ & G). destruct (G [] eq_refl) as (_ & G2).
  destruct (L c w W) as ((w' & W' & Lc) & _ & LM). destruct (L start [] eq_refl) as ((w0 & W0 & L0) & Z0 & _). cbn [walk_cost] in Z0.
  assert (Lpos : forall l q, 0 <= walk_cost octile q l) by (clear; induction l as [|c l IH]; intros q; cbn; [lra|]; specialize (IH c); unfold octile at 1; pose proof sqrt2_bounds; destruct (_ || _); lra).
  assert (0 < M).
  { destruct w' as [|k w']; [cbn in W'; congruence|]. cbn [walk_cost] in Lc. pose proof (Lpos w' k). pose proof sqrt2_bounds. unfold octile at 1 in Lc. destruct (_ || _) in Lc; lra. }
  specialize (G2 H). assert (Z : len start = 0) by (pose proof (Lpos w0 start); lra). rewrite Z in G2. replace (0 / M) with 0 in G2 by (field; lra).
  assert (g = 255%Z) as ->; [|exact Eg]. destruct G2 as [G1 G2]. replace (255 * (1 - 0)) with 255 in * by ring. apply le_IZR in G1. rewrite <- plus_IZR in G2. apply lt_IZR in G2. lia.
Qed.
Print Assumptions C86_goal_white.

(** ... but black does not mean that the cell cannot be reached: the farthest ones are black too. *)
Theorem C86_farthest_black :
  forall top topv, Gvd_spec.priority top -> Gvd_spec.priority topv -> forall fuel Rng draw resolution junk m rng a v b s s' r start,
  let l := a ++ PInitialize (Some v) :: b in
  let F := world_frames (fr_new resolution junk) (history l) in
  let blocked := world_covered (fr_new resolution junk) [] false (history l) in
  undisturbed b -> sy_run top topv fuel Rng draw (sy_new Rng resolution junk m rng) l = Ok s -> world_used (fr_new resolution junk) false false (history l) ->
  sy_search top topv fuel Rng draw s = Ok (s', r) -> world_to_cell F (position (pl_goal (sy_planner s))) true = Ok start -> inside (fr_rows F) (fr_cols F) start ->
  exists bytes p c w, sy_picture s' = Ok bytes /\ read_ppm bytes = Some p /\ walk (fr_rows F) (fr_cols F) blocked start w c /\ shown p c = Some (0, 0, 0)%Z.
Proof.
  intros top topv Ht Htv fuel Rng draw resolution junk m rng a v b s s' r start l F blocked Ub E U Es Est Hs.
  destruct (searched_picture top topv Ht Htv fuel Rng draw resolution junk m rng a v b s s' r start Ub E U Es Est Hs) as (bytes & p & len & M & P1 & P2 & _ & _ & _ & L & (c & w & W & EM) & Sh).
  exists bytes, p, c, w. repeat (split; [assumption|]). 
  assert (Lw : forall m n o l p q, walk m n o p l q -> inside m n p -> inside m n q) by (clear; intros m n o; induction l as [|c l IH]; cbn; intros p q H Hp; [now subst|]; destruct H as [(H & _) W]; eauto).
  destruct (Sh c (Lw _ _ _ _ _ _ W Hs)) as (g & Eg & _ & G). destruct (G w W) as (G1 & G2).
  assert (0 <= M).
  { destruct (L start [] eq_refl) as ((w0 & _ & L0) & _ & LM). assert (Lpos : forall l q, 0 <= walk_cost octile q l) by (clear; induction l as [|c l IH]; intros q; cbn; [lra|]; specialize (IH c); unfold octile at 1; pose proof sqrt2_bounds; destruct (_ || _); lra).
    pose proof (Lpos w0 start). lra. }
  assert (g = 0%Z) as ->; [|exact Eg]. destruct (Req_dec M 0) as [Z|Z]; [auto|]. specialize (G2 ltac:(lra)). rewrite EM in G2. replace (M / M) with 1 in G2 by (field; lra). replace (255 * (1 - 1)) with 0 in G2 by ring.
  destruct G2 as [G2 G3]. apply (le_IZR g 0) in G2. rewrite <- (plus_IZR g 1) in G3. apply (lt_IZR 0) in G3. lia.
Qed.
Print Assumptions C86_farthest_black.

(** If the goal is outside the map, the picture is black. *)
Theorem C86_goal_outside :
  forall top topv, Gvd_spec.priority top -> Gvd_spec.priority topv -> forall fuel Rng draw resolution junk m rng a v b s s' r start,
  let l := a ++ PInitialize (Some v) :: b in
  let F := world_frames (fr_new resolution junk) (history l) in
  undisturbed b -> sy_run top topv fuel Rng draw (sy_new Rng resolution junk m rng) l = Ok s -> world_used (fr_new resolution junk) false false (history l) ->
  sy_search top topv fuel Rng draw s = Ok (s', r) -> world_to_cell F (position (pl_goal (sy_planner s))) true = Ok start -> ~ inside (fr_rows F) (fr_cols F) start ->
  exists bytes p, sy_picture s' = Ok bytes /\ read_ppm bytes = Some p /\ p_width p = fr_rows F /\ p_height p = fr_cols F /\ p_max p = 255%Z /\
  forall c, inside (fr_rows F) (fr_cols F) c -> shown p c = Some (0, 0, 0)%Z.
Proof. exact outside_picture. Qed.
Print Assumptions C86_goal_outside.

(** The planner of C78_demo: its goal is in the cell (4, 3), from which others can be reached, but not those of the square. *)
Example C86_demo : forall top topv, Gvd_spec.priority top -> Gvd_spec.priority topv ->
  plan_calls = plan_before ++ PInitialize (Some 0%nat) :: plan_after /\ undisturbed plan_after /\ world_used (fr_new 1 (0, 0)) false false (history plan_calls) /\
  world_frames (fr_new 1 (0, 0)) (history plan_calls) = demo20 /\ world_to_cell demo20 (position plan_goal) true = Ok (Cell 4 3) /\
  walk 20 20 (world_covered (fr_new 1 (0, 0)) [] false (history plan_calls)) (Cell 4 3) [Cell 4 4] (Cell 4 4) /\
  (forall w, ~ walk 20 20 (world_covered (fr_new 1 (0, 0)) [] false (history plan_calls)) (Cell 4 3) w (Cell 9 9)) /\
  exists k, forall fuel, (k <= fuel)%nat ->
  exists s s', sy_run top topv fuel unit plan_draw (sy_new unit 1 (0, 0) plan_params tt) plan_calls = Ok s /\
  sy_search top topv fuel unit plan_draw s = Ok (s', true) /\ pl_goal (sy_planner s) = plan_goal.
Proof.
  intros top topv Ht Htv. split; [reflexivity|]. split; [repeat constructor|].
  assert (App : forall ops x f sz md, world_used f sz md (ops ++ [x]) -> world_used f sz md ops) by (clear; induction ops as [|y ops IH]; intros x f sz md; cbn; [auto|]; intros [H1 H2]; split; eauto).
  split; [eapply App; exact plan_used|]. split; [exact plan_frames|].
  assert (Cv : forall c, world_covered (fr_new 1 (0, 0)) [] false (history plan_calls) c = draws demo20 (square 1) c).
  { intros c. rewrite plan_history. cbn [world_covered frames_after registered_step in_dec]. rewrite demo20_init. now rewrite orb_false_r. }
  assert (Dr : forall c, draws demo20 (square 1) c = match boundary_cells demo20 (square 1) with Ok l => existsb (cell_eqb c) l | _ => false end) by reflexivity.
  split; [|split; [|split]].
  - unfold world_to_cell, grid_to_cell, plan_goal, position. cbn [fst snd fr_world_grid demo20 fr_res px py].
    assert (C1 : cast_int ((- 11 / 2 - -10) / 1) = Ok 4%Z).
    { apply cast_int_ok. split; [|unfold is_int, int_min, int_max; lia]. destruct (Rtrunc_spec ((- 11 / 2 - -10) / 1)) as [(_ & B & _)|(A & _)]; [|lra]. destruct B as [B1 B2].
      assert (IZR (Rtrunc ((- 11 / 2 - -10) / 1)) < 5) as B3 by lra. rewrite <- (plus_IZR _ 1) in B2. assert (4 < IZR (Rtrunc ((- 11 / 2 - -10) / 1) + 1)) as B4 by lra. apply lt_IZR in B3. apply (lt_IZR 4) in B4. lia. }
    replace (0 + - 20 / 2) with (-10) by field. rewrite C1. cbn [bind]. replace ((-7 - -10) / 1) with (IZR 3) by field. rewrite cast_IZR by (unfold is_int, int_min, int_max; lia). reflexivity.
  - split; [|reflexivity]. split; [unfold inside; cbn; lia|]. split; [|split; [rewrite Cv, Dr, square_cells by lia; vm_compute; reflexivity|cbn; intros (H & _); lia]].
    unfold touches. cbn. lia.
  - intros w W. assert (Last : forall m n o w p q, walk m n o p w q -> p <> q -> o q = false).
    { clear. intros m n o. induction w as [|c w IH]; intros p q W N; cbn in W; [now destruct N|]. destruct W as [(_ & _ & Q & _) W]. destruct w as [|c' w']; [cbn in W; congruence|]. destruct (cell_dec c q) as [->|N']; eauto. }
    apply Last in W; [|discriminate]. rewrite Cv, Dr, square_cells in W by lia. vm_compute in W. discriminate.
  - destruct (demo_planned top topv Ht Htv) as (k & H). exists k. intros fuel Hf. destruct (H fuel Hf) as (s & s' & E & Es & _ & _ & Eg & _). exists s, s'. auto.
Qed.
