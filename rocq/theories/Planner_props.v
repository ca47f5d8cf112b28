(** Properties C78 to C80: the planner as a whole, over histories of calls on a map, its validators and the planner. *)
From Coq Require Import Reals Lra.
From Verif Require Import Base RealBase Grid_model Grid_spec Coords_model Pose_model Straight_model Straight_spec Bicycle_model
  Shape_model Shape_spec ObstacleMap_model Gvd_model PathCost_model Validator_model World_model World_spec World_proofs WorldClear_proofs WorldPlan_proofs WorldDemo_proofs
  Pose_spec Hybrid_model Hybrid_spec Planner_model Planner_spec Planner_proofs PlannerPath_proofs PlannerDemo_proofs.
From Verif Require Gvd_spec.
From Coq Require Import ZifyBool ZifyNat ZifyN.
Local Open Scope R_scope.

(** C78. If [SearchPath] succeeds, after any history of calls in which the planner was initialized and the map was not resized since,
    the path starts at the initial pose, ends near the goal, and keeps its margin from the outline of every obstacle of the map. *)
Theorem C78_planned_path :
  forall top topv, Gvd_spec.priority top -> Gvd_spec.priority topv -> forall fuel Rng draw resolution junk m rng a v b s s',
  0 < resolution -> 0 < hp_radius m -> 0 < hp_res m ->
  let l := a ++ PInitialize (Some v) :: b in
  let F := world_frames (fr_new resolution junk) (history l) in
  undisturbed b -> sy_run top topv fuel Rng draw (sy_new Rng resolution junk m rng) l = Ok s -> sy_search top topv fuel Rng draw s = Ok (s', true) ->
  world_used (fr_new resolution junk) false false (history l ++ [WGvdUpdate]) ->
  exists va, nth_error (sy_validators s) v = Some va /\
  let p := sy_planner s in let path := pl_path (sy_planner s') in
  (0 < pl_step p -> 0 < va_step va ->
   (exists x, nth_error path 0 = Some x /\ same_pose x (pl_init p)) /\
   (exists y, nth_error path (length path - 1) = Some y /\ distance (position y) (position (pl_goal p)) < 3 / 2 * pl_step p + 1 / 1000) /\
   forall pre o x post, history l = pre ++ WAdd o x :: post -> ~ In o (world_registered [] pre) -> kept F o x post ->
   forall y q, In y path -> on_obstacle x q -> off_border F q -> margin (va_safe va) (va_step va) resolution F <= distance (position y) q).
Proof. exact planned_path. Qed.
Print Assumptions C78_planned_path.

(** A planner for a map of 20 by 20 cells with a square in its middle: all hypotheses are met, and the search finds a path. *)
Example C78_demo : forall top topv, Gvd_spec.priority top -> Gvd_spec.priority topv ->
  plan_calls = plan_before ++ PInitialize (Some 0%nat) :: plan_after /\ undisturbed plan_after /\
  world_used (fr_new 1 (0, 0)) false false (history plan_calls ++ [WGvdUpdate]) /\
  (exists pre post, history plan_calls = pre ++ WAdd 0 (square 1) :: post /\ ~ In 0%nat (world_registered [] pre) /\ kept demo20 0 (square 1) post) /\
  world_frames (fr_new 1 (0, 0)) (history plan_calls) = demo20 /\ 0 < margin (69 / 10) (1 / 10) 1 demo20 /\
  exists k, forall fuel, (k <= fuel)%nat ->
  exists s s', sy_run top topv fuel unit plan_draw (sy_new unit 1 (0, 0) plan_params tt) plan_calls = Ok s /\
  sy_search top topv fuel unit plan_draw s = Ok (s', true) /\ pl_path (sy_planner s') = plan_path /\
  pl_init (sy_planner s) = plan_init /\ pl_goal (sy_planner s) = plan_goal /\ pl_step (sy_planner s) = 1 / 2 /\ sy_validators s = [Checker low20 high20 (69 / 10) (1 / 10)].
Proof.
  intros top topv Ht Htv. split; [reflexivity|]. split; [repeat constructor|]. split; [exact plan_used|]. split; [|split; [exact plan_frames|split; [exact plan_margin|now apply demo_planned]]].
  exists [WSize 20 20], [WGvd]. rewrite plan_history. split; [reflexivity|]. split; [intros []|]. repeat constructor.
Qed.

(** C79. Before a successful [Initialize], and after one with a null pointer, [SearchPath] fails and changes nothing: *)
Theorem C79_uninitialized_search_fails :
  forall top topv fuel Rng draw resolution junk m rng l s,
  (forall v, ~ In (PInitialize (Some v)) l) -> sy_run top topv fuel Rng draw (sy_new Rng resolution junk m rng) l = Ok s ->
  sy_search top topv fuel Rng draw s = Ok (s, false) /\ pl_path (sy_planner s) = [].
Proof.
  intros top topv fuel Rng draw resolution junk m rng l s N E.
  destruct (run_unready top topv fuel Rng draw l (sy_new Rng resolution junk m rng) _ eq_refl N E) as [R P]. split; [now apply search_unready|exact P].
Qed.
Print Assumptions C79_uninitialized_search_fails.

Theorem C79_null_validator :
  forall top topv fuel Rng draw resolution junk m rng a b s,
  (forall v, ~ In (PInitialize (Some v)) b) -> sy_run top topv fuel Rng draw (sy_new Rng resolution junk m rng) (a ++ PInitialize None :: b) = Ok s ->
  sy_search top topv fuel Rng draw s = Ok (s, false) /\
  exists s1, sy_run top topv fuel Rng draw (sy_new Rng resolution junk m rng) a = Ok s1 /\ pl_path (sy_planner s) = pl_path (sy_planner s1).
Proof.
  intros top topv fuel Rng draw resolution junk m rng a b s N E. rewrite sy_run_app in E. destruct (sy_run _ _ _ _ _ _ a) as [s1| | |]; try discriminate. cbn [bind sy_run sy_step sy_initialize rmap fst] in E.
  pose proof (fun H => run_unready top topv fuel Rng draw b _ _ H N E) as K. destruct (K eq_refl) as [R P]. split; [now apply search_unready|]. exists s1. split; [reflexivity|exact P].
Qed.
Print Assumptions C79_null_validator.

(** C80. The parameters given to [SetSmootherParameters] are the ones used: refuted, because [Initialize] resets them. *)
Theorem C80_smoother_parameters_refuted :
  forall top topv fuel Rng draw s v s', sy_step top topv fuel Rng draw s (PInitialize (Some v)) = Ok s' ->
  pl_smoothing (sy_planner s') = default_smoothing (1 / hp_radius (pl_params (sy_planner s))).
Proof. intros top topv fuel Rng draw s v s' E. apply initialize_inv in E as (va & w & h & o & _ & _ & ->). reflexivity. Qed.
Print Assumptions C80_smoother_parameters_refuted.

(** Set after [Initialize], they stay through all other calls. *)
Theorem C80_smoother_parameters_partial :
  forall top topv fuel Rng draw s x l s',
  (forall v, ~ In (PInitialize (Some v)) l) -> (forall p, ~ In (PSmoothing p) l) -> sy_run top topv fuel Rng draw s (PSmoothing x :: l) = Ok s' ->
  pl_smoothing (sy_planner s') = x.
Proof. intros top topv fuel Rng draw s x l s' N1 N2 E. cbn [sy_run sy_step bind] in E. now rewrite (run_smoothing _ _ _ _ _ _ _ _ N1 N2 E). Qed.
Print Assumptions C80_smoother_parameters_partial.

(** A user sets another learning rate, and initializes the planner: the rate is lost. *)
Example C80_demo : forall top topv, Gvd_spec.priority top -> Gvd_spec.priority topv -> forall x, exists k, forall fuel, (k <= fuel)%nat ->
  exists s, sy_run top topv fuel unit plan_draw (sy_new unit 1 (0, 0) plan_params tt) (plan_before ++ [PSmoothing x; PInitialize (Some 0%nat)]) = Ok s /\
  pl_ready (sy_planner s) = true /\ sm_rate (pl_smoothing (sy_planner s)) = 1 / 100.
Proof.
  intros top topv Ht Htv x. destruct (demo_planned top topv Ht Htv) as (k & H). exists k. intros fuel Hf. destruct (H fuel Hf) as (s & _ & E & _). unfold plan_calls in E. rewrite sy_run_app in *.
  destruct (sy_run _ _ _ _ _ _ plan_before) as [s0| | |]; try discriminate. cbn [bind sy_run] in *. cbn [sy_step bind]. unfold sy_step in E at 1. unfold sy_initialize in *. cbn [with_planner sy_validators sy_planner sy_world pl_params].
  destruct (vget _ _) as [va| | |]; try discriminate. cbn [bind] in *. destruct (wd_step _ _ _ _ _) as [w| | |]; try discriminate. cbn [bind] in *.
  destruct (NonHol_model.nh_build _ _ _ _ _ _ _ _) as [nh| | |]; try discriminate. cbn [bind] in *. destruct (ObstHeur_model.oh_new _ _) as [o| | |]; try discriminate. cbn [bind rmap fst].
  eexists. split; [reflexivity|]. split; reflexivity.
Qed.
