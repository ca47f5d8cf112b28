(** Properties C68 and C85: searches that fail, and the start of those that succeed. *)
From Coq Require Import Reals Lra.
From Verif Require Import Base RealBase Coords_model Pose_model Pose_spec Straight_model Validator_model World_model WorldDemo_proofs Hybrid_model
  Planner_model Planner_spec Planner_proofs PlannerDemo_proofs PlannerFail_proofs.
From Verif Require Gvd_spec.
From Coq Require Import ZifyBool ZifyNat ZifyN.
Local Open Scope R_scope.

(** C68. Full statement: after a failed [SearchPath], [GetPath] does not return a path of an earlier search. It is false after every
    successful search: if the user then sets a safe radius above some value, and searches again, the search fails and the path is still
    the one of before, which may come as near to obstacles as the former radius allowed. *)
Theorem C68_stale_path_refuted :
  forall top topv fuel Rng draw resolution junk m rng a v b s s',
  0 < hp_res m -> 0 < hp_radius m -> undisturbed b ->
  sy_run top topv fuel Rng draw (sy_new Rng resolution junk m rng) (a ++ PInitialize (Some v) :: b) = Ok s ->
  sy_search top topv fuel Rng draw s = Ok (s', true) ->
  exists r0, forall r, r0 < r -> exists s2 s3,
  sy_run top topv fuel Rng draw s' [PSafe v r] = Ok s2 /\ sy_search top topv fuel Rng draw s2 = Ok (s3, false) /\ pl_path (sy_planner s3) = pl_path (sy_planner s').
Proof. exact planned_stale. Qed.
Print Assumptions C68_stale_path_refuted.

(** The same for any change of parameters, if the start is not valid after it. *)
Theorem C68_blocked_start_refuted :
  forall top topv fuel Rng draw resolution junk m rng a v b s s' r l s2,
  0 < hp_res m -> 0 < hp_radius m -> undisturbed b ->
  sy_run top topv fuel Rng draw (sy_new Rng resolution junk m rng) (a ++ PInitialize (Some v) :: b) = Ok s ->
  sy_search top topv fuel Rng draw s = Ok (s', r) -> tuned l -> sy_run top topv fuel Rng draw s' l = Ok s2 ->
  (forall x, same_pose x (pl_init (sy_planner s)) -> sy_valid Rng s2 v x = Ok false) ->
  exists s3, sy_search top topv fuel Rng draw s2 = Ok (s3, false) /\ pl_path (sy_planner s3) = pl_path (sy_planner s').
Proof. exact planned_blocked. Qed.
Print Assumptions C68_blocked_start_refuted.

(** What holds: a failed search leaves the path as it was, so before the first success there is none. *)
Theorem C68_failed_search_partial :
  forall top topv fuel Rng draw s s', sy_search top topv fuel Rng draw s = Ok (s', false) -> pl_path (sy_planner s') = pl_path (sy_planner s).
Proof. exact failed_keeps. Qed.
Print Assumptions C68_failed_search_partial.

(** The plan of C78: a larger safe radius, and the path found with the smaller one stays. *)
Example C68_demo : forall top topv, Gvd_spec.priority top -> Gvd_spec.priority topv -> exists k, forall fuel, (k <= fuel)%nat ->
  exists s s' r s2 s3, sy_run top topv fuel unit plan_draw (sy_new unit 1 (0, 0) plan_params tt) plan_calls = Ok s /\
  sy_search top topv fuel unit plan_draw s = Ok (s', true) /\
  sy_run top topv fuel unit plan_draw s' [PSafe 0%nat r] = Ok s2 /\ sy_search top topv fuel unit plan_draw s2 = Ok (s3, false) /\
  pl_path (sy_planner s3) = plan_path /\ plan_path <> [].
Proof.
  intros top topv Ht Htv. destruct (demo_planned top topv Ht Htv) as (k & P). exists k. intros fuel Hf. destruct (P fuel Hf) as (s & s' & E & Es & Ep & _).
  destruct (C68_stale_path_refuted top topv fuel unit plan_draw 1 (0, 0) plan_params tt plan_before 0%nat plan_after s s' ltac:(cbn; lra) ltac:(cbn; lra) ltac:(repeat constructor) E Es) as (r0 & X).
  destruct (X (r0 + 1) ltac:(lra)) as (s2 & s3 & E2 & E3 & P3). exists s, s', (r0 + 1), s2, s3. repeat (split; [assumption|]). split; [now rewrite P3|discriminate].
Qed.

(** C85. [SearchPath] only succeeds if its start is valid (heading up to full turns): whatever calls were made before, if the validator
    rejects the initial pose on the map as it is after the search, the search does not report success. *)
Theorem C85_valid_start :
  forall top topv fuel Rng draw resolution junk m rng a v b s s',
  0 < hp_res m -> 0 < hp_radius m -> (forall v', ~ In (PInitialize v') b) ->
  sy_run top topv fuel Rng draw (sy_new Rng resolution junk m rng) (a ++ PInitialize (Some v) :: b) = Ok s ->
  sy_search top topv fuel Rng draw s = Ok (s', true) ->
  exists x, same_pose x (pl_init (sy_planner s)) /\ sy_valid Rng s' v x = Ok true.
Proof. exact planned_valid. Qed.
Print Assumptions C85_valid_start.

(** The plan of C78 meets the hypotheses. *)
Example C85_demo : forall top topv, Gvd_spec.priority top -> Gvd_spec.priority topv -> (forall v', ~ In (PInitialize v') plan_after) /\ exists k, forall fuel, (k <= fuel)%nat ->
  exists s s' x, sy_run top topv fuel unit plan_draw (sy_new unit 1 (0, 0) plan_params tt) (plan_before ++ PInitialize (Some 0%nat) :: plan_after) = Ok s /\
  sy_search top topv fuel unit plan_draw s = Ok (s', true) /\ same_pose x plan_init /\ sy_valid unit s' 0 x = Ok true.
Proof.
  intros top topv Ht Htv. assert (N : forall v', ~ In (PInitialize v') plan_after) by (intros v' H; cbn in H; intuition discriminate). split; [exact N|].
  destruct (demo_planned top topv Ht Htv) as (k & P). exists k. intros fuel Hf. destruct (P fuel Hf) as (s & s' & E & Es & _ & Ei & _).
  destruct (C85_valid_start top topv fuel unit plan_draw 1 (0, 0) plan_params tt plan_before 0%nat plan_after s s' ltac:(cbn; lra) ltac:(cbn; lra) N E Es) as (x & X & V).
  exists s, s', x. rewrite Ei in X. auto.
Qed.
