(** Property C84: the search and the table of its heuristic. *)
From Coq Require Import Reals Lra.
From Verif Require Import Base RealBase Coords_model Pose_model Straight_model Validator_model Pose_spec Straight_spec World_model WorldDemo_proofs NonHol_model Hybrid_model
  Planner_model Planner_spec Planner_proofs PlannerDemo_proofs PlannerTable_proofs.
From Verif Require Gvd_spec.
From Coq Require Import ZifyBool ZifyNat ZifyN.
Local Open Scope R_scope.

(** C84. Full statement: [SearchPath] returns, whatever the initial pose and the goal. It is false: after any history of calls in which the
    planner was initialized, if the goal is nearer to the start than half of the width and of the height of the bounds, and its heading
    is to the right of the start's by at least half of the angular resolution, the search reads outside of the table of distances. *)
Theorem C84_search_reads_table_refuted :
  forall top topv fuel Rng draw resolution junk m rng a v b s va t r,
  0 < hp_res m -> 1 / 1000 <= hp_ang m -> 0 < hp_radius m -> (forall v', ~ In (PInitialize v') b) ->
  sy_run top topv fuel Rng draw (sy_new Rng resolution junk m rng) (a ++ PInitialize (Some v) :: b) = Ok s -> nth_error (sy_validators s) v = Some va ->
  let width := px (va_upper va) - px (va_lower va) in let height := py (va_upper va) - py (va_lower va) in
  let init := pl_init (sy_planner s) in let goal := pl_goal (sy_planner s) in
  width <= 100000000 * hp_res m -> height <= 100000000 * hp_res m ->
  distance (position goal) (position init) < width / 2 -> distance (position goal) (position init) < height / 2 ->
  same_angle t (pth goal - pth init) -> - PI < t <= - hp_ang m / 2 ->
  sy_search top topv fuel Rng draw s <> Ok r.
Proof. exact search_outside. Qed.
Print Assumptions C84_search_reads_table_refuted.

(** For the other headings the table has an entry, wherever the pose is: what is missing is that the search only asks for those. *)
Theorem C84_search_reads_table_partial :
  forall top topv fuel Rng draw resolution junk m rng a v b s va q t,
  0 < hp_res m -> 1 / 1000 <= hp_ang m -> 0 < hp_radius m -> (forall v', ~ In (PInitialize v') b) ->
  sy_run top topv fuel Rng draw (sy_new Rng resolution junk m rng) (a ++ PInitialize (Some v) :: b) = Ok s -> nth_error (sy_validators s) v = Some va ->
  let width := px (va_upper va) - px (va_lower va) in let height := py (va_upper va) - py (va_lower va) in
  let goal := pl_goal (sy_planner s) in
  width <= 100000000 * hp_res m -> height <= 100000000 * hp_res m ->
  distance (position goal) (position q) <= 800000000 * hp_res m ->
  same_angle t (pth goal - pth q) -> - hp_ang m / 2 < t < PI ->
  exists d h o x, pl_parts (sy_planner s) = Some (Parts v d h o) /\ nh_value h goal q = Ok (Some x).
Proof. exact search_inside. Qed.
Print Assumptions C84_search_reads_table_partial.

(** The plan of C78 with the start turned to the left by a quarter: the search that found a path before does not return any more. *)
Example C84_demo : forall top topv, Gvd_spec.priority top -> Gvd_spec.priority topv -> exists k, forall fuel, (k <= fuel)%nat ->
  exists s s' s1, sy_run top topv fuel unit plan_draw (sy_new unit 1 (0, 0) plan_params tt) plan_calls = Ok s /\
  sy_search top topv fuel unit plan_draw s = Ok (s', true) /\
  sy_run top topv fuel unit plan_draw (sy_new unit 1 (0, 0) plan_params tt) (plan_calls ++ [PInit (Pose (-7) (-7) (PI / 2))]) = Ok s1 /\
  forall r, sy_search top topv fuel unit plan_draw s1 <> Ok r.
Proof.
  intros top topv Ht Htv. destruct (demo_planned top topv Ht Htv) as (k & P). exists k. intros fuel Hf. destruct (P fuel Hf) as (s & s' & E & Es & _ & _ & Eg & _ & Ev).
  set (q := Pose (-7) (-7) (PI / 2)).
  assert (X : exists s1, sy_run top topv fuel unit plan_draw (sy_new unit 1 (0, 0) plan_params tt) (plan_calls ++ [PInit q]) = Ok s1 /\
    pl_init (sy_planner s1) = q /\ pl_goal (sy_planner s1) = plan_goal /\ sy_validators s1 = [Checker low20 high20 (69 / 10) (1 / 10)]).
  { rewrite sy_run_app, E. cbn [bind sy_run sy_step]. eexists. split; [reflexivity|]. cbn [with_planner sy_planner sy_validators pl_init pl_goal]. auto. }
  destruct X as (s1 & E1 & I1 & G1 & V1). exists s, s', s1. split; [exact E|]. split; [exact Es|]. split; [exact E1|]. intros r.
  assert (Hl : plan_calls ++ [PInit q] = plan_before ++ PInitialize (Some 0%nat) :: (plan_after ++ [PInit q])) by reflexivity. rewrite Hl in E1.
  assert (D : distance (position plan_goal) (position q) < 10).
  { unfold distance, plan_goal, q, position. cbn [px py fst snd]. apply Rle_lt_trans with (sqrt (2 * 2)); [apply sqrt_le_1_alt; lra|rewrite sqrt_square; lra]. }
  pose proof PI_RGT_0. pose proof PI2_1. unfold PI2 in *.
  apply (C84_search_reads_table_refuted top topv fuel unit plan_draw 1 (0, 0) plan_params tt plan_before 0%nat (plan_after ++ [PInit q]) s1 (Checker low20 high20 (69 / 10) (1 / 10)) (- (PI / 2)) r); auto.
  all: rewrite ?I1, ?G1, ?V1; cbn [va_upper va_lower low20 high20 px py plan_params hp_res hp_ang hp_radius]; try lra.
  - intros v' H'. cbn in H'. intuition discriminate.
  - reflexivity.
  - exists 0%Z. unfold q, plan_goal. cbn [pth]. lra.
Qed.
