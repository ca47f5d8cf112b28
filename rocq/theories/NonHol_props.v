(** Properties C51 and C66, of the non-holonomic heuristic. *)
From Coq Require Import Reals Lra.
From Verif Require Import Base RealBase Pose_model Pose_spec Pose_proofs Straight_model Straight_spec Rs_model NonHol_model NonHol_spec NonHol_proofs.
Local Open Scope R_scope.

(** ** C51 *)

(** Missing for the full statement: a heading of the goal, seen from the state, at or below minus half an angular resolution.
    Otherwise the table is read in its bounds, at a node next to the difference of goal and state, or not at all. *)
Theorem C51_in_bounds_partial :
  forall h goal state, built h -> near h goal state -> - nh_ang h / 2 < pth (pose_sub goal state) ->
  exists v, nh_value h goal state = Ok (Some v) /\
    ((exists node, nearest h node (pose_sub goal state) /\ solver_cost h node (mk_pose 0 0 0) v) \/
     v = Rmin (nh_reverse h) (nh_forward h) * distance (position state) (position goal)).
Proof. exact in_bounds. Qed.
Print Assumptions C51_in_bounds_partial.

(** Beyond the table it is never read. *)
Theorem C51_beyond :
  forall h goal state, built h -> near h goal state -> beyond h (pose_sub goal state) ->
  nh_value h goal state = Ok (Some (Rmin (nh_reverse h) (nh_forward h) * distance (position state) (position goal))).
Proof. exact value_beyond. Qed.
Print Assumptions C51_beyond.

(** Refuted: for about half of the headings, the index of the heading is negative and the read is out of bounds. *)
Theorem C51_in_bounds_refuted :
  forall h goal state, built h -> near h goal state -> within h (pose_sub goal state) -> pth (pose_sub goal state) <= - nh_ang h / 2 ->
  nh_value h goal state = UB.
Proof. exact out_of_bounds. Qed.
Print Assumptions C51_in_bounds_refuted.

(** For example, if the car only has to turn right. *)
Example C51_turn_right : exists h goal state, built h /\ nh_value h goal state = UB.
Proof.
  exists (demo 1 1 1), (Pose 0 0 0), (Pose 0 0 (PI / 2)). pose proof PI_RGT_0. split; [apply demo_built; lra|].
  destruct (sub_fields (Pose 0 0 0) (Pose 0 0 (PI / 2))) as (E1 & E2 & E3). cbn [px py pth] in E1, E2, E3. rewrite wrap_keep in E3 by lra.
  assert (E1' : px (pose_sub (Pose 0 0 0) (Pose 0 0 (PI / 2))) = 0) by (rewrite E1; ring). assert (E2' : py (pose_sub (Pose 0 0 0) (Pose 0 0 (PI / 2))) = 0) by (rewrite E2; ring).
  apply C51_in_bounds_refuted.
  - apply demo_built. lra.
  - split; [rewrite E1'|rewrite E2']; cbn; rewrite Rabs_R0; lra.
  - split; [rewrite E1'|rewrite E2']; cbn; rewrite Rabs_R0; lra.
  - rewrite E3. cbn. lra.
Qed.

(** ** C66 *)

(** Beyond the table, the value never exceeds the cost of the path that the solver proposes. *)
Theorem C66_beyond_partial :
  forall h goal state c, built h -> near h goal state -> beyond h (pose_sub goal state) -> 0 <= nh_reverse h -> 0 <= nh_forward h -> 0 <= nh_switching h ->
  solver_cost h state goal c -> exists v, nh_value h goal state = Ok (Some v) /\ v <= c.
Proof.
  intros h goal state c B N By H1 H2 H3 S. eexists. split; [now apply value_beyond|]. apply solver_cost_distance; auto. apply B.
Qed.
Print Assumptions C66_beyond_partial.

(** There always is such a path. *)
Theorem C66_cost_exists : forall h from to, 0 < nh_radius h -> exists c, solver_cost h from to c.
Proof. exact solver_cost_exists. Qed.
Print Assumptions C66_cost_exists.

(** Refuted: the value is that of the nearest node of the table, which may be farther away. *)
Theorem C66_rounding_refuted :
  exists h goal state v c, built h /\ nh_reverse h = 1 /\ nh_forward h = 1 /\ nh_switching h = 0 /\
  nh_value h goal state = Ok (Some v) /\ solver_cost h state goal c /\ c < v.
Proof. exact rounding_overestimates. Qed.
Print Assumptions C66_rounding_refuted.

(** Refuted: even at a node, the table has the cost from the goal to the state, and not from the state to the goal, which is different
    if driving backward costs more. *)
Theorem C66_reversed_refuted :
  exists h goal state v c, built h /\ nh_node h 15 10 0 = pose_sub goal state /\
  nh_value h goal state = Ok (Some v) /\ solver_cost h state goal c /\ c <= 5 /\ 15 <= v.
Proof. exact multipliers_swapped. Qed.
Print Assumptions C66_reversed_refuted.
