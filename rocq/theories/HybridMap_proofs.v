(** Hybrid A* on an updated distance map. *)
From Coq Require Import Reals Lra.
From Verif Require Import Base RealBase Grid_model Grid_spec Coords_model Coords_proofs Pose_model Pose_spec Straight_model Straight_spec Straight_proofs
  Gvd_model Gvd_spec Gvd_api_proofs PathCost_model Validator_model Validator_spec Validator_proofs Composite_model Composite_spec
  AStar_model Hybrid_model Hybrid_spec Hybrid_proofs HybridPath_proofs HybridSafe_proofs.
From Coq Require Import ZifyBool ZifyNat ZifyN.
Local Open Scope R_scope.

Lemma search_map_clearance rowsN colsN top topv occ ops f : representable rowsN colsN -> priority top -> priority topv -> sized rowsN colsN occ ->
  well_used rowsN colsN false (ops ++ [GUpdateObstacles]) ->
  fr_rows f = rowsN -> fr_cols f = colsN -> 0 < fr_res f ->
  reaches top topv occ (ops ++ [GUpdateObstacles]) (fun st =>
    forall m field vres lb ub minSafe minStep pfuel heur Rng draw goal vfuel fuel init g n s,
    0 < hp_radius m -> 0 < hp_res m -> 0 < minStep ->
    graph_search m f field vres (is_path_valid f (map_clearance (g_obs st) (fr_res f)) lb ub minSafe minStep pfuel) heur Rng draw goal vfuel fuel init g = Ok (Some n, s) ->
    exists l, search_motions (Some n) = Ok l /\
    forall p a o, In p l -> 0 <= a <= 1 -> inside rowsN colsN o -> obstacle ops o ->
    minSafe - minStep - sqrt 2 * fr_res f
      - (sqrt (4 - 2 * sqrt 2) - 1) * reported_distance (fr_res f) ((rowsN - 1) * (rowsN - 1) + (colsN - 1) * (colsN - 1))
      <= distance (position (dp_at p a)) (cell_to_world f o)).
Proof.
  intros Hs Ht Htv Hz Hu E1 E2 Hr.
  destruct (api_error rowsN colsN Hs top topv Ht Htv occ Hz ops Hu) as (k & st0 & st & E0 & E & H).
  destruct (api_consistent rowsN colsN Hs top topv Ht Htv occ Hz _ Hu) as (k' & st0' & st' & E0' & E' & Hc & _).
  assert (st' = st) as ->.
  { assert (st0' = st0) as -> by congruence. specialize (E (Nat.max k k') ltac:(lia)). specialize (E' (Nat.max k k') ltac:(lia)). congruence. }
  exists k, st0, st. split; auto. split; auto. intros m field vres lb ub minSafe minStep pfuel heur Rng draw goal vfuel fuel init g n s Hrad Hres Hm Eg.
  set (eta := (sqrt (4 - 2 * sqrt 2) - 1) * reported_distance (fr_res f) ((rowsN - 1) * (rowsN - 1) + (colsN - 1) * (colsN - 1))).
  assert (M : exists l, search_motions (Some n) = Ok l) by (destruct (search_motions_spec _ _ _ _ _ _ _ _ _ Hrad _ _ _ _ _ _ Eg) as (l & q & El & _); eauto).
  destruct M as (l & El). exists l. split; [exact El|]. intros p a o Ip Ha Io Oo.
  destruct (motions_clearance m f field vres (map_clearance (g_obs st) (fr_res f)) lb ub minSafe minStep pfuel heur Rng draw goal Hrad Hres Hm
    (fun q => distance q (cell_to_world f o)) (sqrt 2 * fr_res f + eta) vfuel fuel init g n s) as (l' & El' & K).
  - apply distance_nonexpansive.
  - intros q c d Ec Ic Ed. unfold map_clearance in Ed. destruct (squared_distance_to_obstacle (g_obs st) c) as [z| | |] eqn:Ez; try discriminate.
    cbn [rmap bind] in Ed. assert (d = reported_distance (fr_res f) z) as -> by congruence.
    assert (Hd : reported_distance (fr_res f) z <= reported_distance (fr_res f) (sqd c o) + eta).
    { assert (Ic' := Ic). apply inside_cell_iff in Ic'. rewrite E1, E2 in Ic'. destruct (H o c z Io Oo Ic' Ez) as [B _].
      apply (map_error rowsN colsN); auto; try lra. destruct (Hc c Ic') as [(_ & K)|(o' & _ & _ & K)].
      - assert (z = inf) as -> by congruence. unfold inf. lia.
      - assert (z = sqd c o') as -> by congruence. unfold sqd. pose proof (Z.square_nonneg (row c - row o')). pose proof (Z.square_nonneg (col c - col o')). lia. }
    rewrite <- cell_distance in Hd by lra. pose proof (cell_near f q c Hr Ec Ic).
    pose proof (distance_triangle (cell_to_world f c) q (cell_to_world f o)). rewrite (distance_sym (cell_to_world f c) q) in *. lra.
  - exact Eg.
  - assert (l' = l) as -> by congruence. specialize (K p a Ip Ha). cbn beta in K. fold eta. lra.
Qed.

(** The sampled poses lie on the motions. *)
Lemma on_way_motion l d x : on_way l d x -> exists p a, In p l /\ 0 <= a <= 1 /\ x = dp_at p a.
Proof. intros (p & s & (b & c & -> & Hs & _) & ->). exists p, s. split; [apply in_app_iff; right; now left|auto]. Qed.
