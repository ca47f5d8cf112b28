(** Path validation on an updated distance map. *)
From Coq Require Import Reals Lra.
From Verif Require Import Base RealBase Grid_model Grid_spec Coords_model Coords_proofs Pose_model Straight_model Straight_spec Straight_proofs
  Gvd_model Gvd_spec Gvd_api_proofs PathCost_model Validator_model Validator_spec Validator_proofs.
From Coq Require Import ZifyBool ZifyNat ZifyN.
Local Open Scope R_scope.

Lemma updated_map_clearance rowsN colsN top topv occ ops f : representable rowsN colsN -> priority top -> priority topv -> sized rowsN colsN occ ->
  well_used rowsN colsN false (ops ++ [GUpdateObstacles]) ->
  fr_rows f = rowsN -> fr_cols f = colsN -> 0 < fr_res f ->
  reaches top topv occ (ops ++ [GUpdateObstacles]) (fun st =>
    forall lb ub minSafe minStep p fuel r, 0 < minStep -> 0 < p_length p -> unit_speed p ->
    is_path_valid f (map_clearance (g_obs st) (fr_res f)) lb ub minSafe minStep fuel p = Ok (true, r) ->
    forall o, inside rowsN colsN o -> obstacle ops o -> forall s x, 0 <= s <= p_length p -> state_at p s x ->
    minSafe - minStep - sqrt 2 * fr_res f
      - (sqrt (4 - 2 * sqrt 2) - 1) * reported_distance (fr_res f) ((rowsN - 1) * (rowsN - 1) + (colsN - 1) * (colsN - 1))
      <= distance (position x) (cell_to_world f o)).
Proof.
  intros Hs Ht Htv Hz Hu E1 E2 Hr.
  destruct (api_error rowsN colsN Hs top topv Ht Htv occ Hz ops Hu) as (k & st0 & st & E0 & E & H).
  destruct (api_consistent rowsN colsN Hs top topv Ht Htv occ Hz _ Hu) as (k' & st0' & st' & E0' & E' & Hc & _).
  assert (st' = st) as ->.
  { assert (st0' = st0) as -> by congruence. specialize (E (Nat.max k k') ltac:(lia)). specialize (E' (Nat.max k k') ltac:(lia)). congruence. }
  exists k, st0, st. split; auto. split; auto. intros lb ub minSafe minStep p fuel r Hm Hp Hsp Ev o Io Oo s x Hsx Hx.
  refine (map_clearance_below f (g_obs st) lb ub minSafe minStep p fuel r o _ Hr Hm Hp Hsp _ Ev s x Hsx Hx).
  intros c d Ic Ed. apply inside_cell_iff in Ic. rewrite E1, E2 in Ic. destruct (H o c d Io Oo Ic Ed) as [B _].
  apply (map_error rowsN colsN); auto; try lra. destruct (Hc c Ic) as [(_ & K)|(o' & _ & _ & K)].
  - assert (d = inf) as -> by congruence. unfold inf. lia.
  - assert (d = sqd c o') as -> by congruence. unfold sqd. pose proof (Z.square_nonneg (row c - row o')). pose proof (Z.square_nonneg (col c - col o')). lia.
Qed.

Lemma updated_map_clearance_two rowsN colsN top topv occ ops a b f : representable rowsN colsN -> priority top -> priority topv -> sized rowsN colsN occ ->
  well_used rowsN colsN false (ops ++ [GUpdateObstacles]) -> existsb is_unset ops = false ->
  inside rowsN colsN a -> inside rowsN colsN b -> obstacle ops a -> obstacle ops b ->
  (forall o, inside rowsN colsN o -> obstacle ops o -> o = a \/ o = b) ->
  fr_rows f = rowsN -> fr_cols f = colsN -> 0 < fr_res f ->
  reaches top topv occ (ops ++ [GUpdateObstacles]) (fun st =>
    forall lb ub minSafe minStep p fuel r, 0 < minStep -> 0 < p_length p -> unit_speed p ->
    is_path_valid f (map_clearance (g_obs st) (fr_res f)) lb ub minSafe minStep fuel p = Ok (true, r) ->
    forall o, inside rowsN colsN o -> obstacle ops o -> forall s x, 0 <= s <= p_length p -> state_at p s x ->
    minSafe - minStep - sqrt 2 * fr_res f <= distance (position x) (cell_to_world f o)).
Proof.
  intros Hs Ht Htv Hz Hu Hun Ia Ib Oa Ob Hall E1 E2 Hr.
  destruct (api_two rowsN colsN Hs top topv Ht Htv occ Hz ops a b Hu Hun Ia Ib Oa Ob Hall) as (k & st0 & st & E0 & E & H).
  exists k, st0, st. split; auto. split; auto. intros lb ub minSafe minStep p fuel r Hm Hp Hsp Ev o Io Oo s x Hsx Hx.
  rewrite <- (Rminus_0_r (minSafe - minStep - sqrt 2 * fr_res f)).
  refine (map_clearance_below f (g_obs st) lb ub minSafe minStep p fuel r o 0 Hr Hm Hp Hsp _ Ev s x Hsx Hx).
  intros c d Ic Ed. apply inside_cell_iff in Ic. rewrite E1, E2 in Ic. destruct (H c Ic) as (d' & Ed' & _ & Hmin).
  assert (d' = d) as -> by congruence. specialize (Hmin o Io Oo). rewrite Rplus_0_r. unfold reported_distance.
  apply Rmult_le_compat_r; [lra|]. apply sqrt_le_1_alt. now apply IZR_le.
Qed.
