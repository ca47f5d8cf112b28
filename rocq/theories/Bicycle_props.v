(** Properties C34 and C35 of the bicycle model. *)
From Coq Require Import Reals Lra.
From Verif Require Import Base RealBase Pose_model Pose_spec Coords_model Straight_model Straight_spec Bicycle_model Bicycle_spec Bicycle_proofs
  Validator_model Validator_spec.
Local Open Scope R_scope.

(** C34: interpolation ... *)
Theorem C34_constant_steer_ends :
  forall p, cbuilt p -> c_at p 0 = c_init p /\ c_at p 1 = c_final p.
Proof. intros p H. split; [apply c_at_0|symmetry; now apply c_built_final]. Qed.
Print Assumptions C34_constant_steer_ends.

(** ... and truncation, by any ratio. *)
Theorem C34_constant_steer_truncate :
  forall p r q, c_at (c_truncate p r) q = c_at p (r * q) /\ c_final (c_truncate p r) = c_at p r /\
  c_init (c_truncate p r) = c_init p /\ c_length (c_truncate p r) = c_length p * r.
Proof. intros. split; [apply c_truncate_at|]. auto. Qed.
Print Assumptions C34_constant_steer_truncate.

(** Driving twice with the same steering angle, in any two directions. *)
Theorem C34_distances_add :
  forall m from s d1 d2 dir1 dir2,
  constant_steer m (constant_steer m from s d1 dir1) s d2 dir2 = constant_steer m from s (signed dir1 d1 + signed dir2 d2) Forward.
Proof. exact steer_compose. Qed.
Print Assumptions C34_distances_add.

(** Driving backward undoes driving forward and conversely. *)
Theorem C34_reverse_undoes :
  forall m from s d dir, constant_steer m (constant_steer m from s d dir) s d (reverse dir) = from.
Proof.
  intros. rewrite steer_compose. assert (signed dir d + signed (reverse dir) d = 0) as -> by (destruct dir; cbn; ring). apply steer_zero.
Qed.
Print Assumptions C34_reverse_undoes.

(** The motion follows a circle whose radius is given by the steering angle, or a straight line. *)
Theorem C34_circle :
  forall m from s, wheelbase m <> 0 -> 1 / 1000000000 < Rabs (dtheta_ddist m s) -> exists center, forall d dir,
  on_circle center (sqrt ((wheelbase m / tan s) ^ 2 + rear_to_center m ^ 2)) (position (constant_steer m from s d dir)).
Proof.
  intros m from s Hw H. eexists. intros d dir. rewrite <- steer_radius; [now apply steer_circle|auto|].
  intros E. apply (D_neq m s H). unfold dtheta_ddist. rewrite E. field. auto.
Qed.
Print Assumptions C34_circle.

Theorem C34_line :
  forall m from s d dir, Rabs (dtheta_ddist m s) <= 1 / 1000000000 -> exists k,
  constant_steer m from s d dir = Pose (px from + k * cos (pth from)) (py from + k * sin (pth from)) (pth from).
Proof. intros m from s d dir H. unfold constant_steer. destruct (Rltb_spec (1 / 1000000000) (Rabs (dtheta_ddist m s))); [lra|]. eauto. Qed.
Print Assumptions C34_line.

(** The motion solves the equations of the kinematic bicycle, in the distance travelled by the rear axle, unless the change of
    heading is so small that it is neglected. *)
Theorem C34_bicycle_equations :
  forall m from s, wheelbase m <> 0 -> 1 / 1000000000 < Rabs (dtheta_ddist m s) \/ tan s = 0 ->
  bicycle_motion m s (fun d => constant_steer m from s d Forward).
Proof. exact steer_equations. Qed.
Print Assumptions C34_bicycle_equations.

(** The speed of the position over the length of the path; ... *)
Theorem C34_speed :
  forall m from s d1 d2,
  distance (position (constant_steer m from s d1 Forward)) (position (constant_steer m from s d2 Forward)) <= Rabs (d1 - d2) / cos (beta m s).
Proof. exact steer_speed. Qed.
Print Assumptions C34_speed.

(** ... with the pose at the rear axle, it is what path validation (C28) relies on, ... *)
Definition steered (p : csteer) : path := Path (c_init p) (c_length p) (fun r => Ok (c_at p r)).
Theorem C34_rear_axle_unit_speed :
  forall p, rear_to_center (c_model p) = 0 -> 0 < c_length p -> unit_speed (steered p).
Proof.
  intros p H L s t x y Hs Ht E1 E2. unfold state_at in *. cbn in E1, E2, L, Hs, Ht.
  assert (x = c_at p (s / c_length p)) as -> by congruence. assert (y = c_at p (t / c_length p)) as -> by congruence.
  unfold c_at. replace (c_length p * (s / c_length p)) with s by (field; lra). replace (c_length p * (t / c_length p)) with t by (field; lra).
  rewrite (steer_signed _ _ _ s), (steer_signed _ _ _ t). eapply Rle_trans; [apply steer_speed|].
  assert (cos (beta (c_model p) (c_steering p)) = 1) as ->.
  { unfold beta. rewrite H. unfold Rdiv. rewrite !Rmult_0_l, atan_0. apply cos_0. }
  unfold Rdiv. rewrite Rinv_1, Rmult_1_r. destruct (c_direction p); cbn [signed]; try lra.
  replace (- s - - t) with (- (s - t)) by ring. rewrite Rabs_Ropp. lra.
Qed.
Print Assumptions C34_rear_axle_unit_speed.

(** ... with the pose elsewhere, the position moves faster than the length of the path says. *)
Theorem C34_unit_speed_refuted :
  exists p, cbuilt p /\ 0 < c_length p /\ ~ unit_speed (steered p).
Proof.
  set (m := Bicycle 1 1). set (p := c_new m (Pose 0 0 0) (atan 1) (PI / 3) Forward). exists p. pose proof PI_RGT_0 as PI0.
  split; [constructor|]. split; [cbn; lra|]. intros H.
  assert (B : beta m (atan 1) = PI / 4).
  { unfold beta. rewrite tan_atan. cbn. replace (1 * 1 / 1) with 1 by field. apply atan_1. }
  assert (C : cos (PI / 4) = 1 / sqrt 2) by apply cos_PI4.
  assert (S2 : 0 < sqrt 2) by (apply sqrt_lt_R0; lra). assert (Q2 : sqrt 2 * sqrt 2 = 2) by (apply sqrt_sqrt; lra).
  assert (Dv : dtheta_ddist m (atan 1) = 1 / sqrt 2) by (unfold dtheta_ddist; rewrite B, C, tan_atan; cbn; field; lra).
  specialize (H 0 (c_length p) (c_at p 0) (c_at p 1)). unfold state_at in H. cbn [steered p_at p_length] in H.
  assert (L : c_length p = PI / 3) by reflexivity.
  specialize (H ltac:(rewrite L; lra) ltac:(rewrite L; lra)). rewrite L in H.
  replace (0 / (PI / 3)) with 0 in H by (field; lra). replace (PI / 3 / (PI / 3)) with 1 in H by (field; lra). specialize (H eq_refl eq_refl).
  rewrite c_at_0 in H. unfold c_at in H. rewrite L in H. cbn [p c_new c_init c_model c_steering c_direction] in H. rewrite Rmult_1_r in H.
  unfold constant_steer in H. rewrite B, C, Dv in H. cbn [pth px py] in H.
  assert (S1 : sqrt 2 < 2) by nra.
  assert (I2 : / 2 < 1 / sqrt 2) by (unfold Rdiv; rewrite Rmult_1_l; apply Rinv_lt_contravar; lra).
  rewrite (Rabs_right (1 / sqrt 2)) in H by lra.
  destruct (Rltb_spec (1 / 1000000000) (1 / sqrt 2)) as [_|K]; [|lra].
  replace (PI / 3 / (1 / sqrt 2) * (1 / sqrt 2)) with (PI / 3) in H by (field; lra). rewrite !Rplus_0_l, Rplus_0_r in H.
  unfold distance, position in H. cbn [fst snd px py] in H. rewrite !Rminus_0_r in H.
  assert (E : 1 / (1 / sqrt 2) * (sin (PI / 4 + PI / 3) - sin (PI / 4)) * (1 / (1 / sqrt 2) * (sin (PI / 4 + PI / 3) - sin (PI / 4))) +
    1 / (1 / sqrt 2) * (- cos (PI / 4 + PI / 3) + cos (PI / 4)) * (1 / (1 / sqrt 2) * (- cos (PI / 4 + PI / 3) + cos (PI / 4))) = 2).
  { replace (1 / (1 / sqrt 2)) with (sqrt 2) by (field; lra). pose proof (sin2_cos2 (PI / 4 + PI / 3)) as A. pose proof (sin2_cos2 (PI / 4)) as A'. unfold Rsqr in *.
    pose proof (cos_minus (PI / 4 + PI / 3) (PI / 4)) as M. replace (PI / 4 + PI / 3 - PI / 4) with (PI / 3) in M by ring. rewrite cos_PI3 in M.
    transitivity (sqrt 2 * sqrt 2 * ((sin (PI / 4 + PI / 3) * sin (PI / 4 + PI / 3) + cos (PI / 4 + PI / 3) * cos (PI / 4 + PI / 3))
      + (sin (PI / 4) * sin (PI / 4) + cos (PI / 4) * cos (PI / 4))
      - 2 * (cos (PI / 4 + PI / 3) * cos (PI / 4) + sin (PI / 4 + PI / 3) * sin (PI / 4)))); [ring|]. rewrite A, A', <- M, Q2. lra. }
  rewrite E in H. rewrite Rminus_0_l, Rabs_Ropp, Rabs_right in H by lra. pose proof PI_4. assert (4 / 3 < sqrt 2); [|lra].
  apply Rsqr_incrst_0; unfold Rsqr; lra.
Qed.
Print Assumptions C34_unit_speed_refuted.

(** C35, below the radius at which a motion counts as straight. *)
Theorem C35_turning_radius_partial :
  forall m r from, 0 < wheelbase m -> Rabs (rear_to_center m) < r < 1000000000 ->
  0 < steering_from_radius m r < PI / 2 /\
  exists center, forall d dir, on_circle center r (position (constant_steer m from (steering_from_radius m r) d dir)).
Proof.
  intros m r from Hw [H1 H2]. destruct (steering_radius m r Hw H1) as [A B]. split; auto.
  assert (P : 0 < r) by (pose proof (Rabs_pos (rear_to_center m)); lra).
  assert (K : 1 / 1000000000 < Rabs (dtheta_ddist m (steering_from_radius m r))).
  { rewrite <- (Rinv_inv (Rabs _)), B. unfold Rdiv. rewrite Rmult_1_l. apply Rinv_lt_contravar; nra. }
  eexists. intros d dir. pose proof (steer_circle m from _ d dir K) as C. rewrite B in C. exact C.
Qed.
Print Assumptions C35_turning_radius_partial.

(** A motion with a larger radius is straight. *)
Theorem C35_large_radius_refuted :
  exists m r from, 0 < wheelbase m /\ Rabs (rear_to_center m) < r /\
  ~ exists center, forall d dir, on_circle center r (position (constant_steer m from (steering_from_radius m r) d dir)).
Proof.
  set (m := Bicycle 1 0). set (r := 1000000000). exists m, r, (Pose 0 0 0). cbn [m wheelbase rear_to_center]. rewrite Rabs_R0.
  split; [lra|]. split; [unfold r; lra|]. intros [c H].
  destruct (steering_radius m r) as [_ B]; [cbn; lra|cbn; rewrite Rabs_R0; unfold r; lra|].
  assert (E : Rabs (dtheta_ddist m (steering_from_radius m r)) = 1 / 1000000000) by (rewrite <- (Rinv_inv (Rabs _)), B; unfold r; field).
  assert (P : forall d, position (constant_steer m (Pose 0 0 0) (steering_from_radius m r) d Forward) = (d, 0)).
  { intros d. unfold constant_steer. destruct (Rltb_spec (1 / 1000000000) (Rabs (dtheta_ddist m (steering_from_radius m r)))); [lra|].
    unfold position. cbn [px py pth]. rewrite cos_0, sin_0. f_equal; [|ring].
    assert (beta m (steering_from_radius m r) = 0) as ->; [|rewrite cos_0; field]. unfold beta. cbn. unfold Rdiv. rewrite !Rmult_0_l. apply atan_0. }
  assert (Q : forall d, (d - fst c) * (d - fst c) + (0 - snd c) * (0 - snd c) = r * r).
  { intros d. specialize (H d Forward). rewrite P in H. unfold on_circle, distance in H. cbn [fst snd] in H. rewrite <- H. symmetry. apply sqrt_sqrt, Rplus_le_le_0_compat; apply Rle_0_sqr. }
  pose proof (Q 0). pose proof (Q 1). pose proof (Q (-1)). lra.
Qed.
Print Assumptions C35_large_radius_refuted.

(** The default vehicle: its steering angle for a radius of 5. *)
Example default_radius : exists center, forall d dir,
  on_circle center 5 (position (constant_steer (Bicycle 2.6 0) (Pose 1 2 3) (steering_from_radius (Bicycle 2.6 0) 5) d dir)).
Proof. apply C35_turning_radius_partial; cbn; [lra|rewrite Rabs_R0; lra]. Qed.
