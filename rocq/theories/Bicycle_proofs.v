(** The kinematic bicycle. *)
From Coq Require Import Reals Lra Psatz.
From Verif Require Import Base RealBase Pose_model Pose_spec Pose_proofs Coords_model Straight_model Straight_spec Straight_proofs
  Bicycle_model Bicycle_spec SmootherGrad_proofs.
Local Open Scope R_scope.

Notation eps := (1 / 1000000000).

Lemma cos_atan_pos x : 0 < cos (atan x).
Proof. destruct (atan_bound x). apply cos_gt_0; lra. Qed.
Lemma cos_beta_pos m s : 0 < cos (beta m s).
Proof. apply cos_atan_pos. Qed.
Lemma tan_beta m s : tan (beta m s) = rear_to_center m * tan s / wheelbase m.
Proof. unfold beta. apply tan_atan. Qed.

Lemma steer_zero m from s dir : constant_steer m from s 0 dir = from.
Proof.
  unfold constant_steer. pose proof (cos_beta_pos m s). assert (E : (match dir with Backward => - 0 | _ => 0 end) / cos (beta m s) = 0) by (destruct dir; field; lra).
  rewrite E. destruct from as [x y th]. cbn [px py pth]. destruct (Rltb_spec eps (Rabs (dtheta_ddist m s))).
  - f_equal; rewrite ?Rmult_0_l, ?Rplus_0_r; ring.
  - f_equal; ring.
Qed.

Lemma steer_signed m from s d dir : constant_steer m from s d dir = constant_steer m from s (signed dir d) Forward.
Proof. unfold constant_steer, signed. destruct dir; reflexivity. Qed.

Lemma steer_add m from s d1 d2 :
  constant_steer m (constant_steer m from s d1 Forward) s d2 Forward = constant_steer m from s (d1 + d2) Forward.
Proof.
  unfold constant_steer. pose proof (cos_beta_pos m s). destruct (Rltb_spec eps (Rabs (dtheta_ddist m s))) as [H1|H1]; cbn [px py pth].
  - set (d := dtheta_ddist m s) in *. assert (d <> 0) by (intros E; rewrite E, Rabs_R0 in H1; lra).
    replace (pth from + d1 / cos (beta m s) * d + d2 / cos (beta m s) * d) with (pth from + (d1 + d2) / cos (beta m s) * d) by (field; lra).
    f_equal; field; auto.
  - f_equal; field; lra.
Qed.

Lemma steer_compose m from s d1 d2 dir1 dir2 :
  constant_steer m (constant_steer m from s d1 dir1) s d2 dir2 = constant_steer m from s (signed dir1 d1 + signed dir2 d2) Forward.
Proof. rewrite (steer_signed m from s d1), (steer_signed m _ s d2). apply steer_add. Qed.

(** ** Paths *)
Lemma c_at_0 p : c_at p 0 = c_init p.
Proof. unfold c_at. rewrite Rmult_0_r. apply steer_zero. Qed.

Lemma c_built_final p : cbuilt p -> c_final p = c_at p 1.
Proof.
  intros H. destruct H as [m init s len dir|p r H]; [reflexivity|]. unfold c_truncate, c_at. cbn [c_final c_model c_init c_steering c_length c_direction].
  now rewrite Rmult_1_r.
Qed.

Lemma c_truncate_at p r q : c_at (c_truncate p r) q = c_at p (r * q).
Proof. unfold c_at, c_truncate. cbn [c_model c_init c_steering c_length c_direction]. now rewrite Rmult_assoc. Qed.

(** ** Geometry *)
Lemma D_neq m s : eps < Rabs (dtheta_ddist m s) -> dtheta_ddist m s <> 0.
Proof. intros H E. rewrite E, Rabs_R0 in H. lra. Qed.

Lemma steer_circle m from s d dir : eps < Rabs (dtheta_ddist m s) ->
  on_circle (px from - sin (beta m s + pth from) / dtheta_ddist m s, py from + cos (beta m s + pth from) / dtheta_ddist m s)
    (/ Rabs (dtheta_ddist m s)) (position (constant_steer m from s d dir)).
Proof.
  intros H. pose proof (D_neq m s H) as N. rewrite steer_signed. unfold constant_steer. destruct (Rltb_spec eps (Rabs (dtheta_ddist m s))); [|lra].
  unfold on_circle, distance, position. cbn [fst snd px py pth]. set (D := dtheta_ddist m s) in *. set (th := pth from + _).
  replace (px from + 1 / D * (sin (beta m s + th) - sin (beta m s + pth from)) - (px from - sin (beta m s + pth from) / D))
    with (sin (beta m s + th) / D) by (field; auto).
  replace (py from + 1 / D * (- cos (beta m s + th) + cos (beta m s + pth from)) - (py from + cos (beta m s + pth from) / D))
    with (- (cos (beta m s + th) / D)) by (field; auto).
  replace (sin (beta m s + th) / D * (sin (beta m s + th) / D) + - (cos (beta m s + th) / D) * - (cos (beta m s + th) / D))
    with ((Rsqr (sin (beta m s + th)) + Rsqr (cos (beta m s + th))) * (/ D * / D)) by (unfold Rsqr; field; auto).
  rewrite sin2_cos2, Rmult_1_l. fold (Rsqr (/ D)). rewrite sqrt_Rsqr_abs. apply Rabs_inv.
Qed.

(** The radius, from the steering angle. *)
Lemma steer_radius m s : wheelbase m <> 0 -> tan s <> 0 ->
  / Rabs (dtheta_ddist m s) = sqrt ((wheelbase m / tan s) ^ 2 + rear_to_center m ^ 2).
Proof.
  intros Hw Ht. pose proof (cos_beta_pos m s) as Hc. symmetry. rewrite <- Rabs_inv. unfold dtheta_ddist.
  set (c := cos (beta m s)) in *.
  assert (K : (tan (beta m s)) ^ 2 + 1 = / (c * c)).
  { unfold tan. fold c. pose proof (sin2_cos2 (beta m s)) as Q. unfold Rsqr in Q. fold c in Q.
    replace ((sin (beta m s) / c) ^ 2 + 1) with ((sin (beta m s) * sin (beta m s) + c * c) / (c * c)) by (field; lra).
    rewrite Q. field. lra. }
  rewrite tan_beta in K. rewrite <- sqrt_Rsqr_abs. f_equal. unfold Rsqr.
  replace (/ (c * tan s / wheelbase m) * / (c * tan s / wheelbase m)) with (/ (c * c) * (wheelbase m / tan s) ^ 2) by (field; lra).
  rewrite <- K. field. auto.
Qed.

Lemma steering_radius m r : 0 < wheelbase m -> Rabs (rear_to_center m) < r ->
  0 < steering_from_radius m r < PI / 2 /\ / Rabs (dtheta_ddist m (steering_from_radius m r)) = r.
Proof.
  intros Hw Hr. assert (P : 0 < r) by (pose proof (Rabs_pos (rear_to_center m)); lra).
  assert (L : rear_to_center m < r) by (pose proof (Rle_abs (rear_to_center m)); lra).
  assert (Q : 0 < r ^ 2 - rear_to_center m ^ 2).
  { assert (rear_to_center m ^ 2 < r ^ 2); [|lra]. rewrite <- !Rsqr_pow2. apply Rsqr_lt_abs_1. now rewrite (Rabs_right r) by lra. }
  unfold steering_from_radius. destruct (Rltb_spec r (rear_to_center m)); [lra|].
  set (q := sqrt (r ^ 2 - rear_to_center m ^ 2)). assert (Pq : 0 < q) by (apply sqrt_lt_R0, Q).
  assert (0 < wheelbase m / q) by (apply Rdiv_lt_0_compat; auto). split.
  - split; [|apply atan_bound]. rewrite <- atan_0. now apply atan_increasing.
  - rewrite steer_radius; [|lra|rewrite tan_atan; lra]. rewrite tan_atan.
    replace ((wheelbase m / (wheelbase m / q)) ^ 2) with (q * q) by (field; lra). unfold q. rewrite sqrt_sqrt by lra.
    replace (r ^ 2 - rear_to_center m ^ 2 + rear_to_center m ^ 2) with (Rsqr r) by (unfold Rsqr; ring). apply sqrt_Rsqr. lra.
Qed.

(** ** The equations of motion *)
Lemma D_sin f x a : D f x a -> D (fun t => sin (f t)) x (cos (f x) * a).
Proof. intros H. apply (D_comp f sin x a _ H). apply derivable_pt_lim_sin. Qed.
Lemma D_cos f x a : D f x a -> D (fun t => cos (f t)) x (- sin (f x) * a).
Proof. intros H. apply (D_comp f cos x a _ H). apply derivable_pt_lim_cos. Qed.
Lemma D_affine k a x : D (fun t => k + t * a) x a.
Proof. eapply D_eq; [apply D_plus; [apply D_c|apply D_mult; [apply D_id|apply D_c]]|]. cbn beta. ring. Qed.

Lemma steer_equations m from s : wheelbase m <> 0 -> eps < Rabs (dtheta_ddist m s) \/ tan s = 0 ->
  bicycle_motion m s (fun d => constant_steer m from s d Forward).
Proof.
  intros Hw H x. pose proof (cos_beta_pos m s) as Hc. pose proof (tan_beta m s) as Tb.
  assert (Cases : eps < Rabs (dtheta_ddist m s) \/ (Rabs (dtheta_ddist m s) <= eps /\ tan s = 0)).
  { destruct H as [H|H]; auto. destruct (Rlt_le_dec eps (Rabs (dtheta_ddist m s))); auto. }
  clear H. destruct Cases as [H|[H H0]].
  - pose proof (D_neq m s H) as N. unfold constant_steer. destruct (Rltb_spec eps (Rabs (dtheta_ddist m s))); [|lra]. unfold rear. cbn [px py pth fst snd].
    set (b := beta m s) in *. set (k := dtheta_ddist m s) in *. set (c := cos b) in *.
    assert (Kc : 1 / c * k = tan s / wheelbase m) by (unfold k, dtheta_ddist; fold b c; field; lra).
    set (w := 1 / c * k) in *.
    assert (Dth : D (fun t => pth from + t / c * k) x w).
    { apply (D_ext (fun t => pth from + t * w)); [intros t; unfold w; field; lra|apply D_affine]. }
    assert (Db : D (fun t => b + (pth from + t / c * k)) x w).
    { eapply D_eq; [apply D_plus; [apply D_c|exact Dth]|ring]. }
    set (th := pth from + x / c * k) in *.
    assert (Tb' : sin b = rear_to_center m * w * c) by (rewrite Kc; unfold tan in Tb at 1; fold c in Tb; apply (f_equal (fun z => z * c)) in Tb; replace (sin b) with (sin b / c * c) by (field; lra); rewrite Tb; field; lra).
    split; [|split].
    + eapply D_eq; [apply D_minus; [apply D_plus; [apply D_c|apply D_mult; [apply D_c|apply D_minus; [apply D_sin, Db|apply D_c]]]|apply D_mult; [apply D_c|apply D_cos, Dth]]|].
      cbn beta. fold th. rewrite cos_plus. fold c. unfold w at 1 2.
      replace (cos th) with (c * cos th / c) at 3 by (field; lra). rewrite Tb'. unfold w. field. split; lra.
    + eapply D_eq; [apply D_minus; [apply D_plus; [apply D_c|apply D_mult; [apply D_c|apply D_plus; [|apply D_c]]]|apply D_mult; [apply D_c|apply D_sin, Dth]]|].
      * apply (D_ext (fun t => -1 * cos (b + (pth from + t / c * k)))); [intros; ring|]. apply D_mult; [apply D_c|apply D_cos, Db].
      * cbn beta. fold th. rewrite sin_plus. fold c. rewrite Tb'. unfold w. field. split; lra.
    + eapply D_eq; [exact Dth|exact Kc].
  - unfold constant_steer. destruct (Rltb_spec eps (Rabs (dtheta_ddist m s))); [lra|]. unfold rear. cbn [px py pth fst snd].
    assert (B0 : beta m s = 0) by (unfold beta; rewrite H0; replace (rear_to_center m * 0 / wheelbase m) with 0 by (field; auto); apply atan_0).
    rewrite B0, cos_0, H0. split; [|split].
    + apply (D_ext (fun t => px from - rear_to_center m * cos (pth from) + t * cos (pth from))); [intros; field|apply D_affine].
    + apply (D_ext (fun t => py from - rear_to_center m * sin (pth from) + t * sin (pth from))); [intros; field|apply D_affine].
    + eapply D_eq; [apply D_c|]. field. auto.
Qed.

(** ** Speed *)
Lemma sin_le_abs x : Rabs (sin x) <= Rabs x.
Proof.
  assert (P : forall x, 0 <= x -> sin x <= x).
  { intros y [Hy|<-]; [left; now apply sin_lt_x|rewrite sin_0; lra]. }
  assert (Q : forall x, 0 <= x -> - x <= sin x).
  { intros y Hy. destruct (Rle_dec y PI) as [L|L]; [pose proof (sin_ge_0 y Hy L); lra|]. pose proof (SIN_bound y). pose proof PI_gt_1. lra. }
  destruct (Rle_dec 0 x) as [H|H].
  - rewrite (Rabs_right x) by lra. apply Rabs_le. split; auto.
  - rewrite (Rabs_left x) by lra. apply Rabs_le. pose proof (P (- x) ltac:(lra)). pose proof (Q (- x) ltac:(lra)). rewrite sin_neg in *. lra.
Qed.

(** A chord is not longer than its arc. *)
Lemma chord_sq a b : (sin a - sin b) * (sin a - sin b) + (cos a - cos b) * (cos a - cos b) <= (a - b) * (a - b).
Proof.
  assert (E : (sin a - sin b) * (sin a - sin b) + (cos a - cos b) * (cos a - cos b) = 4 * (sin ((a - b) / 2) * sin ((a - b) / 2))).
  { pose proof (sin2_cos2 a) as A. pose proof (sin2_cos2 b) as B. unfold Rsqr in *.
    pose proof (cos_minus a b) as M. replace (a - b) with (2 * ((a - b) / 2)) in M at 1 by field. rewrite cos_2a_sin in M. lra. }
  rewrite E. pose proof (sin_le_abs ((a - b) / 2)) as S. apply Rsqr_le_abs_1 in S. unfold Rsqr in S.
  replace ((a - b) * (a - b)) with (4 * ((a - b) / 2 * ((a - b) / 2))) by field. lra.
Qed.

Lemma steer_speed m from s d1 d2 :
  distance (position (constant_steer m from s d1 Forward)) (position (constant_steer m from s d2 Forward)) <= Rabs (d1 - d2) / cos (beta m s).
Proof.
  pose proof (cos_beta_pos m s) as Hc. unfold constant_steer. set (c := cos (beta m s)) in *. set (b := beta m s) in *. set (k := dtheta_ddist m s).
  assert (Pos : 0 <= Rabs (d1 - d2) / c) by (apply Rmult_le_pos; [apply Rabs_pos|left; now apply Rinv_0_lt_compat]).
  assert (Sq : Rabs (d1 - d2) / c * (Rabs (d1 - d2) / c) = (d1 - d2) * (d1 - d2) / (c * c)).
  { assert (E : Rabs (d1 - d2) * Rabs (d1 - d2) = (d1 - d2) * (d1 - d2)) by (rewrite <- Rabs_mult; apply Rabs_right, Rle_ge, Rle_0_sqr).
    replace (Rabs (d1 - d2) / c * (Rabs (d1 - d2) / c)) with (Rabs (d1 - d2) * Rabs (d1 - d2) / (c * c)) by (field; lra). now rewrite E. }
  unfold distance. rewrite <- (sqrt_square (Rabs (d1 - d2) / c)) by exact Pos. apply sqrt_le_1_alt. rewrite Sq.
  destruct (Rltb_spec eps (Rabs k)) as [H|H]; unfold position; cbn [px py pth fst snd].
  - assert (N : k <> 0) by (intros E; rewrite E, Rabs_R0 in H; lra).
    set (t1 := pth from + d1 / c * k). set (t2 := pth from + d2 / c * k). pose proof (chord_sq (b + t2) (b + t1)) as Ch.
    replace (b + t2 - (b + t1)) with ((d2 - d1) / c * k) in Ch by (unfold t1, t2; field; lra).
    assert (Hk : 0 < / (k * k)) by (apply Rinv_0_lt_compat; nra).
    apply (Rmult_le_compat_r (/ (k * k))) in Ch; [|lra].
    replace ((d2 - d1) / c * k * ((d2 - d1) / c * k) * / (k * k)) with ((d1 - d2) * (d1 - d2) / (c * c)) in Ch by (field; lra).
    eapply Rle_trans; [|exact Ch]. right. field. auto.
  - pose proof (sin2_cos2 (pth from)) as Q. unfold Rsqr in Q.
    replace ((px from + d2 / c * cos (pth from) - (px from + d1 / c * cos (pth from))) * (px from + d2 / c * cos (pth from) - (px from + d1 / c * cos (pth from)))
      + (py from + d2 / c * sin (pth from) - (py from + d1 / c * sin (pth from))) * (py from + d2 / c * sin (pth from) - (py from + d1 / c * sin (pth from))))
      with ((d1 - d2) * (d1 - d2) / (c * c) * (sin (pth from) * sin (pth from) + cos (pth from) * cos (pth from))) by (field; lra).
    rewrite Q. lra.
Qed.
