(** The formulas of the Reeds-Shepp words find every path of their form, within ranges of the lengths. *)
From Coq Require Import Reals Lra Psatz.
From Verif Require Import Base RealBase Pose_model Pose_spec Pose_proofs Bicycle_model Bicycle_spec Bicycle_proofs Rs_model Rs_spec Rs_proofs RsWord_proofs.
From Coq Require Import ZifyBool ZifyNat ZifyN.
Local Open Scope R_scope.

(** ** Angles *)
Lemma full_turn k d : 0 <= d < 2 * PI -> d = 2 * PI * IZR k -> d = 0.
Proof.
  intros H E. pose proof PI_gt_1. assert (k = 0%Z) as ->; [|rewrite E; ring].
  assert (0 <= IZR k) by nra. assert (IZR k < 1) by nra. apply le_IZR in H1. apply lt_IZR in H2. lia.
Qed.

Lemma turns_unique x y : same_angle x y -> 0 <= y < 2 * PI -> turns x = y.
Proof.
  intros Hs Hy. destruct (turns_spec x) as [R1 S1]. pose proof (same_angle_trans _ _ _ S1 Hs) as S2.
  destruct (Rle_lt_dec y (turns x)) as [L|L].
  - destruct S2 as (k & E). enough (turns x - y = 0) by lra. apply (full_turn k); lra.
  - apply same_angle_sym in S2 as (k & E). enough (y - turns x = 0) by lra. apply (full_turn k); lra.
Qed.

Lemma turns_same x y : same_angle x y -> turns x = turns y.
Proof. intros H. apply turns_unique; [|apply turns_spec]. eapply same_angle_trans; [exact H|]. apply same_angle_sym, turns_spec. Qed.

Lemma wrap_unique x y : same_angle x y -> - PI <= y < PI -> wrap_angle x = y.
Proof.
  intros Hs Hy. unfold wrap_angle. fold (turns (x + PI)). rewrite (turns_unique (x + PI) (y + PI)); [ring| |lra]. apply same_angle_add; [exact Hs|apply same_angle_refl].
Qed.

Lemma wrap_angle_same x y : same_angle x y -> wrap_angle x = wrap_angle y.
Proof. intros H. apply wrap_unique; [|apply wrap_angle_spec]. eapply same_angle_trans; [exact H|]. apply same_angle_sym, wrap_angle_spec. Qed.

Lemma same_direction a b : cos a = cos b -> sin a = sin b -> same_angle a b.
Proof.
  intros C S. destruct (turns_spec (a - b)) as [Rd Sd]. set (d := turns (a - b)) in *.
  assert (Cd : cos d = 1). { rewrite (same_angle_cos _ _ Sd), cos_minus, C, S. pose proof (sincos b). lra. }
  pose proof (cos_half d) as Hh. rewrite Cd in Hh. assert (Z : sin (d / 2) = 0) by nra.
  assert (d = 0). { destruct (Req_dec d 0); auto. assert (0 < sin (d / 2)) by (apply sin_gt_0; lra). lra. }
  apply same_angle_sym in Sd as (k & E). exists k. lra.
Qed.

Lemma polar rho a x y : 0 < rho -> x = rho * cos a -> y = rho * sin a -> sqrt (x * x + y * y) = rho /\ same_angle (atan2 y x) a.
Proof.
  intros Hr -> ->. assert (E : rho * cos a * (rho * cos a) + rho * sin a * (rho * sin a) = rho * rho).
  { pose proof (sincos a). replace (rho * cos a * (rho * cos a) + rho * sin a * (rho * sin a)) with (rho * rho * (sin a * sin a + cos a * cos a)) by ring. rewrite H. ring. }
  destruct (atan2_polar (rho * sin a) (rho * cos a)) as [X Y]. rewrite E in *. rewrite sqrt_square in * by lra. split; auto.
  apply same_direction; apply (Rmult_eq_reg_l rho); lra.
Qed.

Lemma polar_frame rho a s A B x y : 0 < rho -> rho * cos a = A -> rho * sin a = B -> x = A * cos s + B * sin s -> y = A * sin s - B * cos s ->
  sqrt (x * x + y * y) = rho /\ same_angle (atan2 y x) (s - a).
Proof. intros Hr <- <- Hx Hy. apply polar; auto; [rewrite Hx, cos_minus|rewrite Hy, sin_minus]; ring. Qed.

Lemma atan2_range y x : - PI <= atan2 y x <= PI.
Proof.
  pose proof PI_gt_1. unfold atan2. destruct (Rltb_spec 0 x); [pose proof (atan_bound (y / x)); lra|]. destruct (Rltb_spec x 0) as [Hx|Hx].
  - pose proof (atan_bound (y / x)) as B. destruct (Rltb_spec y 0) as [Hy|Hy].
    + assert (0 < y / x). { replace (y / x) with (- y / - x) by (field; lra). apply Rdiv_lt_0_compat; lra. }
      assert (atan 0 < atan (y / x)) by now apply atan_increasing. rewrite atan_0 in *. lra.
    + assert (y / x <= 0). { replace (y / x) with (- (y / - x)) by (field; lra). assert (0 <= y / - x); [|lra]. apply Rmult_le_pos; [lra|]. left. apply Rinv_0_lt_compat. lra. }
      assert (atan (y / x) <= 0); [|lra]. destruct (Req_dec (y / x) 0) as [->|]; [rewrite atan_0; lra|]. assert (atan (y / x) < atan 0) by (apply atan_increasing; lra). rewrite atan_0 in *. lra.
  - destruct (Rltb 0 y); [lra|]. destruct (Rltb y 0); lra.
Qed.

Lemma atan2_above y x : - PI < atan2 y x.
Proof.
  pose proof PI_gt_1. unfold atan2. destruct (Rltb_spec 0 x); [pose proof (atan_bound (y / x)); lra|]. destruct (Rltb_spec x 0) as [Hx|Hx].
  - pose proof (atan_bound (y / x)) as B. destruct (Rltb_spec y 0) as [Hy|Hy]; [|lra].
    assert (0 < y / x). { replace (y / x) with (- y / - x) by (field; lra). apply Rdiv_lt_0_compat; lra. }
    assert (atan 0 < atan (y / x)) by now apply atan_increasing. rewrite atan_0 in *. lra.
  - destruct (Rltb 0 y); [lra|]. destruct (Rltb y 0); lra.
Qed.

Lemma atan2_unique y x a : same_angle (atan2 y x) a -> - PI < a <= PI -> atan2 y x = a.
Proof.
  intros S Ha. pose proof (atan2_range y x). pose proof (atan2_above y x). pose proof PI_gt_1.
  destruct (Rle_lt_dec a (atan2 y x)) as [L|L].
  - destruct S as (k & E). enough (atan2 y x - a = 0) by lra. apply (full_turn k); lra.
  - apply same_angle_sym in S as (k & E). enough (a - atan2 y x = 0) by lra. apply (full_turn k); lra.
Qed.

Lemma angle_valid a : 0 <= a <= PI -> angle_invalid a = false.
Proof. intros H. unfold angle_invalid. destruct (Rltb_spec a 0), (Rltb_spec PI a); cbn; auto; lra. Qed.


(** From the pose after the motions. *)
Ltac arrive := let X := fresh "X" in let Y := fresh "Y" in intros (X & Y & T);
  cbn [drive fold_left driven px py pth m_steer m_dir m_len signed zero_pose Lf Lb Rf Rb Sf Sb] in X, Y, T;
  rewrite !Rplus_0_l in X; rewrite !Rplus_0_l in Y; rewrite ?Rplus_0_l in T; rewrite ?sin_0 in X; rewrite ?cos_0 in Y; apply same_angle_sym in T;
  pose proof (same_angle_sin _ _ T) as Sg; pose proof (same_angle_cos _ _ T) as Cg.

Ltac angle S := try lra; let k := fresh "k" in let E := fresh "E" in destruct S as (k & E); exists k; lra.
(** [Lf t; Sf u; Lf v] *)
Lemma c0 goal t u v : same_pose (drive 1 [Lf t; Sf u; Lf v] zero_pose) goal -> 0 <= t <= PI -> 0 < u -> 0 <= v < PI ->
  LfSfLf goal = Lengths t u v (t + u + v).
Proof.
  arrive. intros Ht Hu Hv. unfold LfSfLf. cbv zeta. set (x := px goal - _). set (y := py goal - 1 + _).
  destruct (polar u t x y Hu) as [E1 E2]; [unfold x; lra|unfold y; lra|]. rewrite E1.
  rewrite (atan2_unique _ _ t E2) by lra. rewrite (wrap_unique _ v) by angle (same_angle_sub _ _ _ _ T (same_angle_refl t)).
  rewrite !angle_valid by lra. reflexivity.
Qed.

(** A turn to the left only. *)
Lemma turn0 goal s : same_pose (drive 1 [Lf s] zero_pose) goal -> 0 <= s < PI -> LfSfLf goal = Lengths 0 0 s (0 + 0 + s).
Proof.
  arrive. intros Hs. unfold LfSfLf. cbv zeta. set (x := px goal - _). set (y := py goal - 1 + _).
  assert (x = 0) as -> by (unfold x; lra). assert (y = 0) as -> by (unfold y; lra). replace (0 * 0 + 0 * 0) with 0 by ring. rewrite sqrt_0.
  assert (atan2 0 0 = 0) as ->. { unfold atan2. destruct (Rltb_spec 0 0); [lra|auto]. }
  rewrite (wrap_unique _ s) by angle (same_angle_sub _ _ _ _ T (same_angle_refl 0)). rewrite !angle_valid by lra. reflexivity.
Qed.

Lemma turn1 goal s : same_pose (drive 1 [Lf s] zero_pose) goal -> PI <= s <= 2 * PI -> LfRbLf goal = Lengths PI 0 (s - PI) (PI + 0 + (s - PI)).
Proof.
  arrive. intros Hs. pose proof PI_gt_1. unfold LfRbLf. cbv zeta. set (x := px goal - _). set (y := py goal - 1 + _).
  assert (x = 0) as -> by (unfold x; lra). assert (y = 0) as -> by (unfold y; lra). replace (0 * 0 + 0 * 0) with 0 by ring. rewrite sqrt_0.
  assert (atan2 0 0 = 0) as ->. { unfold atan2. destruct (Rltb_spec 0 0); [lra|auto]. }
  destruct (Rltb_spec 4 0); [lra|]. replace (0 / 4) with 0 by field. rewrite acos_0.
  rewrite (turns_unique (PI / 2 + PI / 2 + 0) PI) by (try lra; replace (PI / 2 + PI / 2 + 0) with PI by field; apply same_angle_refl).
  rewrite (turns_unique (PI - 2 * (PI / 2)) 0) by (try lra; replace (PI - 2 * (PI / 2)) with 0 by field; apply same_angle_refl).
  rewrite (turns_unique _ (s - PI)) by angle (same_angle_sub _ _ _ _ (same_angle_sub _ _ _ _ T (same_angle_refl PI)) (same_angle_refl 0)).
  rewrite !angle_valid by lra. reflexivity.
Qed.

(** [Lf t; Sf u; Rf v] *)
Lemma c1 goal t u v : same_pose (drive 1 [Lf t; Sf u; Rf v] zero_pose) goal -> 0 <= t < PI -> 0 <= u -> 0 <= v < PI ->
  LfSfRf goal = Lengths t u v (t + u + v).
Proof.
  arrive. intros Ht Hu Hv. unfold LfSfRf. cbv zeta. set (x := px goal + _). set (y := py goal - 1 - _).
  assert (Hx : x = u * cos t + 2 * sin t) by (unfold x; lra). assert (Hy : y = u * sin t - 2 * cos t) by (unfold y; lra).
  assert (E : x * x + y * y = u * u + 4). { rewrite Hx, Hy. pose proof (sincos t). nra. }
  rewrite E. replace (u * u + 4 - 4) with (u * u) by ring. rewrite sqrt_square by lra. destruct (Rltb_spec (u * u) 0) as [B|B]; [nra|].
  set (rho := sqrt (u * u + 4)). assert (Hr : 0 < rho) by (apply sqrt_lt_R0; nra). destruct (atan2_polar 2 u) as [Px Py]. replace (u * u + 2 * 2) with (u * u + 4) in Px, Py by ring. fold rho in Px, Py.
  set (phi := atan2 2 u) in *. destruct (polar_frame rho phi t u 2 x y Hr Px Py Hx Hy) as [_ E2].
  rewrite (wrap_unique _ t) by angle (same_angle_add _ _ _ _ E2 (same_angle_refl phi)).
  rewrite (wrap_unique _ v) by angle (same_angle_sub _ _ _ _ (same_angle_refl t) T).
  rewrite !angle_valid by lra. reflexivity.
Qed.

Lemma sin_half_angle u : 0 <= u <= PI -> 0 <= sin (u / 2) <= 1.
Proof. intros H. split; [apply sin_ge_0; lra|apply SIN_bound]. Qed.
Lemma acos_sin_half u : 0 <= u <= PI -> acos (sin (u / 2)) = PI / 2 - u / 2.
Proof. intros H. replace (sin (u / 2)) with (cos (PI / 2 - u / 2)) by (rewrite cos_minus, cos_PI2, sin_PI2; ring). apply acos_cos. lra. Qed.
Lemma sin_chord a b : sin a - sin b = 2 * sin ((a - b) / 2) * cos ((a + b) / 2).
Proof.
  set (m := (a + b) / 2). set (d := (a - b) / 2). assert (Ea : a = m + d) by (unfold m, d; field). assert (Eb : b = m - d) by (unfold m, d; field).
  clearbody m d. rewrite Ea, Eb, sin_plus, sin_minus. ring.
Qed.
Lemma cos_chord a b : cos a - cos b = - 2 * sin ((a - b) / 2) * sin ((a + b) / 2).
Proof.
  set (m := (a + b) / 2). set (d := (a - b) / 2). assert (Ea : a = m + d) by (unfold m, d; field). assert (Eb : b = m - d) by (unfold m, d; field).
  clearbody m d. rewrite Ea, Eb, cos_plus, cos_minus. ring.
Qed.

(** [Lf t; Rb u; Lf v] and [Lf t; Rb u; Lb v] *)
Lemma ccc_found x y t u : 0 < u <= PI -> 0 <= t < 2 * PI -> x = 2 * (sin t - sin (t + u)) -> y = 2 * (cos (t + u) - cos t) ->
  let u1 := sqrt (x * x + y * y) in
  u1 <= 4 /\ turns (PI / 2 + acos (u1 / 4) + atan2 y x) = t /\ turns (PI - 2 * acos (u1 / 4)) = u.
Proof.
  intros Hu Ht Hx Hy. pose proof (sin_half_angle u ltac:(lra)) as Hs. assert (0 < sin (u / 2)) by (apply sin_gt_0; lra). pose proof PI_gt_1.
  destruct (polar (4 * sin (u / 2)) (t + u / 2 + PI) x y) as [E1 E2]; [lra| | |].
  { rewrite Hx, sin_chord. replace ((t - (t + u)) / 2) with (- (u / 2)) by field. replace ((t + (t + u)) / 2) with (t + u / 2) by field. rewrite sin_neg, neg_cos. ring. }
  { rewrite Hy, cos_chord. replace ((t + u - t) / 2) with (u / 2) by field. replace ((t + u + t) / 2) with (t + u / 2) by field. rewrite neg_sin. ring. }
  cbv zeta. rewrite E1. split; [lra|]. replace (4 * sin (u / 2) / 4) with (sin (u / 2)) by field. rewrite acos_sin_half by lra. split.
  - apply turns_unique; [|lra]. destruct (same_angle_add _ _ _ _ (same_angle_refl (PI / 2 + (PI / 2 - u / 2))) E2) as (k & E). exists (k + 1)%Z. rewrite E, plus_IZR. field.
  - apply turns_unique; [|lra]. exists 0%Z. field.
Qed.

Lemma c2 goal t u v : same_pose (drive 1 [Lf t; Rb u; Lf v] zero_pose) goal -> 0 <= t <= PI -> 0 < u <= PI -> 0 <= v <= PI ->
  LfRbLf goal = Lengths t u v (t + u + v).
Proof.
  arrive. intros Ht Hu Hv. pose proof PI_gt_1. replace (t - - u) with (t + u) in * by ring. unfold LfRbLf. cbv zeta. set (x := px goal - _). set (y := py goal - 1 + _).
  destruct (ccc_found x y t u) as (E1 & E2 & E3); [lra|lra|unfold x; lra|unfold y; lra|]. destruct (Rltb_spec 4 (sqrt (x * x + y * y))) as [B|B]; [lra|].
  rewrite E2, E3. rewrite (turns_unique _ v) by angle (same_angle_sub _ _ _ _ T (same_angle_refl (t + u))). rewrite !angle_valid by lra. reflexivity.
Qed.

Lemma c3 goal t u v : same_pose (drive 1 [Lf t; Rb u; Lb v] zero_pose) goal -> 0 <= t < 2 * PI -> 0 < u <= PI -> 0 <= v < 2 * PI ->
  LfRbLb goal = Lengths t u v (t + u + v).
Proof.
  arrive. intros Ht Hu Hv. pose proof PI_gt_1. replace (t - - u) with (t + u) in * by ring. unfold LfRbLb. cbv zeta. set (x := px goal - _). set (y := py goal - 1 + _).
  destruct (ccc_found x y t u) as (E1 & E2 & E3); [lra|lra|unfold x; lra|unfold y; lra|]. destruct (Rltb_spec 4 (sqrt (x * x + y * y))) as [B|B]; [lra|].
  rewrite E2, E3. rewrite (turns_unique _ v) by angle (same_angle_sub _ _ _ _ (same_angle_refl (t + u)) T). reflexivity.
Qed.

(** [Lf t; Rf u; Lb v] *)
Lemma c4 goal t u v : same_pose (drive 1 [Lf t; Rf u; Lb v] zero_pose) goal -> 0 <= t < 2 * PI -> 0 < u <= PI -> 0 <= v < 2 * PI ->
  LfRfLb goal = Lengths t u v (t + u + v).
Proof.
  arrive. intros Ht Hu Hv. pose proof PI_gt_1. unfold LfRfLb. cbv zeta. set (x := px goal - _). set (y := py goal - 1 + _).
  pose proof (sin_half_angle u ltac:(lra)) as Hs. assert (Hp : 0 < sin (u / 2)) by (apply sin_gt_0; lra).
  destruct (polar (4 * sin (u / 2)) (t - u / 2) x y) as [E1 E2]; [lra| | |].
  { assert (x = 2 * (sin t - sin (t - u))) as -> by (unfold x; lra). rewrite sin_chord. replace ((t - (t - u)) / 2) with (u / 2) by field. replace ((t + (t - u)) / 2) with (t - u / 2) by field. ring. }
  { assert (y = 2 * (cos (t - u) - cos t)) as -> by (unfold y; lra). rewrite cos_chord. replace ((t - u - t) / 2) with (- (u / 2)) by field. replace ((t - u + t) / 2) with (t - u / 2) by field. rewrite sin_neg. ring. }
  rewrite E1. destruct (Rltb_spec 4 (4 * sin (u / 2))) as [B|B]; [lra|]. destruct (Reqb_spec (4 * sin (u / 2)) 0) as [B'|B']; [lra|].
  pose proof (cos_half u) as Ch. pose proof (sin_half u) as Sh.
  replace ((8 - 4 * sin (u / 2) * (4 * sin (u / 2))) / 8) with (cos u) by lra. rewrite acos_cos by lra.
  replace (2 * sin u / (4 * sin (u / 2))) with (cos (u / 2)) by (rewrite <- Sh; field; lra).
  replace (cos (u / 2)) with (sin (PI / 2 - u / 2)) by (rewrite sin_minus, sin_PI2, cos_PI2; ring). rewrite asin_sin by lra.
  rewrite (turns_unique _ t) by angle (same_angle_add _ _ _ _ (same_angle_refl (PI / 2 - (PI / 2 - u / 2))) E2).
  rewrite (turns_unique _ v) by angle (same_angle_sub _ _ _ _ (same_angle_refl (t - u)) T). reflexivity.
Qed.

(** [Lf t; Rf u; Lb u; Rb v] *)
Lemma ccuc_centre t u : sin t - sin (t - u) + sin (t - u - u) = (2 * cos u - 1) * sin (t - u) /\ cos t - cos (t - u) + cos (t - u - u) = (2 * cos u - 1) * cos (t - u).
Proof.
  replace t with (t - u + u) at 1 5 by ring. rewrite sin_plus, cos_plus, (sin_minus (t - u) u), (cos_minus (t - u) u). split; ring.
Qed.

Lemma c5 goal t u v : same_pose (drive 1 [Lf t; Rf u; Lb u; Rb v] zero_pose) goal -> 0 <= t < 2 * PI -> 0 <= u < PI / 3 -> 0 <= v < 2 * PI ->
  LfRufLubRb goal = Lengths t u v (t + u + u + v).
Proof.
  arrive. intros Ht Hu Hv. pose proof PI_gt_1. unfold LfRufLubRb. cbv zeta. set (x := px goal + _). set (y := py goal - 1 - _).
  replace (t - u + - u) with (t - u - u) in * by ring. replace (t - u - u - - v) with (t - u - u + v) in * by ring. destruct (ccuc_centre t u) as [Gx Gy].
  assert (Hc : / 2 < cos u). { replace (/ 2) with (cos (PI / 3)) by (rewrite cos_PI3; field). apply cos_decreasing_1; lra. } pose proof (COS_bound u).
  destruct (polar (4 * cos u - 2) (t - u - PI / 2) x y) as [E1 E2]; [lra| | |].
  { rewrite cos_minus, cos_PI2, sin_PI2. unfold x. lra. }
  { rewrite sin_minus, cos_PI2, sin_PI2. unfold y. lra. }
  rewrite E1. destruct (Rltb_spec 4 (4 * cos u - 2)) as [B|B]; [lra|]. destruct (Rltb_spec 2 (4 * cos u - 2)) as [B'|B']; [lra|].
  replace ((4 * cos u - 2) / 4 + 1 / 2) with (cos u) by field. rewrite acos_cos by lra.
  rewrite (turns_unique _ t) by angle (same_angle_add _ _ _ _ (same_angle_add _ _ _ _ (same_angle_refl (PI / 2)) E2) (same_angle_refl u)).
  rewrite (turns_unique u u) by (try lra; apply same_angle_refl).
  rewrite (turns_unique _ v) by angle (same_angle_add _ _ _ _ (same_angle_sub _ _ _ _ T (same_angle_refl t)) (same_angle_refl (2 * u))). reflexivity.
Qed.

Lemma c5' goal t u v : same_pose (drive 1 [Lf t; Rf u; Lb u; Rb v] zero_pose) goal -> 0 <= t < 2 * PI -> PI / 2 < u <= 2 * PI / 3 -> 0 <= v < 2 * PI ->
  LfRufLubRb goal = Lengths t u v (t + u + u + v).
Proof.
  arrive. intros Ht Hu Hv. pose proof PI_gt_1. unfold LfRufLubRb. cbv zeta. set (x := px goal + _). set (y := py goal - 1 - _).
  replace (t - u + - u) with (t - u - u) in * by ring. replace (t - u - u - - v) with (t - u - u + v) in * by ring. destruct (ccuc_centre t u) as [Gx Gy].
  assert (Hc : cos u < 0). { rewrite <- cos_PI2. apply cos_decreasing_1; lra. }
  assert (Hd : - / 2 <= cos u). { replace (- / 2) with (cos (2 * (PI / 3))) by (rewrite cos_2PI3; field). destruct (Req_dec u (2 * (PI / 3))) as [->|]; [lra|]. left. apply cos_decreasing_1; lra. }
  destruct (polar (2 - 4 * cos u) (t - u + PI / 2) x y) as [E1 E2]; [lra| | |].
  { rewrite cos_plus, cos_PI2, sin_PI2. unfold x. lra. }
  { rewrite sin_plus, cos_PI2, sin_PI2. unfold y. lra. }
  rewrite E1. destruct (Rltb_spec 4 (2 - 4 * cos u)) as [B|B]; [lra|]. destruct (Rltb_spec 2 (2 - 4 * cos u)) as [B'|B']; [|lra].
  replace ((2 - 4 * cos u) / 4 - 1 / 2) with (cos (PI - u)) by (rewrite cos_minus, cos_PI, sin_PI; field). rewrite acos_cos by lra.
  rewrite (turns_unique _ t) by angle (same_angle_sub _ _ _ _ (same_angle_add _ _ _ _ (same_angle_refl (PI / 2)) E2) (same_angle_refl (PI - u))).
  rewrite (turns_unique (PI - (PI - u)) u) by (try lra; replace (PI - (PI - u)) with u by ring; apply same_angle_refl).
  rewrite (turns_unique _ v) by angle (same_angle_add _ _ _ _ (same_angle_sub _ _ _ _ T (same_angle_refl t)) (same_angle_refl (2 * u))). reflexivity.
Qed.

(** If the circle to the right of the goal is the one to the left of the start. *)
Lemma c5'' goal t v : same_pose (drive 1 [Lf t; Rf (PI / 3); Lb (PI / 3); Rb v] zero_pose) goal -> 5 * PI / 6 <= t + v < 5 * PI / 6 + 2 * PI ->
  LfRufLubRb goal = Lengths (5 * PI / 6) (PI / 3) (t + v - 5 * PI / 6) (5 * PI / 6 + PI / 3 + PI / 3 + (t + v - 5 * PI / 6)).
Proof.
  arrive. intros Hv. pose proof PI_gt_1. unfold LfRufLubRb. cbv zeta. set (x := px goal + _). set (y := py goal - 1 - _). set (u := PI / 3) in *.
  replace (t - u + - u) with (t - u - u) in * by ring. replace (t - u - u - - v) with (t - u - u + v) in * by ring. destruct (ccuc_centre t u) as [Gx Gy].
  assert (Hc : cos u = / 2) by (unfold u; rewrite cos_PI3; field). rewrite Hc in *.
  assert (x = 0) as -> by (unfold x; lra). assert (y = 0) as -> by (unfold y; lra). replace (0 * 0 + 0 * 0) with 0 by ring. rewrite sqrt_0.
  assert (atan2 0 0 = 0) as ->. { unfold atan2. destruct (Rltb_spec 0 0); [lra|auto]. }
  destruct (Rltb_spec 4 0); [lra|]. destruct (Rltb_spec 2 0); [lra|]. replace (0 / 4 + 1 / 2) with (cos u) by lra. rewrite acos_cos by (unfold u; lra).
  rewrite (turns_unique (PI / 2 + 0 + u) (5 * PI / 6)) by (try lra; replace (PI / 2 + 0 + u) with (5 * PI / 6) by (unfold u; field); apply same_angle_refl).
  rewrite (turns_unique u u) by (try (unfold u; lra); apply same_angle_refl).
  rewrite (turns_unique _ (t + v - 5 * PI / 6)) by angle (same_angle_add _ _ _ _ (same_angle_sub _ _ _ _ T (same_angle_refl (5 * PI / 6))) (same_angle_refl (2 * u))). reflexivity.
Qed.

(** [Lf t; Rb u; Lb u; Rf v] *)
Lemma c6 goal t u v : same_pose (drive 1 [Lf t; Rb u; Lb u; Rf v] zero_pose) goal -> 0 <= t < 2 * PI -> 0 <= u <= PI / 2 -> 0 <= v < 2 * PI ->
  LfRubLubRf goal = Lengths t u v (t + u + u + v).
Proof.
  arrive. intros Ht Hu Hv. pose proof PI_gt_1. unfold LfRubLubRf. cbv zeta. set (x := px goal + _). set (y := py goal - 1 - _).
  replace (t - - u + - u) with t in * by ring. replace (t - - u) with (t + u) in * by ring.
  assert (Hc : 0 <= cos u) by (apply cos_ge_0; lra). assert (Hs : 0 <= sin u) by (apply sin_ge_0; lra). pose proof (COS_bound u) as Cb. pose proof (sincos u) as SC.
  assert (Hx : x = 4 * sin t - 2 * sin (t + u)) by (unfold x; lra). assert (Hy : y = 2 * cos (t + u) - 4 * cos t) by (unfold y; lra). rewrite sin_plus in Hx. rewrite cos_plus in Hy.
  set (A := 4 - 2 * cos u). set (B := 2 * sin u). destruct (atan2_polar B A) as [Px Py]. set (rho := sqrt (A * A + B * B)) in *. set (a := atan2 B A) in *.
  assert (Hq : A * A + B * B = 20 - 16 * cos u) by (unfold A, B; lra). assert (Hr : 0 < rho) by (apply sqrt_lt_R0; lra).
  assert (Hrr : rho * rho = 20 - 16 * cos u) by (rewrite <- Hq; apply sqrt_sqrt; lra).
  destruct (polar_frame rho a (t - PI / 2) A B x y Hr Px Py) as [E1 E2].
  { rewrite cos_minus, sin_minus, cos_PI2, sin_PI2, Hx. unfold A, B. ring. }
  { rewrite cos_minus, sin_minus, cos_PI2, sin_PI2, Hy. unfold A, B. ring. }
  rewrite E1. destruct (Rltb_spec 6 rho) as [B1|B1]; [nra|]. replace (5 / 4 - rho * rho / 16) with (cos u) by lra.
  destruct (Rltb_spec (cos u) 0) as [B2|B2]; [lra|]. destruct (Rltb_spec 1 (cos u)) as [B3|B3]; [lra|]. cbn [orb]. rewrite acos_cos by lra.
  assert (Ea : asin (2 * sin u / rho) = a).
  { fold B. rewrite <- Py. replace (rho * sin a / rho) with (sin a) by (field; lra). apply asin_sin.
    unfold a, atan2. destruct (Rltb_spec 0 A) as [B4|B4]; [pose proof (atan_bound (B / A)); lra|unfold A in B4; lra]. }
  rewrite Ea. rewrite (turns_unique _ t) by angle (same_angle_add _ _ _ _ (same_angle_add _ _ _ _ (same_angle_refl (PI / 2)) E2) (same_angle_refl a)).
  rewrite (turns_unique _ v) by angle (same_angle_sub _ _ _ _ (same_angle_refl t) T). reflexivity.
Qed.

(** [Lf t; Rb (PI / 2); Sb u; Lb v] *)
Lemma c7 goal t u v : same_pose (drive 1 [Lf t; Rb (PI / 2); Sb u; Lb v] zero_pose) goal -> 0 <= t < 2 * PI -> 0 <= u -> 0 <= v < 2 * PI ->
  LfRbpi2SbLb goal = Lengths t u v (t + PI / 2 + u + v).
Proof.
  arrive. intros Ht Hu Hv. pose proof PI_gt_1. unfold LfRbpi2SbLb. cbv zeta. set (x := px goal - _). set (y := py goal - 1 + _).
  replace (t - - (PI / 2)) with (t + PI / 2) in * by ring.
  assert (Hx : x = (u + 2) * sin t - 2 * cos t). { rewrite (sin_plus t), (cos_plus t), cos_PI2, sin_PI2 in *. unfold x. lra. }
  assert (Hy : y = - (u + 2) * cos t - 2 * sin t). { rewrite (sin_plus t), (cos_plus t), cos_PI2, sin_PI2 in *. unfold y. lra. }
  destruct (atan2_polar 2 (u + 2)) as [Px Py]. set (Q := (u + 2) * (u + 2) + 2 * 2) in *. set (rho := sqrt Q) in *. set (a := atan2 2 (u + 2)) in *.
  assert (Hr : 0 < rho) by (apply sqrt_lt_R0; unfold Q; nra).
  assert (Hq : x * x + y * y = Q). { rewrite Hx, Hy. pose proof (sincos t) as SC. unfold Q. transitivity (((u + 2) * (u + 2) + 2 * 2) * (sin t * sin t + cos t * cos t)); [ring|rewrite SC; ring]. }
  destruct (polar_frame rho a (t - PI / 2) (u + 2) 2 x y Hr Px Py) as [E1 E2].
  { rewrite cos_minus, sin_minus, cos_PI2, sin_PI2, Hx. ring. }
  { rewrite cos_minus, sin_minus, cos_PI2, sin_PI2, Hy. ring. }
  rewrite Hq. destruct (Rltb_spec Q 4) as [B|B]; [unfold Q in B; nra|]. assert (sqrt (Q - 4) = u + 2) as ->. { replace (Q - 4) with ((u + 2) * (u + 2)) by (unfold Q; ring). apply sqrt_square. lra. }
  replace (u + 2 - 2) with u by ring. destruct (Rltb_spec u 0) as [B1|B1]; [lra|]. fold a.
  rewrite (turns_unique _ t) by angle (same_angle_add _ _ _ _ (same_angle_add _ _ _ _ (same_angle_refl (PI / 2)) E2) (same_angle_refl a)).
  rewrite (turns_unique _ v) by angle (same_angle_sub _ _ _ _ (same_angle_refl (t + PI / 2)) T). reflexivity.
Qed.

(** [Lf t; Rb (PI / 2); Sb u; Rb v] *)
Lemma c8 goal t u v : same_pose (drive 1 [Lf t; Rb (PI / 2); Sb u; Rb v] zero_pose) goal -> 0 <= t < 2 * PI -> 0 <= u -> 0 <= v < 2 * PI ->
  LfRbpi2SbRb goal = Lengths t u v (t + PI / 2 + u + v).
Proof.
  arrive. intros Ht Hu Hv. pose proof PI_gt_1. unfold LfRbpi2SbRb. cbv zeta. set (x := px goal + _). set (y := py goal - 1 - _).
  replace (t - - (PI / 2)) with (t + PI / 2) in * by ring. replace (t + PI / 2 - - v) with (t + PI / 2 + v) in * by ring.
  destruct (polar (u + 2) (t - PI / 2) x y) as [E1 E2]; [lra| | |].
  { rewrite (cos_minus t), cos_PI2, sin_PI2. rewrite (sin_plus t), (cos_plus t), cos_PI2, sin_PI2 in *. unfold x. lra. }
  { rewrite (sin_minus t), cos_PI2, sin_PI2. rewrite (sin_plus t), (cos_plus t), cos_PI2, sin_PI2 in *. unfold y. lra. }
  rewrite E1. destruct (Rltb_spec (u + 2) 2) as [B|B]; [lra|]. replace (u + 2 - 2) with u by ring.
  rewrite (turns_unique _ t) by angle (same_angle_add _ _ _ _ (same_angle_refl (PI / 2)) E2).
  rewrite (turns_unique _ v) by angle (same_angle_sub _ _ _ _ (same_angle_sub _ _ _ _ T (same_angle_refl t)) (same_angle_refl (PI / 2))). reflexivity.
Qed.

(** [Lf t; Sf u; Rf (PI / 2); Lb v] *)
Lemma c9 goal t u v : same_pose (drive 1 [Lf t; Sf u; Rf (PI / 2); Lb v] zero_pose) goal -> 0 <= t < 2 * PI -> 0 <= u -> 0 <= v < 2 * PI ->
  LfSfRfpi2Lb goal = Lengths t u v (t + u + PI / 2 + v).
Proof.
  arrive. intros Ht Hu Hv. pose proof PI_gt_1. unfold LfSfRfpi2Lb. cbv zeta. set (x := px goal - _). set (y := py goal - 1 + _).
  assert (Hx : x = (u + 2) * cos t + 2 * sin t). { rewrite (sin_minus t), (cos_minus t), cos_PI2, sin_PI2 in *. unfold x. lra. }
  assert (Hy : y = (u + 2) * sin t - 2 * cos t). { rewrite (sin_minus t), (cos_minus t), cos_PI2, sin_PI2 in *. unfold y. lra. }
  destruct (atan2_polar (u + 2) 2) as [Px Py]. set (Q := 2 * 2 + (u + 2) * (u + 2)) in *. set (rho := sqrt Q) in *. set (a := atan2 (u + 2) 2) in *.
  assert (Hr : 0 < rho) by (apply sqrt_lt_R0; unfold Q; nra).
  assert (Hq : x * x + y * y = Q). { rewrite Hx, Hy. pose proof (sincos t) as SC. unfold Q. transitivity (((u + 2) * (u + 2) + 2 * 2) * (sin t * sin t + cos t * cos t)); [ring|rewrite SC; ring]. }
  destruct (polar_frame rho (PI / 2 - a) t (u + 2) 2 x y Hr) as [E1 E2]; auto.
  { rewrite cos_minus, cos_PI2, sin_PI2. lra. }
  { rewrite sin_minus, cos_PI2, sin_PI2. lra. }
  rewrite Hq. destruct (Rltb_spec Q 4) as [B|B]; [unfold Q in B; nra|]. assert (sqrt (Q - 4) = u + 2) as ->. { replace (Q - 4) with ((u + 2) * (u + 2)) by (unfold Q; ring). apply sqrt_square. lra. }
  replace (u + 2 - 2) with u by ring. destruct (Rltb_spec u 0) as [B1|B1]; [lra|]. fold a.
  rewrite (turns_unique _ t) by angle (same_angle_sub _ _ _ _ (same_angle_add _ _ _ _ (same_angle_refl (PI / 2)) E2) (same_angle_refl a)).
  rewrite (turns_unique _ v) by angle (same_angle_sub _ _ _ _ (same_angle_refl (t - PI / 2)) T). reflexivity.
Qed.

(** [Lf t; Sf u; Lf (PI / 2); Rb v] *)
Lemma c10 goal t u v : same_pose (drive 1 [Lf t; Sf u; Lf (PI / 2); Rb v] zero_pose) goal -> 0 <= t < 2 * PI -> 0 <= u -> 0 <= v < 2 * PI ->
  LfSfLfpi2Rb goal = Lengths t u v (t + u + PI / 2 + v).
Proof.
  arrive. intros Ht Hu Hv. pose proof PI_gt_1. unfold LfSfLfpi2Rb. cbv zeta. set (x := px goal + _). set (y := py goal - 1 - _).
  replace (t + PI / 2 - - v) with (t + PI / 2 + v) in * by ring.
  destruct (polar (u + 2) t x y) as [E1 E2]; [lra| | |].
  { rewrite (sin_plus t), (cos_plus t), cos_PI2, sin_PI2 in *. unfold x. lra. }
  { rewrite (sin_plus t), (cos_plus t), cos_PI2, sin_PI2 in *. unfold y. lra. }
  rewrite E1. destruct (Rltb_spec (u + 2) 2) as [B|B]; [lra|]. replace (u + 2 - 2) with u by ring.
  rewrite (turns_unique (atan2 y x) t) by (auto; lra).
  rewrite (turns_unique _ v) by angle (same_angle_add _ _ _ _ (same_angle_refl (- t - PI / 2)) T). reflexivity.
Qed.

(** [Lf t; Rb (PI / 2); Sb u; Lb (PI / 2); Rf v] *)
Lemma c11 goal t u v : same_pose (drive 1 [Lf t; Rb (PI / 2); Sb u; Lb (PI / 2); Rf v] zero_pose) goal -> 0 <= t < 2 * PI -> 0 <= u -> 0 <= v < 2 * PI ->
  LfRbpi2SbLbpi2Rf goal = Lengths t u v (t + u + v + PI).
Proof.
  arrive. intros Ht Hu Hv. pose proof PI_gt_1. unfold LfRbpi2SbLbpi2Rf. cbv zeta. set (x := px goal + _). set (y := py goal - 1 - _).
  replace (t - - (PI / 2) + - (PI / 2)) with t in * by ring. replace (t - - (PI / 2)) with (t + PI / 2) in * by ring.
  assert (Hx : x = (u + 4) * sin t - 2 * cos t). { rewrite (sin_plus t), (cos_plus t), cos_PI2, sin_PI2 in *. unfold x. lra. }
  assert (Hy : y = - (u + 4) * cos t - 2 * sin t). { rewrite (sin_plus t), (cos_plus t), cos_PI2, sin_PI2 in *. unfold y. lra. }
  destruct (atan2_polar 2 (u + 4)) as [Px Py]. set (Q := (u + 4) * (u + 4) + 2 * 2) in *. set (rho := sqrt Q) in *. set (a := atan2 2 (u + 4)) in *.
  assert (Hr : 0 < rho) by (apply sqrt_lt_R0; unfold Q; nra).
  assert (Hq : x * x + y * y = Q). { rewrite Hx, Hy. pose proof (sincos t) as SC. unfold Q. transitivity (((u + 4) * (u + 4) + 2 * 2) * (sin t * sin t + cos t * cos t)); [ring|rewrite SC; ring]. }
  destruct (polar_frame rho a (t - PI / 2) (u + 4) 2 x y Hr Px Py) as [E1 E2].
  { rewrite cos_minus, sin_minus, cos_PI2, sin_PI2, Hx. ring. }
  { rewrite cos_minus, sin_minus, cos_PI2, sin_PI2, Hy. ring. }
  rewrite Hq. destruct (Rltb_spec Q 16) as [B|B]; [unfold Q in B; nra|]. assert (sqrt (Q - 4) = u + 4) as ->. { replace (Q - 4) with ((u + 4) * (u + 4)) by (unfold Q; ring). apply sqrt_square. lra. }
  replace (u + 4 - 4) with u by ring. destruct (Rltb_spec u 0) as [B1|B1]; [lra|]. fold a.
  rewrite (turns_unique _ t) by angle (same_angle_add _ _ _ _ (same_angle_add _ _ _ _ (same_angle_refl (PI / 2)) E2) (same_angle_refl a)).
  rewrite (turns_unique _ v) by angle (same_angle_sub _ _ _ _ (same_angle_refl t) T). reflexivity.
Qed.
