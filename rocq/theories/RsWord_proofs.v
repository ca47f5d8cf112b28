(** The formulas of the Reeds-Shepp words. *)
From Coq Require Import Reals Lra Psatz.
From Verif Require Import Base RealBase Pose_model Pose_spec Pose_proofs Bicycle_model Bicycle_spec Bicycle_proofs Rs_model Rs_spec Rs_proofs.
From Coq Require Import ZifyBool ZifyNat ZifyN.
Local Open Scope R_scope.

Lemma atan2_polar y x : sqrt (x * x + y * y) * cos (atan2 y x) = x /\ sqrt (x * x + y * y) * sin (atan2 y x) = y.
Proof.
  assert (Q : forall z, cos (atan z) > 0) by (intros z; pose proof (atan_bound z); apply cos_gt_0; lra).
  assert (T : forall z, sin (atan z) = z * cos (atan z)).
  { intros z. pose proof (tan_atan z) as H. unfold tan in H. pose proof (Q z). rewrite <- H at 2. field. lra. }
  assert (C : forall z, cos (atan z) * cos (atan z) * (1 + z * z) = 1).
  { intros z. pose proof (sincos (atan z)) as H. rewrite T in H. lra. }
  assert (G : x <> 0 -> sqrt (x * x + y * y) * cos (atan (y / x)) = Rabs x).
  { intros Hx. apply Rsqr_inj; [apply Rmult_le_pos; [apply sqrt_pos|left; apply Q]|apply Rabs_pos|]. rewrite <- Rsqr_abs. unfold Rsqr.
    replace (sqrt (x * x + y * y) * cos (atan (y / x)) * (sqrt (x * x + y * y) * cos (atan (y / x)))) with (sqrt (x * x + y * y) * sqrt (x * x + y * y) * (cos (atan (y / x)) * cos (atan (y / x)))) by ring.
    rewrite sqrt_sqrt by nra. pose proof (C (y / x)) as H. assert (E : x * x + y * y = x * x * (1 + y / x * (y / x))) by (field; auto). rewrite E.
    replace (x * x * (1 + y / x * (y / x)) * (cos (atan (y / x)) * cos (atan (y / x)))) with (x * x * (cos (atan (y / x)) * cos (atan (y / x)) * (1 + y / x * (y / x)))) by ring. rewrite H. ring. }
  unfold atan2. destruct (Rltb_spec 0 x) as [P|P].
  { rewrite Rabs_right in G by lra. specialize (G ltac:(lra)). split; auto. rewrite T. replace (sqrt (x * x + y * y) * (y / x * cos (atan (y / x)))) with (y / x * (sqrt (x * x + y * y) * cos (atan (y / x)))) by ring. rewrite G. field. lra. }
  destruct (Rltb_spec x 0) as [N|N].
  { rewrite Rabs_left in G by lra. specialize (G ltac:(lra)).
    assert (G' : sqrt (x * x + y * y) * sin (atan (y / x)) = - y).
    { rewrite T. replace (sqrt (x * x + y * y) * (y / x * cos (atan (y / x)))) with (y / x * (sqrt (x * x + y * y) * cos (atan (y / x)))) by ring. rewrite G. field. lra. }
    destruct (Rltb y 0); rewrite ?cos_minus, ?sin_minus, ?cos_plus, ?sin_plus, cos_PI, sin_PI; lra. }
  assert (x = 0) as -> by lra. replace (0 * 0 + y * y) with (y * y) by ring.
  destruct (Rltb_spec 0 y) as [Py|Py].
  { rewrite cos_PI2, sin_PI2, sqrt_square by lra. lra. }
  destruct (Rltb_spec y 0) as [Ny|Ny].
  { rewrite cos_neg, sin_neg, cos_PI2, sin_PI2. replace (y * y) with (- y * - y) by ring. rewrite sqrt_square by lra. lra. }
  assert (y = 0) as -> by lra. rewrite Rmult_0_l, sqrt_0. lra.
Qed.

Lemma turns_spec x : 0 <= turns x < 2 * PI /\ same_angle (turns x) x.
Proof.
  pose proof PI_gt_1. unfold turns. destruct (modulo_spec x (2 * PI)) as [H1 (k & H2)]; [lra|]. split; auto. exists k. rewrite H2. ring.
Qed.

Lemma same_eq a b c : same_angle a b -> b = c -> same_angle a c.
Proof. now intros H <-. Qed.

(** Driving from the origin, with the headings at the ends of the motions. *)
Lemma drive_from_zero l x y th : drive 1 l zero_pose = Pose x y th -> forall g, px g = x -> py g = y -> same_angle th (pth g) -> same_pose (drive 1 l zero_pose) g.
Proof. intros -> g Hx Hy Ht. split; [|split]; cbn; auto. Qed.

Definition word_ok (l : list motion) (goal : pose) (len : R) : Prop :=
  Forall proper l /\ motions_length l = len /\ same_pose (drive 1 l zero_pose) goal.

Lemma proper_i st d s : d <> NoMotion -> 0 <= s -> proper (Motion st d s).
Proof. now split. Qed.

Ltac props := repeat (apply Forall_cons; [apply proper_i; [discriminate|try assumption; try lra]|]); try apply Forall_nil.

Ltac geo := cbn [drive fold_left driven px py pth m_steer m_dir m_len signed zero_pose Lf Lb Rf Rb Sf Sb].

Lemma valid_angle t : angle_invalid t = false -> 0 <= t <= PI.
Proof. unfold angle_invalid. destruct (Rltb_spec t 0), (Rltb_spec PI t); cbn; try discriminate; lra. Qed.

Ltac angles := repeat match goal with
  | |- context [Rltb ?a ?b] => let H := fresh "B" in destruct (Rltb_spec a b) as [H|H]
  end.

Lemma w0 goal t u v len : LfSfLf goal = Lengths t u v len -> word_ok [Lf t; Sf u; Lf v] goal len.
Proof.
  unfold LfSfLf. set (x := px goal - sin (pth goal)). set (y := py goal - 1 + cos (pth goal)). cbv zeta.
  destruct (atan2_polar y x) as [Px Py]. set (U := sqrt (x * x + y * y)) in *. set (T := atan2 y x) in *.
  pose proof (wrap_angle_spec (pth goal - T)) as [_ Hv]. set (V := wrap_angle (pth goal - T)) in *.
  destruct (angle_invalid T) eqn:E1; [discriminate|]. destruct (angle_invalid V) eqn:E2; [discriminate|]. cbn [orb]. intros E. injection E as <- <- <- <-.
  apply valid_angle in E1, E2. assert (0 <= U) by apply sqrt_pos. split; [props|]. split; [cbn; ring|].
  assert (H1 : same_angle (T + V) (pth goal)). { eapply same_eq; [apply same_angle_add; [apply same_angle_refl|exact Hv]|ring]. }
  pose proof (same_angle_sin _ _ H1) as S1. pose proof (same_angle_cos _ _ H1) as C1. split; [|split]; geo; rewrite ?Rplus_0_l, ?sin_0, ?cos_0, ?S1, ?C1; auto; unfold x, y in *; lra.
Qed.

Lemma w1 goal t u v len : LfSfRf goal = Lengths t u v len -> word_ok [Lf t; Sf u; Rf v] goal len.
Proof.
  unfold LfSfRf. set (x := px goal + sin (pth goal)). set (y := py goal - 1 - cos (pth goal)). cbv zeta.
  destruct (atan2_polar y x) as [Px Py]. set (Q := x * x + y * y) in *. destruct (Rltb_spec (Q - 4) 0) as [B|B]; [discriminate|].
  set (U := sqrt (Q - 4)) in *. assert (HU : 0 <= U) by apply sqrt_pos. assert (SU : U * U = Q - 4) by (apply sqrt_sqrt; lra).
  destruct (atan2_polar 2 U) as [Ax Ay]. replace (U * U + 2 * 2) with Q in Ax, Ay by lra. set (phi := atan2 2 U) in *. set (t1 := atan2 y x) in *.
  pose proof (wrap_angle_spec (t1 + phi)) as [_ Ht]. set (T := wrap_angle (t1 + phi)) in *.
  pose proof (wrap_angle_spec (T - pth goal)) as [_ Hv]. set (V := wrap_angle (T - pth goal)) in *.
  destruct (angle_invalid T) eqn:E1; [discriminate|]. destruct (angle_invalid V) eqn:E2; [discriminate|]. cbn [orb]. intros E. injection E as <- <- <- <-.
  apply valid_angle in E1, E2. split; [props|]. split; [cbn; ring|].
  assert (H1 : same_angle (T - V) (pth goal)). { eapply same_eq; [apply same_angle_sub; [apply same_angle_refl|exact Hv]|ring]. }
  pose proof (same_angle_sin _ _ H1) as S1. pose proof (same_angle_cos _ _ H1) as C1.
  pose proof (same_angle_sin _ _ Ht) as S2. pose proof (same_angle_cos _ _ Ht) as C2. rewrite sin_plus in S2. rewrite cos_plus in C2.
  set (rt := sqrt Q) in *. pose proof (sincos phi) as Z.
  assert (X : U * cos T + 2 * sin T = x).
  { rewrite <- Px, C2, S2, <- Ax, <- Ay. replace (rt * cos phi * (cos t1 * cos phi - sin t1 * sin phi) + rt * sin phi * (sin t1 * cos phi + cos t1 * sin phi)) with (rt * cos t1 * (sin phi * sin phi + cos phi * cos phi)) by ring. rewrite Z. ring. }
  assert (Y : U * sin T - 2 * cos T = y).
  { rewrite <- Py, C2, S2, <- Ax, <- Ay. replace (rt * cos phi * (sin t1 * cos phi + cos t1 * sin phi) - rt * sin phi * (cos t1 * cos phi - sin t1 * sin phi)) with (rt * sin t1 * (sin phi * sin phi + cos phi * cos phi)) by ring. rewrite Z. ring. }
  split; [|split]; geo; rewrite ?Rplus_0_l, ?sin_0, ?cos_0, ?S1, ?C1; auto; unfold x, y in *; lra.
Qed.

(** Sines and cosines of the angles that the formulas use. *)
Ltac trig := rewrite ?sin_plus, ?cos_plus, ?sin_minus, ?cos_minus, ?sin_plus, ?cos_plus, ?sin_minus, ?cos_minus, ?sin_plus, ?cos_plus, ?sin_minus, ?cos_minus,
  ?sin_PI2, ?cos_PI2, ?sin_PI, ?cos_PI, ?sin_neg, ?cos_neg.

Lemma ccc_geometry xi eta u1 phi alpha T U : u1 * cos phi = xi -> u1 * sin phi = eta -> cos alpha = u1 / 4 ->
  same_angle T (PI / 2 + alpha + phi) -> same_angle U (PI - 2 * alpha) ->
  2 * sin T - 2 * sin (T + U) = xi /\ 2 * cos (T + U) - 2 * cos T = eta.
Proof.
  intros <- <- Ha Ht Hu. assert (H : same_angle (T + U) (PI / 2 + PI - alpha + phi)) by (eapply same_eq; [apply same_angle_add; eauto|ring]).
  rewrite (same_angle_sin _ _ H), (same_angle_cos _ _ H), (same_angle_sin _ _ Ht), (same_angle_cos _ _ Ht).
  assert (u1 = 4 * cos alpha) as -> by lra. trig. lra.
Qed.

Lemma acos_ratio u1 : 0 <= u1 <= 4 -> cos (acos (u1 / 4)) = u1 / 4.
Proof. intros H. apply cos_acos. lra. Qed.

Lemma w2 goal t u v len : LfRbLf goal = Lengths t u v len -> word_ok [Lf t; Rb u; Lf v] goal len.
Proof.
  unfold LfRbLf. set (xi := px goal - sin (pth goal)). set (eta := py goal - 1 + cos (pth goal)). cbv zeta.
  destruct (atan2_polar eta xi) as [Px Py]. pose proof (sqrt_pos (xi * xi + eta * eta)) as P1. set (u1 := sqrt (xi * xi + eta * eta)) in *. set (phi := atan2 eta xi) in *.
  destruct (Rltb_spec 4 u1) as [B|B]; [discriminate|]. pose proof (acos_ratio u1 ltac:(lra)) as Ha. set (alpha := acos (u1 / 4)) in *.
  destruct (turns_spec (PI / 2 + alpha + phi)) as [Rt Ht]. set (T := turns (PI / 2 + alpha + phi)) in *.
  destruct (turns_spec (PI - 2 * alpha)) as [Ru Hu]. set (U := turns (PI - 2 * alpha)) in *.
  destruct (turns_spec (pth goal - T - U)) as [Rv Hv]. set (V := turns (pth goal - T - U)) in *.
  destruct (angle_invalid T || angle_invalid U || angle_invalid V); [discriminate|]. intros E. injection E as <- <- <- <-.
  split; [props|]. split; [cbn; ring|]. destruct (ccc_geometry xi eta u1 phi alpha T U Px Py Ha Ht Hu) as [X Y].
  assert (H1 : same_angle (T + U + V) (pth goal)). { eapply same_eq; [apply same_angle_add; [apply same_angle_refl|exact Hv]|ring]. }
  pose proof (same_angle_sin _ _ H1) as S1. pose proof (same_angle_cos _ _ H1) as C1.
  split; [|split]; geo; rewrite ?Rplus_0_l, ?sin_0, ?cos_0; replace (T - - U) with (T + U) by ring; rewrite ?S1, ?C1; auto; unfold xi, eta in *; lra.
Qed.

Lemma w3 goal t u v len : LfRbLb goal = Lengths t u v len -> word_ok [Lf t; Rb u; Lb v] goal len.
Proof.
  unfold LfRbLb. set (xi := px goal - sin (pth goal)). set (eta := py goal - 1 + cos (pth goal)). cbv zeta.
  destruct (atan2_polar eta xi) as [Px Py]. pose proof (sqrt_pos (xi * xi + eta * eta)) as P1. set (u1 := sqrt (xi * xi + eta * eta)) in *. set (phi := atan2 eta xi) in *.
  destruct (Rltb_spec 4 u1) as [B|B]; [discriminate|]. pose proof (acos_ratio u1 ltac:(lra)) as Ha. set (alpha := acos (u1 / 4)) in *.
  destruct (turns_spec (PI / 2 + alpha + phi)) as [Rt Ht]. set (T := turns (PI / 2 + alpha + phi)) in *.
  destruct (turns_spec (PI - 2 * alpha)) as [Ru Hu]. set (U := turns (PI - 2 * alpha)) in *.
  destruct (turns_spec (T + U - pth goal)) as [Rv Hv]. set (V := turns (T + U - pth goal)) in *.
  intros E. injection E as <- <- <- <-.
  split; [props|]. split; [cbn; ring|]. destruct (ccc_geometry xi eta u1 phi alpha T U Px Py Ha Ht Hu) as [X Y].
  assert (H1 : same_angle (T + U + - V) (pth goal)). { eapply same_eq; [apply same_angle_add; [apply same_angle_refl|apply same_angle_opp, Hv]|ring]. }
  pose proof (same_angle_sin _ _ H1) as S1. pose proof (same_angle_cos _ _ H1) as C1.
  split; [|split]; geo; rewrite ?Rplus_0_l, ?sin_0, ?cos_0; replace (T - - U) with (T + U) by ring; rewrite ?S1, ?C1; auto; unfold xi, eta in *; lra.
Qed.

Lemma asin_in z : 0 <= z <= 1 -> sin (asin z) = z /\ 0 <= cos (asin z).
Proof. intros H. split; [apply sin_asin; lra|]. pose proof (asin_bound z). apply cos_ge_0; lra. Qed.

Lemma w4 goal t u v len : LfRfLb goal = Lengths t u v len -> word_ok [Lf t; Rf u; Lb v] goal len.
Proof.
  unfold LfRfLb. set (xi := px goal - sin (pth goal)). set (eta := py goal - 1 + cos (pth goal)). cbv zeta.
  destruct (atan2_polar eta xi) as [Px Py]. pose proof (sqrt_pos (xi * xi + eta * eta)) as P1. set (u1 := sqrt (xi * xi + eta * eta)) in *. set (phi := atan2 eta xi) in *.
  destruct (Rltb_spec 4 u1) as [B|B]; [discriminate|]. destruct (Reqb_spec u1 0) as [Z|N]; [discriminate|].
  assert (W : -1 <= (8 - u1 * u1) / 8 <= 1) by nra. pose proof (acos_bound ((8 - u1 * u1) / 8)) as Bu. pose proof (cos_acos _ W) as Cu. set (U := acos ((8 - u1 * u1) / 8)) in *.
  assert (SU : 0 <= sin U) by (apply sin_ge_0; lra). pose proof (sincos U) as QU. assert (P : 0 < u1) by lra.
  assert (Sq : 4 * (sin U * sin U) = u1 * u1 * (1 - u1 * u1 / 16)). { replace (sin U * sin U) with (1 - cos U * cos U) by lra. rewrite Cu. field. }
  assert (A : 0 <= 2 * sin U / u1 <= 1).
  { split; [apply Rmult_le_pos; [lra|left; now apply Rinv_0_lt_compat]|]. apply Rmult_le_reg_r with u1; auto. replace (2 * sin U / u1 * u1) with (2 * sin U) by (field; lra). rewrite Rmult_1_l. nra. }
  destruct (asin_in _ A) as [Sa Ca]. set (alpha := asin (2 * sin U / u1)) in *. pose proof (sincos alpha) as Qa.
  assert (S' : sin U = u1 * sin alpha / 2) by (rewrite Sa; field; lra).
  assert (C' : cos alpha = u1 / 4).
  { assert (E : cos alpha * cos alpha = (u1 / 4) * (u1 / 4)); [|nra]. replace (cos alpha * cos alpha) with (1 - sin alpha * sin alpha) by lra.
    assert (u1 * u1 * (sin alpha * sin alpha) = u1 * u1 * (1 - u1 * u1 / 16)) by (rewrite <- Sq, S'; field). assert (P2 : 0 < u1 * u1) by nra. apply Rmult_eq_reg_l with (u1 * u1); [|lra]. lra. }
  destruct (turns_spec (PI / 2 - alpha + phi)) as [Rt Ht]. set (T := turns (PI / 2 - alpha + phi)) in *.
  destruct (turns_spec (T - U - pth goal)) as [Rv Hv]. set (V := turns (T - U - pth goal)) in *.
  intros E. injection E as <- <- <- <-. split; [props|]. split; [cbn; ring|].
  pose proof (same_angle_sin _ _ Ht) as S2. pose proof (same_angle_cos _ _ Ht) as C2. rewrite sin_plus, sin_minus, cos_minus, sin_PI2, cos_PI2 in S2. rewrite cos_plus, sin_minus, cos_minus, sin_PI2, cos_PI2 in C2.
  assert (K1 : 1 - cos U = 2 * (cos alpha * cos alpha)) by (rewrite Cu, C'; field). assert (K2 : sin U = 2 * cos alpha * sin alpha) by (rewrite S', C'; field).
  assert (F : u1 = 4 * cos alpha) by lra.
  assert (X : 2 * sin T - 2 * sin (T - U) = xi).
  { rewrite <- Px, sin_minus, S2, C2, F. replace (cos U) with (1 - 2 * (cos alpha * cos alpha)) by lra. rewrite K2. replace (sin alpha * sin alpha) with (1 - cos alpha * cos alpha) by lra.
    ring_simplify. replace (sin alpha ^ 2) with (1 - cos alpha * cos alpha) by (rewrite <- Qa; ring). ring. }
  assert (Y : 2 * cos (T - U) - 2 * cos T = eta).
  { rewrite <- Py, cos_minus, S2, C2, F. replace (cos U) with (1 - 2 * (cos alpha * cos alpha)) by lra. rewrite K2.
    ring_simplify. replace (sin alpha ^ 2) with (1 - cos alpha * cos alpha) by (rewrite <- Qa; ring). ring. }
  assert (H1 : same_angle (T - U + - V) (pth goal)). { eapply same_eq; [apply same_angle_add; [apply same_angle_refl|apply same_angle_opp, Hv]|ring]. }
  pose proof (same_angle_sin _ _ H1) as S1. pose proof (same_angle_cos _ _ H1) as C1.
  split; [|split]; geo; rewrite ?Rplus_0_l, ?sin_0, ?cos_0; rewrite ?S1, ?C1; auto; unfold xi, eta in *; lra.
Qed.

Lemma w5_geometry xi eta u1 phi T U : u1 * cos phi = xi -> u1 * sin phi = eta ->
  (cos U = 1 / 2 - u1 / 4 /\ same_angle (T - U) (phi - PI / 2)) \/ (cos U = u1 / 4 + 1 / 2 /\ same_angle (T - U) (PI / 2 + phi)) ->
  2 * sin T - 2 * sin (T - U) + 2 * sin (T - U - U) = xi /\ - (2 * cos T) + 2 * cos (T - U) - 2 * cos (T - U - U) = eta.
Proof.
  intros <- <- H. set (W := T - U) in *. assert (ET : T = W + U) by (unfold W; ring). rewrite ET, !sin_plus, !cos_plus, !sin_minus, !cos_minus.
  destruct H as [[Hc Ha]|[Hc Ha]]; rewrite (same_angle_sin _ _ Ha), (same_angle_cos _ _ Ha), Hc; trig; lra.
Qed.

Lemma w5 goal t u v len : LfRufLubRb goal = Lengths t u v len -> word_ok [Lf t; Rf u; Lb u; Rb v] goal len.
Proof.
  unfold LfRufLubRb. set (xi := px goal + sin (pth goal)). set (eta := py goal - 1 - cos (pth goal)). cbv zeta.
  destruct (atan2_polar eta xi) as [Px Py]. pose proof (sqrt_pos (xi * xi + eta * eta)) as P1. set (u1 := sqrt (xi * xi + eta * eta)) in *. set (phi := atan2 eta xi) in *.
  destruct (Rltb_spec 4 u1) as [B|B]; [discriminate|].
  assert (G : forall T U, 0 <= T -> 0 <= U -> 
    (cos U = 1 / 2 - u1 / 4 /\ same_angle (T - U) (phi - PI / 2)) \/ (cos U = u1 / 4 + 1 / 2 /\ same_angle (T - U) (PI / 2 + phi)) ->
    Lengths T U (turns (pth goal - T + 2 * U)) (T + U + U + turns (pth goal - T + 2 * U)) = Lengths t u v len -> word_ok [Lf t; Rf u; Lb u; Rb v] goal len).
  { intros T U HT HU H E. destruct (turns_spec (pth goal - T + 2 * U)) as [Rv Hv]. set (V := turns (pth goal - T + 2 * U)) in *. injection E as <- <- <- <-.
    split; [props|]. split; [cbn; ring|]. destruct (w5_geometry xi eta u1 phi T U Px Py H) as [X Y].
    assert (H1 : same_angle (T - U - U + V) (pth goal)). { eapply same_eq; [apply same_angle_add; [apply same_angle_refl|exact Hv]|ring]. }
    pose proof (same_angle_sin _ _ H1) as S1. pose proof (same_angle_cos _ _ H1) as C1.
    split; [|split]; geo; rewrite ?Rplus_0_l, ?sin_0, ?cos_0; replace (T - U + - U - - V) with (T - U - U + V) by ring; replace (T - U + - U) with (T - U - U) by ring; rewrite ?S1, ?C1; auto; unfold xi, eta in *; lra. }
  destruct (Rltb_spec 2 u1) as [B2|B2].
  - pose proof (cos_acos (u1 / 4 - 1 / 2) ltac:(lra)) as Ca. set (alpha := acos (u1 / 4 - 1 / 2)) in *.
    destruct (turns_spec (PI / 2 + phi - alpha)) as [Rt Ht]. destruct (turns_spec (PI - alpha)) as [Ru Hu]. apply G; try lra. left. split.
    + rewrite (same_angle_cos _ _ Hu). trig. lra.
    + eapply same_eq; [apply same_angle_sub; eauto|]. lra.
  - pose proof (cos_acos (u1 / 4 + 1 / 2) ltac:(lra)) as Ca. set (alpha := acos (u1 / 4 + 1 / 2)) in *.
    destruct (turns_spec (PI / 2 + phi + alpha)) as [Rt Ht]. destruct (turns_spec alpha) as [Ru Hu]. apply G; try lra. right. split.
    + rewrite (same_angle_cos _ _ Hu). lra.
    + eapply same_eq; [apply same_angle_sub; eauto|]. lra.
Qed.

Lemma rotation A B u1 alpha T phi : u1 * cos alpha = A -> u1 * sin alpha = B -> same_angle T (PI / 2 + phi + alpha) ->
  A * sin T - B * cos T = u1 * cos phi /\ - (A * cos T) - B * sin T = u1 * sin phi.
Proof.
  intros <- <- H. assert (H' : same_angle (T - alpha) (PI / 2 + phi)) by (eapply same_eq; [apply same_angle_sub; [exact H|apply same_angle_refl]|ring]).
  pose proof (same_angle_sin _ _ H') as S. pose proof (same_angle_cos _ _ H') as C. rewrite sin_minus in S. rewrite cos_minus in C.
  rewrite sin_plus, sin_PI2, cos_PI2 in S. rewrite cos_plus, sin_PI2, cos_PI2 in C.
  split.
  - replace (u1 * cos alpha * sin T - u1 * sin alpha * cos T) with (u1 * (sin T * cos alpha - cos T * sin alpha)) by ring. rewrite S. ring.
  - replace (- (u1 * cos alpha * cos T) - u1 * sin alpha * sin T) with (- (u1 * (cos T * cos alpha + sin T * sin alpha))) by ring. rewrite C. ring.
Qed.

Lemma w6 goal t u v len : LfRubLubRf goal = Lengths t u v len -> word_ok [Lf t; Rb u; Lb u; Rf v] goal len.
Proof.
  unfold LfRubLubRf. set (xi := px goal + sin (pth goal)). set (eta := py goal - 1 - cos (pth goal)). cbv zeta.
  destruct (atan2_polar eta xi) as [Px Py]. pose proof (sqrt_pos (xi * xi + eta * eta)) as P1. set (u1 := sqrt (xi * xi + eta * eta)) in *. set (phi := atan2 eta xi) in *.
  destruct (Rltb_spec 6 u1) as [B|B]; [discriminate|]. destruct (Rltb_spec (5 / 4 - u1 * u1 / 16) 0) as [B1|B1]; [discriminate|]. destruct (Rltb_spec 1 (5 / 4 - u1 * u1 / 16)) as [B2|B2]; [discriminate|].
  cbn [orb]. pose proof (cos_acos (5 / 4 - u1 * u1 / 16) ltac:(lra)) as Cu. pose proof (acos_bound (5 / 4 - u1 * u1 / 16)) as Bu. set (U := acos (5 / 4 - u1 * u1 / 16)) in *.
  assert (P : 0 < u1) by nra. assert (SU : 0 <= sin U) by (apply sin_ge_0; lra). pose proof (sincos U) as QU.
  assert (K : (4 - 2 * cos U) * (4 - 2 * cos U) + (2 * sin U) * (2 * sin U) = u1 * u1) by nra.
  assert (A : 0 <= 2 * sin U / u1 <= 1).
  { split; [apply Rmult_le_pos; [lra|left; now apply Rinv_0_lt_compat]|]. apply Rmult_le_reg_r with u1; auto. replace (2 * sin U / u1 * u1) with (2 * sin U) by (field; lra). rewrite Rmult_1_l. nra. }
  destruct (asin_in _ A) as [Sa Ca]. set (alpha := asin (2 * sin U / u1)) in *. pose proof (sincos alpha) as Qa.
  assert (S' : u1 * sin alpha = 2 * sin U) by (rewrite Sa; field; lra).
  assert (C' : u1 * cos alpha = 4 - 2 * cos U).
  { assert (0 <= u1 * cos alpha) by nra. assert (0 <= 4 - 2 * cos U) by (rewrite Cu; lra). apply Rsqr_inj; auto. unfold Rsqr.
    replace (u1 * cos alpha * (u1 * cos alpha)) with (u1 * u1 * (sin alpha * sin alpha + cos alpha * cos alpha) - (u1 * sin alpha) * (u1 * sin alpha)) by ring. rewrite Qa, S'. lra. }
  destruct (turns_spec (PI / 2 + phi + alpha)) as [Rt Ht]. set (T := turns (PI / 2 + phi + alpha)) in *.
  destruct (turns_spec (T - pth goal)) as [Rv Hv]. set (V := turns (T - pth goal)) in *.
  intros E. injection E as <- <- <- <-. split; [props|]. split; [cbn; ring|].
  destruct (rotation _ _ u1 alpha T phi C' S' Ht) as [X Y].
  assert (H1 : same_angle (T - V) (pth goal)). { eapply same_eq; [apply same_angle_add; [apply same_angle_refl|apply same_angle_opp, Hv]|ring]. }
  pose proof (same_angle_sin _ _ H1) as S1. pose proof (same_angle_cos _ _ H1) as C1.
  split; [|split]; geo; rewrite ?Rplus_0_l, ?sin_0, ?cos_0; replace (T - - U + - U - V) with (T - V) by ring; replace (T - - U + - U) with T by ring; replace (T - - U) with (T + U) by ring; rewrite ?S1, ?C1, ?sin_plus, ?cos_plus; auto; unfold xi, eta in *; lra.
Qed.

Lemma w7 goal t u v len : LfRbpi2SbLb goal = Lengths t u v len -> word_ok [Lf t; Rb (PI / 2); Sb u; Lb v] goal len.
Proof.
  pose proof PI_gt_1 as HPI. unfold LfRbpi2SbLb. set (xi := px goal - sin (pth goal)). set (eta := py goal - 1 + cos (pth goal)). cbv zeta.
  destruct (atan2_polar eta xi) as [Px Py]. set (Q := xi * xi + eta * eta) in *. set (phi := atan2 eta xi) in *.
  destruct (Rltb_spec Q 4) as [B|B]; [discriminate|]. pose proof (sqrt_sqrt (Q - 4) ltac:(lra)) as SQ. set (A := sqrt (Q - 4)) in *. destruct (Rltb_spec (A - 2) 0) as [B2|B2]; [discriminate|].
  replace (A - 2 + 2) with A by ring. destruct (atan2_polar 2 A) as [Ax Ay]. replace (A * A + 2 * 2) with Q in Ax, Ay by lra. set (alpha := atan2 2 A) in *. set (u1 := sqrt Q) in *.
  destruct (turns_spec (PI / 2 + phi + alpha)) as [Rt Ht]. set (T := turns (PI / 2 + phi + alpha)) in *.
  destruct (turns_spec (T + PI / 2 - pth goal)) as [Rv Hv]. set (V := turns (T + PI / 2 - pth goal)) in *.
  intros E. injection E as <- <- <- <-. split; [props|]. split; [cbn; ring|].
  destruct (rotation _ _ u1 alpha T phi Ax Ay Ht) as [X Y].
  assert (H1 : same_angle (T + PI / 2 + - V) (pth goal)). { eapply same_eq; [apply same_angle_add; [apply same_angle_refl|apply same_angle_opp, Hv]|ring]. }
  pose proof (same_angle_sin _ _ H1) as S1. pose proof (same_angle_cos _ _ H1) as C1.
  split; [|split]; geo; rewrite ?Rplus_0_l, ?sin_0, ?cos_0; replace (T - - (PI / 2)) with (T + PI / 2) by ring; rewrite ?S1, ?C1; auto; rewrite ?(sin_plus T), ?(cos_plus T), sin_PI2, cos_PI2; unfold xi, eta in *; lra.
Qed.

Lemma w8 goal t u v len : LfRbpi2SbRb goal = Lengths t u v len -> word_ok [Lf t; Rb (PI / 2); Sb u; Rb v] goal len.
Proof.
  pose proof PI_gt_1 as HPI. unfold LfRbpi2SbRb. set (xi := px goal + sin (pth goal)). set (eta := py goal - 1 - cos (pth goal)). cbv zeta.
  destruct (atan2_polar eta xi) as [Px Py]. set (u1 := sqrt (xi * xi + eta * eta)) in *. set (phi := atan2 eta xi) in *.
  destruct (Rltb_spec u1 2) as [B|B]; [discriminate|].
  destruct (turns_spec (PI / 2 + phi)) as [Rt Ht]. set (T := turns (PI / 2 + phi)) in *.
  destruct (turns_spec (pth goal - T - PI / 2)) as [Rv Hv]. set (V := turns (pth goal - T - PI / 2)) in *.
  intros E. injection E as <- <- <- <-. split; [props|]. split; [cbn; ring|].
  pose proof (same_angle_sin _ _ Ht) as S2. pose proof (same_angle_cos _ _ Ht) as C2. rewrite sin_plus, sin_PI2, cos_PI2 in S2. rewrite cos_plus, sin_PI2, cos_PI2 in C2.
  assert (H1 : same_angle (T + PI / 2 + V) (pth goal)). { eapply same_eq; [apply same_angle_add; [apply same_angle_refl|exact Hv]|ring]. }
  pose proof (same_angle_sin _ _ H1) as S1. pose proof (same_angle_cos _ _ H1) as C1.
  split; [|split]; geo; rewrite ?Rplus_0_l, ?sin_0, ?cos_0; replace (T - - (PI / 2) - - V) with (T + PI / 2 + V) by ring; replace (T - - (PI / 2)) with (T + PI / 2) by ring; rewrite ?S1, ?C1; auto; rewrite ?(sin_plus T), ?(cos_plus T), sin_PI2, cos_PI2, S2, C2; unfold xi, eta in *; lra.
Qed.

Lemma w9 goal t u v len : LfSfRfpi2Lb goal = Lengths t u v len -> word_ok [Lf t; Sf u; Rf (PI / 2); Lb v] goal len.
Proof.
  pose proof PI_gt_1 as HPI. unfold LfSfRfpi2Lb. set (xi := px goal - sin (pth goal)). set (eta := py goal - 1 + cos (pth goal)). cbv zeta.
  destruct (atan2_polar eta xi) as [Px Py]. set (Q := xi * xi + eta * eta) in *. set (phi := atan2 eta xi) in *.
  destruct (Rltb_spec Q 4) as [B|B]; [discriminate|]. pose proof (sqrt_sqrt (Q - 4) ltac:(lra)) as SQ. set (A := sqrt (Q - 4)) in *. destruct (Rltb_spec (A - 2) 0) as [B2|B2]; [discriminate|].
  replace (A - 2 + 2) with A by ring. destruct (atan2_polar A 2) as [Ax Ay]. replace (2 * 2 + A * A) with Q in Ax, Ay by lra. set (alpha := atan2 A 2) in *. set (u1 := sqrt Q) in *.
  destruct (turns_spec (PI / 2 + phi - alpha)) as [Rt Ht]. set (T := turns (PI / 2 + phi - alpha)) in *.
  destruct (turns_spec (T - PI / 2 - pth goal)) as [Rv Hv]. set (V := turns (T - PI / 2 - pth goal)) in *.
  intros E. injection E as <- <- <- <-. split; [props|]. split; [cbn; ring|].
  assert (Ht' : same_angle T (PI / 2 + phi + - alpha)) by exact Ht.
  destruct (rotation 2 (- A) u1 (- alpha) T phi) as [X Y]; [rewrite cos_neg; auto|rewrite sin_neg; lra|auto|].
  assert (H1 : same_angle (T - PI / 2 + - V) (pth goal)). { eapply same_eq; [apply same_angle_add; [apply same_angle_refl|apply same_angle_opp, Hv]|ring]. }
  pose proof (same_angle_sin _ _ H1) as S1. pose proof (same_angle_cos _ _ H1) as C1.
  split; [|split]; geo; rewrite ?Rplus_0_l, ?sin_0, ?cos_0; rewrite ?S1, ?C1; auto; rewrite ?(sin_minus T), ?(cos_minus T), sin_PI2, cos_PI2; unfold xi, eta in *; lra.
Qed.

Lemma w10 goal t u v len : LfSfLfpi2Rb goal = Lengths t u v len -> word_ok [Lf t; Sf u; Lf (PI / 2); Rb v] goal len.
Proof.
  pose proof PI_gt_1 as HPI. unfold LfSfLfpi2Rb. set (xi := px goal + sin (pth goal)). set (eta := py goal - 1 - cos (pth goal)). cbv zeta.
  destruct (atan2_polar eta xi) as [Px Py]. set (u1 := sqrt (xi * xi + eta * eta)) in *. set (phi := atan2 eta xi) in *.
  destruct (Rltb_spec u1 2) as [B|B]; [discriminate|].
  destruct (turns_spec phi) as [Rt Ht]. set (T := turns phi) in *.
  destruct (turns_spec (- T - PI / 2 + pth goal)) as [Rv Hv]. set (V := turns (- T - PI / 2 + pth goal)) in *.
  intros E. injection E as <- <- <- <-. split; [props|]. split; [cbn; ring|].
  pose proof (same_angle_sin _ _ Ht) as S2. pose proof (same_angle_cos _ _ Ht) as C2.
  assert (H1 : same_angle (T + PI / 2 + V) (pth goal)). { eapply same_eq; [apply same_angle_add; [apply same_angle_refl|exact Hv]|ring]. }
  pose proof (same_angle_sin _ _ H1) as S1. pose proof (same_angle_cos _ _ H1) as C1.
  split; [|split]; geo; rewrite ?Rplus_0_l, ?sin_0, ?cos_0; replace (T + PI / 2 - - V) with (T + PI / 2 + V) by ring; rewrite ?S1, ?C1; auto; rewrite ?(sin_plus T), ?(cos_plus T), sin_PI2, cos_PI2, S2, C2; unfold xi, eta in *; lra.
Qed.

Lemma w11 goal t u v len : LfRbpi2SbLbpi2Rf goal = Lengths t u v len -> word_ok [Lf t; Rb (PI / 2); Sb u; Lb (PI / 2); Rf v] goal len.
Proof.
  pose proof PI_gt_1 as HPI. unfold LfRbpi2SbLbpi2Rf. set (xi := px goal + sin (pth goal)). set (eta := py goal - 1 - cos (pth goal)). cbv zeta.
  destruct (atan2_polar eta xi) as [Px Py]. set (Q := xi * xi + eta * eta) in *. set (phi := atan2 eta xi) in *.
  destruct (Rltb_spec Q 16) as [B|B]; [discriminate|]. pose proof (sqrt_sqrt (Q - 4) ltac:(lra)) as SQ. set (A := sqrt (Q - 4)) in *. destruct (Rltb_spec (A - 4) 0) as [B2|B2]; [discriminate|].
  replace (A - 4 + 4) with A by ring. destruct (atan2_polar 2 A) as [Ax Ay]. replace (A * A + 2 * 2) with Q in Ax, Ay by lra. set (alpha := atan2 2 A) in *. set (u1 := sqrt Q) in *.
  destruct (turns_spec (PI / 2 + phi + alpha)) as [Rt Ht]. set (T := turns (PI / 2 + phi + alpha)) in *.
  destruct (turns_spec (T - pth goal)) as [Rv Hv]. set (V := turns (T - pth goal)) in *.
  intros E. injection E as <- <- <- <-. split; [props|]. split; [cbn; field|].
  destruct (rotation _ _ u1 alpha T phi Ax Ay Ht) as [X Y].
  assert (H1 : same_angle (T - V) (pth goal)). { eapply same_eq; [apply same_angle_add; [apply same_angle_refl|apply same_angle_opp, Hv]|ring]. }
  pose proof (same_angle_sin _ _ H1) as S1. pose proof (same_angle_cos _ _ H1) as C1.
  split; [|split]; geo; rewrite ?Rplus_0_l, ?sin_0, ?cos_0; replace (T - - (PI / 2) + - (PI / 2) - V) with (T - V) by ring; replace (T - - (PI / 2) + - (PI / 2)) with T by ring; replace (T - - (PI / 2)) with (T + PI / 2) by ring;
    rewrite ?S1, ?C1; auto; rewrite ?(sin_plus T), ?(cos_plus T), sin_PI2, cos_PI2; unfold xi, eta in *; lra.
Qed.
