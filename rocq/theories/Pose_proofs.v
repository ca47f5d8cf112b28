From Coq Require Import Reals Lra Lia.
From Verif Require Import Base RealBase Pose_model Pose_spec.
Local Open Scope R_scope.

(** ** Angles *)
Lemma same_angle_refl a : same_angle a a.
Proof. exists 0%Z. lra. Qed.
Lemma same_angle_sym a b : same_angle a b -> same_angle b a.
Proof. intros [k H]. exists (- k)%Z. rewrite opp_IZR. lra. Qed.
Lemma same_angle_trans a b c : same_angle a b -> same_angle b c -> same_angle a c.
Proof. intros [k H] [l H']. exists (k + l)%Z. rewrite plus_IZR. lra. Qed.
Lemma same_angle_add a b c d : same_angle a b -> same_angle c d -> same_angle (a + c) (b + d).
Proof. intros [k H] [l H']. exists (k + l)%Z. rewrite plus_IZR. lra. Qed.
Lemma same_angle_opp a b : same_angle a b -> same_angle (- a) (- b).
Proof. intros [k H]. exists (- k)%Z. rewrite opp_IZR. lra. Qed.
Lemma same_angle_sub a b c d : same_angle a b -> same_angle c d -> same_angle (a - c) (b - d).
Proof. intros H H'. apply same_angle_add; auto. now apply same_angle_opp. Qed.

Lemma PI_gt_1 : 1 < PI.
Proof. pose proof PI_RGT_0. pose proof PI2_1. unfold PI2 in *. lra. Qed.

Lemma cos_period_Z x k : cos (x + 2 * PI * IZR k) = cos x.
Proof.
  assert (P : forall n x, cos (x + 2 * PI * INR n) = cos x).
  { intros n y. replace (y + 2 * PI * INR n) with (y + 2 * INR n * PI) by ring. apply cos_period. }
  destruct (Z_le_dec 0 k) as [H|H].
  - rewrite <- (Z2Nat.id k H), <- INR_IZR_INZ. apply P.
  - assert (Hk : IZR k = - INR (Z.to_nat (- k))).
    { rewrite INR_IZR_INZ, Z2Nat.id by lia. rewrite opp_IZR. lra. }
    rewrite Hk, <- (P (Z.to_nat (- k)) (x + _)). f_equal. ring.
Qed.
Lemma sin_period_Z x k : sin (x + 2 * PI * IZR k) = sin x.
Proof.
  assert (P : forall n x, sin (x + 2 * PI * INR n) = sin x).
  { intros n y. replace (y + 2 * PI * INR n) with (y + 2 * INR n * PI) by ring. apply sin_period. }
  destruct (Z_le_dec 0 k) as [H|H].
  - rewrite <- (Z2Nat.id k H), <- INR_IZR_INZ. apply P.
  - assert (Hk : IZR k = - INR (Z.to_nat (- k))).
    { rewrite INR_IZR_INZ, Z2Nat.id by lia. rewrite opp_IZR. lra. }
    rewrite Hk, <- (P (Z.to_nat (- k)) (x + _)). f_equal. ring.
Qed.
Lemma same_angle_cos a b : same_angle a b -> cos a = cos b.
Proof. intros [k ->]. apply cos_period_Z. Qed.
Lemma same_angle_sin a b : same_angle a b -> sin a = sin b.
Proof. intros [k ->]. apply sin_period_Z. Qed.

(** ** WrapTheta *)
Lemma while_above_same n : forall t, same_angle (while_above n t) t.
Proof.
  induction n as [|n IH]; intros t; cbn; [apply same_angle_refl|]. destruct (Rltb PI t); [|apply same_angle_refl].
  eapply same_angle_trans; [apply IH|]. exists (-1)%Z. lra.
Qed.
Lemma while_below_same n : forall t, same_angle (while_below n t) t.
Proof.
  induction n as [|n IH]; intros t; cbn; [apply same_angle_refl|]. destruct (Rltb t (- PI)); [|apply same_angle_refl].
  eapply same_angle_trans; [apply IH|]. exists 1%Z. lra.
Qed.

Lemma while_above_range n : forall t, t <= INR n + 1 -> while_above n t <= PI /\ (- PI <= t -> - PI <= while_above n t) /\ (t <= PI -> while_above n t = t).
Proof.
  pose proof PI_gt_1 as HP. induction n as [|n IH]; intros t H; cbn [while_above].
  - cbn in H. split; [lra|]. auto.
  - rewrite S_INR in H. destruct (Rltb_spec PI t) as [H1|H1].
    + destruct (IH (t - 2 * PI)) as (I1 & I2 & I3); [lra|]. split; auto. split; intros H2; [|lra].
      apply I2. lra.
    + split; auto.
Qed.
Lemma while_below_range n : forall t, - INR n - 1 <= t -> - PI <= while_below n t /\ (t <= PI -> while_below n t <= PI) /\ (- PI <= t -> while_below n t = t).
Proof.
  pose proof PI_gt_1 as HP. induction n as [|n IH]; intros t H; cbn [while_below].
  - cbn in H. split; [lra|]. auto.
  - rewrite S_INR in H. destruct (Rltb_spec t (- PI)) as [H1|H1].
    + destruct (IH (t + 2 * PI)) as (I1 & I2 & I3); [lra|]. split; auto. split; intros H2; [|lra].
      apply I2. lra.
    + split; auto.
Qed.

Lemma wrap_fuel_enough t : Rabs t <= INR (wrap_fuel t) + 1.
Proof.
  unfold wrap_fuel. pose proof (archimed (Rabs t)) as [H _]. rewrite INR_IZR_INZ, Z2Nat.id; [lra|].
  apply le_IZR. pose proof (Rabs_pos t). lra.
Qed.
Lemma while_above_keep n t : t <= PI -> while_above n t = t.
Proof. destruct n; cbn; auto. intros H. destruct (Rltb_spec PI t); [lra|auto]. Qed.
Lemma while_below_keep n t : - PI <= t -> while_below n t = t.
Proof. destruct n; cbn; auto. intros H. destruct (Rltb_spec t (- PI)); [lra|auto]. Qed.

Lemma wrap_range_fuel n t : Rabs t <= INR n + 1 -> - PI <= while_below n (while_above n t) <= PI.
Proof.
  intros H. apply Rabs_between in H. pose proof PI_gt_1 as HP.
  destruct (Rle_dec t PI) as [H1|H1].
  - rewrite (while_above_keep n t H1). destruct (while_below_range n t) as (I1 & I2 & _); [lra|]. auto.
  - destruct (while_above_range n t) as (I1 & I2 & _); [lra|]. rewrite while_below_keep by (apply I2; lra). split; auto. apply I2. lra.
Qed.
Lemma wrap_range t : - PI <= wrap_theta t <= PI.
Proof. apply wrap_range_fuel, wrap_fuel_enough. Qed.
Lemma wrap_same t : same_angle (wrap_theta t) t.
Proof. eapply same_angle_trans; [apply while_below_same|apply while_above_same]. Qed.
Lemma wrap_keep t : - PI <= t <= PI -> wrap_theta t = t.
Proof. intros H. unfold wrap_theta. rewrite while_above_keep by lra. apply while_below_keep. lra. Qed.
Lemma wrap_idem t : wrap_theta (wrap_theta t) = wrap_theta t.
Proof. apply wrap_keep, wrap_range. Qed.

(** More iterations change nothing. *)
Lemma while_above_more n : forall t m, t <= INR n + 1 -> (n <= m)%nat -> while_above m t = while_above n t.
Proof.
  pose proof PI_gt_1 as HP. induction n as [|n IH]; intros t m H Hm.
  - cbn in H. cbn. apply while_above_keep. lra.
  - rewrite S_INR in H. destruct m as [|m]; [lia|]. cbn. destruct (Rltb PI t); auto. apply IH; [lra|lia].
Qed.
Lemma while_below_more n : forall t m, - INR n - 1 <= t -> (n <= m)%nat -> while_below m t = while_below n t.
Proof.
  pose proof PI_gt_1 as HP. induction n as [|n IH]; intros t m H Hm.
  - cbn in H. cbn. apply while_below_keep. lra.
  - rewrite S_INR in H. destruct m as [|m]; [lia|]. cbn. destruct (Rltb t (- PI)); auto. apply IH; [lra|lia].
Qed.
Lemma wrap_more t n m : (wrap_fuel t <= n)%nat -> (wrap_fuel t <= m)%nat -> while_below m (while_above n t) = wrap_theta t.
Proof.
  intros Hn Hm. unfold wrap_theta. pose proof (wrap_fuel_enough t) as H. apply Rabs_between in H. pose proof PI_gt_1 as HP.
  rewrite (while_above_more (wrap_fuel t) t n) by (auto; lra).
  destruct (Rle_dec t PI) as [H1|H1].
  - rewrite (while_above_keep _ t H1). apply while_below_more; [lra|auto].
  - destruct (while_above_range (wrap_fuel t) t) as (I1 & I2 & _); [lra|]. rewrite !while_below_keep by (apply I2; lra). reflexivity.
Qed.

(** Strictly inside, the representative is unique. *)
Lemma same_angle_unique a b : same_angle a b -> - PI < a < PI -> - PI <= b <= PI -> a = b.
Proof.
  intros [k H] Ha Hb. pose proof PI_gt_1 as HP.
  assert (Hk : (k = 0)%Z).
  { assert (H1 : -1 < IZR k < 1).
    { assert (E : IZR k = (a - b) / (2 * PI)) by (rewrite H; field; lra). rewrite E. split.
      - apply Rmult_lt_reg_r with (2 * PI); [lra|]. unfold Rdiv. rewrite Rmult_assoc, Rinv_l by lra. lra.
      - apply Rmult_lt_reg_r with (2 * PI); [lra|]. unfold Rdiv. rewrite Rmult_assoc, Rinv_l by lra. lra. }
    destruct H1 as [H1 H2]. apply (lt_IZR (-1)) in H1. apply (lt_IZR _ 1) in H2. lia. }
  subst k. lra.
Qed.

(** ** Poses *)
Lemma same_pose_refl a : same_pose a a.
Proof. repeat split; auto. apply same_angle_refl. Qed.
Lemma same_pose_sym a b : same_pose a b -> same_pose b a.
Proof. intros (H1 & H2 & H3). repeat split; auto. now apply same_angle_sym. Qed.
Lemma same_pose_trans a b c : same_pose a b -> same_pose b c -> same_pose a c.
Proof. intros (H1 & H2 & H3) (K1 & K2 & K3). repeat split; try congruence. eapply same_angle_trans; eauto. Qed.

Lemma add_fields a b :
  px (pose_add a b) = px a + (cos (pth a) * px b - sin (pth a) * py b) /\
  py (pose_add a b) = py a + (sin (pth a) * px b + cos (pth a) * py b) /\
  pth (pose_add a b) = wrap_theta (pth a + pth b).
Proof. unfold pose_add, mk_pose, rot_x, rot_y. cbn. rewrite wrap_idem. repeat split; ring. Qed.
Lemma sub_fields a b :
  px (pose_sub a b) = cos (pth b) * (px a - px b) + sin (pth b) * (py a - py b) /\
  py (pose_sub a b) = - sin (pth b) * (px a - px b) + cos (pth b) * (py a - py b) /\
  pth (pose_sub a b) = wrap_theta (pth a - pth b).
Proof.
  unfold pose_sub, mk_pose, rot_x, rot_y. cbn. rewrite wrap_idem, cos_neg, sin_neg. repeat split; ring.
Qed.

Lemma add_same_angle a b : same_angle (pth (pose_add a b)) (pth a + pth b).
Proof. destruct (add_fields a b) as (_ & _ & ->). apply wrap_same. Qed.
Lemma sub_same_angle a b : same_angle (pth (pose_sub a b)) (pth a - pth b).
Proof. destruct (sub_fields a b) as (_ & _ & ->). apply wrap_same. Qed.

Lemma sincos t : sin t * sin t + cos t * cos t = 1.
Proof. pose proof (sin2_cos2 t) as H. unfold Rsqr in H. exact H. Qed.

Lemma add_sub a b : same_pose (pose_add b (pose_sub a b)) a.
Proof.
  destruct (sub_fields a b) as (Sx & Sy & _). destruct (add_fields b (pose_sub a b)) as (Ax & Ay & _).
  pose proof (sincos (pth b)) as SC. split; [|split].
  - rewrite Ax, Sx, Sy. transitivity (px b + (sin (pth b) * sin (pth b) + cos (pth b) * cos (pth b)) * (px a - px b)); [ring|].
    rewrite SC. ring.
  - rewrite Ay, Sx, Sy. transitivity (py b + (sin (pth b) * sin (pth b) + cos (pth b) * cos (pth b)) * (py a - py b)); [ring|].
    rewrite SC. ring.
  - eapply same_angle_trans; [apply add_same_angle|].
    eapply same_angle_trans; [apply same_angle_add; [apply same_angle_refl|apply sub_same_angle]|].
    replace (pth b + (pth a - pth b)) with (pth a) by ring. apply same_angle_refl.
Qed.

Lemma sub_add a b : same_pose (pose_sub (pose_add a b) a) b.
Proof.
  destruct (add_fields a b) as (Ax & Ay & _). destruct (sub_fields (pose_add a b) a) as (Sx & Sy & _).
  pose proof (sincos (pth a)) as SC. split; [|split].
  - rewrite Sx, Ax, Ay. transitivity ((sin (pth a) * sin (pth a) + cos (pth a) * cos (pth a)) * px b); [ring|]. rewrite SC. ring.
  - rewrite Sy, Ax, Ay. transitivity ((sin (pth a) * sin (pth a) + cos (pth a) * cos (pth a)) * py b); [ring|]. rewrite SC. ring.
  - eapply same_angle_trans; [apply sub_same_angle|].
    eapply same_angle_trans; [apply same_angle_sub; [apply add_same_angle|apply same_angle_refl]|].
    replace (pth a + pth b - pth a) with (pth b) by ring. apply same_angle_refl.
Qed.

Lemma add_exact a b : - PI < pth a < PI -> pose_add b (pose_sub a b) = a.
Proof.
  intros H. destruct (add_sub a b) as (H1 & H2 & H3).
  assert (H4 : pth (pose_add b (pose_sub a b)) = pth a).
  { symmetry. apply same_angle_unique; auto; [now apply same_angle_sym|].
    destruct (add_fields b (pose_sub a b)) as (_ & _ & ->). apply wrap_range. }
  destruct a, (pose_add b _); cbn in *; congruence.
Qed.

Lemma add_assoc a b c : same_pose (pose_add (pose_add a b) c) (pose_add a (pose_add b c)).
Proof.
  destruct (add_fields a b) as (X1 & Y1 & _). destruct (add_fields (pose_add a b) c) as (X2 & Y2 & _).
  destruct (add_fields b c) as (X3 & Y3 & _). destruct (add_fields a (pose_add b c)) as (X4 & Y4 & _).
  pose proof (same_angle_cos _ _ (add_same_angle a b)) as HC. pose proof (same_angle_sin _ _ (add_same_angle a b)) as HS.
  rewrite cos_plus in HC. rewrite sin_plus in HS. split; [|split].
  - rewrite X2, X4, X1, X3, Y3, HC, HS. ring.
  - rewrite Y2, Y4, Y1, X3, Y3, HC, HS. ring.
  - eapply same_angle_trans; [apply add_same_angle|].
    eapply same_angle_trans; [apply same_angle_add; [apply add_same_angle|apply same_angle_refl]|].
    apply same_angle_sym.
    eapply same_angle_trans; [apply add_same_angle|].
    eapply same_angle_trans; [apply same_angle_add; [apply same_angle_refl|apply add_same_angle]|].
    replace (pth a + (pth b + pth c)) with (pth a + pth b + pth c) by ring. apply same_angle_refl.
Qed.

Lemma add_zero_l a : same_pose (pose_add zero_pose a) a.
Proof.
  destruct (add_fields zero_pose a) as (X & Y & _). change (px zero_pose) with 0 in *. change (py zero_pose) with 0 in *. change (pth zero_pose) with 0 in *. rewrite cos_0, sin_0 in X, Y. split; [|split].
  - rewrite X. ring.
  - rewrite Y. ring.
  - eapply same_angle_trans; [apply add_same_angle|]. cbn. rewrite Rplus_0_l. apply same_angle_refl.
Qed.
Lemma add_zero_r a : same_pose (pose_add a zero_pose) a.
Proof.
  destruct (add_fields a zero_pose) as (X & Y & _). change (px zero_pose) with 0 in *. change (py zero_pose) with 0 in *. split; [|split].
  - rewrite X. ring.
  - rewrite Y. ring.
  - eapply same_angle_trans; [apply add_same_angle|]. cbn. rewrite Rplus_0_r. apply same_angle_refl.
Qed.

(** Sums and differences of equal poses are equal. *)
Lemma add_compat a a' b b' : same_pose a a' -> same_pose b b' -> same_pose (pose_add a b) (pose_add a' b').
Proof.
  intros (H1 & H2 & H3) (K1 & K2 & K3). destruct (add_fields a b) as (X1 & Y1 & _). destruct (add_fields a' b') as (X2 & Y2 & _).
  split; [|split].
  - rewrite X1, X2, H1, K1, K2, (same_angle_cos _ _ H3), (same_angle_sin _ _ H3). reflexivity.
  - rewrite Y1, Y2, H2, K1, K2, (same_angle_cos _ _ H3), (same_angle_sin _ _ H3). reflexivity.
  - eapply same_angle_trans; [apply add_same_angle|]. apply same_angle_sym. eapply same_angle_trans; [apply add_same_angle|].
    apply same_angle_sym. now apply same_angle_add.
Qed.
Lemma sub_compat a a' b b' : same_pose a a' -> same_pose b b' -> same_pose (pose_sub a b) (pose_sub a' b').
Proof.
  intros (H1 & H2 & H3) (K1 & K2 & K3). destruct (sub_fields a b) as (X1 & Y1 & _). destruct (sub_fields a' b') as (X2 & Y2 & _).
  split; [|split].
  - rewrite X1, X2, H1, H2, K1, K2, (same_angle_cos _ _ K3), (same_angle_sin _ _ K3). reflexivity.
  - rewrite Y1, Y2, H1, H2, K1, K2, (same_angle_cos _ _ K3), (same_angle_sin _ _ K3). reflexivity.
  - eapply same_angle_trans; [apply sub_same_angle|]. apply same_angle_sym. eapply same_angle_trans; [apply sub_same_angle|].
    apply same_angle_sym. now apply same_angle_sub.
Qed.

(** ** Modulo *)
Lemma fmod_spec x m : 0 < m -> exists k, fmod x m = x - IZR k * m /\ - m < fmod x m < m /\ (0 <= x -> 0 <= fmod x m) /\ (x <= 0 -> fmod x m <= 0).
Proof.
  intros Hm. exists (Rtrunc (x / m)). split; [reflexivity|]. unfold fmod.
  assert (E : x = x / m * m) by (field; lra). destruct (Rtrunc_spec (x / m)) as [(H0 & H1 & H3)|(H0 & H1 & H3)]; apply IZR_le in H3.
  - set (q := x / m) in *. set (t := IZR (Rtrunc q)) in *. assert (0 <= (q - t) * m < m) by nra. rewrite E.
    split; [lra|]. split; intros; [lra|]. assert (q = 0) by nra. nra.
  - set (q := x / m) in *. set (t := IZR (Rtrunc q)) in *. assert (- m < (q - t) * m <= 0) by nra. rewrite E.
    split; [lra|]. split; intros; [|lra]. nra.
Qed.

Lemma modulo_spec x m : 0 < m -> 0 <= modulo x m < m /\ exists k, modulo x m = x + IZR k * m.
Proof.
  intros Hm. destruct (fmod_spec x m Hm) as (k & H1 & H2 & _). unfold modulo. destruct (Rltb_spec (fmod x m) 0).
  - split; [lra|]. exists (1 - k)%Z. rewrite minus_IZR. lra.
  - split; [lra|]. exists (- k)%Z. rewrite opp_IZR. lra.
Qed.

Lemma wrap_angle_spec t : - PI <= wrap_angle t < PI /\ same_angle (wrap_angle t) t.
Proof.
  pose proof PI_gt_1. destruct (modulo_spec (t + PI) (2 * PI)) as [H1 (k & H2)]; [lra|]. unfold wrap_angle.
  split; [lra|]. exists k. rewrite H2. lra.
Qed.
