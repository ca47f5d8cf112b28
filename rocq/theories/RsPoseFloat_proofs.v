(** Turns and lines in double precision. *)
From Coq Require Import Reals ZArith Lra Lia.
From Flocq Require Import Core BinarySingleNaN.
From Verif Require Import Base RealBase CoordsFloat_model CoordsFloat_proofs StraightFloat_model StraightFloat_proofs AngleFloat_model AngleFloat_proofs StateValidFloat_model Bicycle_model
  SteeringFloat_spec SteeringFloat_proofs Pose_proofs NonHolFloat_model NonHolFloat_spec NonHolFloat_proofs CompositeFloat_spec CompositeFloat_proofs RsFloat_model RsFloat_spec RsFloat_proofs RsPoseFloat_model RsPoseFloat_spec.
Local Open Scope R_scope.
#[local] Existing Instance prec53.
#[local] Existing Instance emax1024.
#[local] Existing Instance vexp53.
#[local] Existing Instance vrndne.

Lemma minus_one : is_finite (d_of (-1) 0) = true /\ B2R (d_of (-1) 0) = -1.
Proof. split; [vm_compute; reflexivity|]. change (F2R (Float radix2 (-4503599627370496) (-52)) = -1). unfold F2R. cbn [Fnum Fexp]. change (bpow radix2 (-52)) with (/ 4503599627370496). field. Qed.
Lemma times_minus_one x : is_finite x = true -> is_finite (d_mul x (d_of (-1) 0)) = true /\ B2R (d_mul x (d_of (-1) 0)) = - B2R x.
Proof.
  intros F. destruct minus_one as [F1 E1]. assert (V : rnd53 (B2R x * B2R (d_of (-1) 0)) = - B2R x).
  { rewrite E1. replace (B2R x * -1) with (B2R (Bopp x)) by (rewrite B2R_Bopp; ring). rewrite rnd_double. apply B2R_Bopp. }
  destruct (dmul_fits x (d_of (-1) 0) F F1) as [F2 E2]; rewrite V in *; [rewrite Rabs_Ropp; apply abs_B2R_lt_emax|auto].
Qed.
Lemma two_units : bpow radix2 (-52) = 2 * u53.
Proof. change (-52)%Z with (1 + -53)%Z. rewrite bpow_plus. reflexivity. Qed.
Lemma cos_double x : 1 - cos x = 2 * sin (x / 2) * sin (x / 2).
Proof. replace x with (2 * (x / 2)) at 1 by field. rewrite cos_2a_sin. ring. Qed.
Lemma sin_double x : sin x = 2 * sin (x / 2) * cos (x / 2).
Proof. replace x with (2 * (x / 2)) at 1 by field. rewrite sin_2a. ring. Qed.
Lemma sin_le_abs x : Rabs (sin x) <= Rabs x.
Proof. pose proof (SteeringFloat_proofs.sin_close x 0) as H. rewrite sin_0, !Rminus_0_r in H. exact H. Qed.
Lemma one_minus_cos x : Rabs (1 - cos x) <= Rabs x.
Proof. pose proof (SteeringFloat_proofs.cos_close x 0) as H. rewrite cos_0, Rminus_0_r, <- Rabs_Ropp in H. replace (1 - cos x) with (- (cos x - 1)) by ring. exact H. Qed.

Section Turn.
Variables dsin dcos : double -> double.
Hypothesis G : good_rotations dsin dcos.
Variable K : R.
Hypothesis HK : bpow radix2 (-900) <= K <= bpow radix2 400.
Variable radius : double.
Hypothesis Fr : is_finite radius = true.
Hypothesis HR : 0 < B2R radius <= K.
Notation rad := (B2R radius).

Lemma scale : 0 < K /\ 0 < u53 * K <= / 1000000 * K /\ 0 < eta53 <= / 1000000 * (u53 * K).
Proof using HK.
  clear G Fr HR radius dsin dcos. pose proof (bpow_gt_0 radix2 (-900)). destruct small_units as (U1 & U2 & U3 & _ & U5). assert (KP : 0 < K) by lra. split; [exact KP|]. split; [split; [apply Rmult_lt_0_compat; lra|apply Rmult_le_compat_r; lra]|]. split; [lra|].
  apply Rle_trans with (1 := unit_eta K (proj1 HK)). apply Rle_trans with (bpow radix2 (-100) * u53 * K).
  - apply Rmult_le_compat_r; [lra|]. unfold u53. rewrite <- bpow_plus. apply bpow_le. lia.
  - rewrite Rmult_assoc. apply Rmult_le_compat_r; [apply Rmult_le_pos; lra|lra].
Qed.

Lemma product (p q : double) P Q : is_finite p = true -> is_finite q = true -> Rabs P <= 2 * K -> Rabs (B2R p - P) <= 22 * (u53 * K) -> Rabs Q <= 1 -> Rabs (B2R q - Q) <= 7 * u53 ->
  is_finite (d_mul p q) = true /\ Rabs (B2R (d_mul p q) - P * Q) <= 40 * (u53 * K).
Proof using HK.
  clear G Fr HR radius dsin dcos. intros Fp Fq HP Hp HQ Hq. destruct scale as (KP & UK & ET). destruct small_units as (_ & _ & _ & _ & U5).
  assert (Bq : Rabs (B2R q) <= 1.001). { replace (B2R q) with (B2R q - Q + Q) by ring. eapply Rle_trans; [apply Rabs_triang|]. lra. }
  assert (E : Rabs (B2R p * B2R q - P * Q) <= 36.1 * (u53 * K)).
  { replace (B2R p * B2R q - P * Q) with ((B2R p - P) * B2R q + P * (B2R q - Q)) by ring. eapply Rle_trans; [apply Rabs_triang|]. rewrite !Rabs_mult.
    assert (Rabs (B2R p - P) * Rabs (B2R q) <= 22 * (u53 * K) * 1.001) by (apply Rmult_le_compat; auto using Rabs_pos).
    assert (Rabs P * Rabs (B2R q - Q) <= 2 * K * (7 * u53)) by (apply Rmult_le_compat; auto using Rabs_pos). lra. }
  assert (B : Rabs (B2R p * B2R q) <= 2.1 * K). { replace (B2R p * B2R q) with ((B2R p * B2R q - P * Q) + P * Q) by ring. eapply Rle_trans; [apply Rabs_triang|]. rewrite (Rabs_mult P). assert (Rabs P * Rabs Q <= 2 * K * 1) by (apply Rmult_le_compat; auto using Rabs_pos). lra. }
  destruct (dmul_real p q 402 Fp Fq ltac:(lia)) as [F V]. { eapply Rle_trans; [exact B|]. change 402%Z with (2 + 400)%Z. rewrite bpow_plus. change (bpow radix2 2) with 4. lra. }
  split; [exact F|]. pose proof (StraightFloat_proofs.err53 (B2R p * B2R q)) as R1. rewrite <- V in R1. assert (u53 * Rabs (B2R p * B2R q) <= u53 * (2.1 * K)) by (apply Rmult_le_compat_l; lra).
  replace (B2R (d_mul p q) - P * Q) with ((B2R (d_mul p q) - B2R p * B2R q) + (B2R p * B2R q - P * Q)) by ring. eapply Rle_trans; [apply Rabs_triang|]. lra.
Qed.

(** The local displacement of a turn by the angle [a]. *)
Lemma chord (a : double) : is_finite a = true -> Rabs (B2R a) <= 8 ->
  let phi := d_div a (d_of 2 0) in let L := d_mul (d_mul (d_of 2 0) (dsin phi)) radius in
  (is_finite (d_mul L (dcos phi)) = true /\ Rabs (B2R (d_mul L (dcos phi)) - rad * sin (B2R a)) <= 40 * (u53 * K)) /\
  (is_finite (d_mul L (dsin phi)) = true /\ Rabs (B2R (d_mul L (dsin phi)) - rad * (1 - cos (B2R a))) <= 40 * (u53 * K)).
Proof using G HK Fr HR.
  intros Fa Ba phi L. destruct scale as (KP & UK & ET). destruct small_units as (_ & _ & U3 & _ & U5). pose proof two_real as E2. assert (F2 : is_finite (d_of 2 0) = true) by (vm_compute; reflexivity).
  assert (Eta : eta53 <= u53) by (apply bpow_le; lia).
  destruct (div_real a (d_of 2 0) 3 Fa ltac:(rewrite E2; lra) ltac:(lia)) as [Fp Ep]. { rewrite E2. unfold Rdiv. rewrite Rabs_mult, (Rabs_pos_eq (/ 2)) by lra. change (bpow radix2 3) with 8. lra. }
  rewrite E2 in Ep. fold phi in Fp, Ep. pose proof (StraightFloat_proofs.err53 (B2R a / 2)) as R1. rewrite <- Ep in R1. 
  assert (Ba2 : Rabs (B2R a / 2) <= 4). { unfold Rdiv. rewrite Rabs_mult, (Rabs_pos_eq (/ 2)) by lra. lra. }
  assert (R1' : Rabs (B2R phi - B2R a / 2) <= 5 * u53). { assert (u53 * Rabs (B2R a / 2) <= u53 * 4) by (apply Rmult_le_compat_l; lra). lra. }
  assert (Bp : Rabs (B2R phi) <= 32). { replace (B2R phi) with ((B2R phi - B2R a / 2) + B2R a / 2) by ring. eapply Rle_trans; [apply Rabs_triang|]. lra. }
  destruct (G phi Fp Bp) as [[Fs Es] [Fc Ec]]. rewrite two_units in Es, Ec. set (h := B2R a / 2) in *.
  assert (Es' : Rabs (B2R (dsin phi) - sin h) <= 7 * u53). { replace (B2R (dsin phi) - sin h) with ((B2R (dsin phi) - sin (B2R phi)) + (sin (B2R phi) - sin h)) by ring. eapply Rle_trans; [apply Rabs_triang|]. pose proof (SteeringFloat_proofs.sin_close (B2R phi) h). lra. }
  assert (Ec' : Rabs (B2R (dcos phi) - cos h) <= 7 * u53). { replace (B2R (dcos phi) - cos h) with ((B2R (dcos phi) - cos (B2R phi)) + (cos (B2R phi) - cos h)) by ring. eapply Rle_trans; [apply Rabs_triang|]. pose proof (SteeringFloat_proofs.cos_close (B2R phi) h). lra. }
  assert (S1 : Rabs (sin h) <= 1) by (apply Rabs_between; pose proof (SIN_bound h); lra). assert (C1 : Rabs (cos h) <= 1) by (apply Rabs_between; pose proof (COS_bound h); lra).
  assert (Bs : Rabs (B2R (dsin phi)) <= 1.001). { replace (B2R (dsin phi)) with ((B2R (dsin phi) - sin h) + sin h) by ring. eapply Rle_trans; [apply Rabs_triang|]. lra. }
  assert (B2 : Rabs (2 * B2R (dsin phi)) <= 2.002) by (rewrite Rabs_mult, (Rabs_pos_eq 2) by lra; lra).
  destruct (dmul_real (d_of 2 0) (dsin phi) 2 F2 Fs ltac:(lia)) as [Fd Ed]. { rewrite E2. change (bpow radix2 2) with 4. lra. }
  rewrite E2 in Ed. pose proof (StraightFloat_proofs.err53 (2 * B2R (dsin phi))) as R2. rewrite <- Ed in R2. set (d := d_mul (d_of 2 0) (dsin phi)) in *.
  assert (R2' : Rabs (B2R d - 2 * sin h) <= 18 * u53).
  { assert (u53 * Rabs (2 * B2R (dsin phi)) <= u53 * 2.002) by (apply Rmult_le_compat_l; lra). replace (B2R d - 2 * sin h) with ((B2R d - 2 * B2R (dsin phi)) + 2 * (B2R (dsin phi) - sin h)) by ring. eapply Rle_trans; [apply Rabs_triang|]. rewrite (Rabs_mult 2), (Rabs_pos_eq 2) by lra. lra. }
  assert (S2 : Rabs (2 * sin h) <= 2) by (rewrite Rabs_mult, (Rabs_pos_eq 2) by lra; lra).
  assert (Bd : Rabs (B2R d) <= 2.01). { replace (B2R d) with ((B2R d - 2 * sin h) + 2 * sin h) by ring. eapply Rle_trans; [apply Rabs_triang|]. lra. }
  assert (Bdr : Rabs (B2R d * rad) <= 2.01 * K). { rewrite Rabs_mult, (Rabs_pos_eq rad) by lra. apply Rmult_le_compat; try lra. apply Rabs_pos. }
  destruct (dmul_real d radius 402 Fd Fr ltac:(lia)) as [FL EL]. { eapply Rle_trans; [exact Bdr|]. change 402%Z with (2 + 400)%Z. rewrite bpow_plus. change (bpow radix2 2) with 4. lra. }
  fold L in FL, EL. pose proof (StraightFloat_proofs.err53 (B2R d * rad)) as R3. rewrite <- EL in R3.
  assert (NL : Rabs (B2R L - 2 * sin h * rad) <= 22 * (u53 * K)).
  { assert (u53 * Rabs (B2R d * rad) <= u53 * (2.01 * K)) by (apply Rmult_le_compat_l; lra). replace (B2R L - 2 * sin h * rad) with ((B2R L - B2R d * rad) + (B2R d - 2 * sin h) * rad) by ring. eapply Rle_trans; [apply Rabs_triang|].
    rewrite (Rabs_mult (B2R d - 2 * sin h)), (Rabs_pos_eq rad) by lra. assert (Rabs (B2R d - 2 * sin h) * rad <= 18 * u53 * K) by (apply Rmult_le_compat; try lra; apply Rabs_pos). lra. }
  assert (BP : Rabs (2 * sin h * rad) <= 2 * K). { rewrite Rabs_mult, (Rabs_pos_eq rad) by lra. apply Rmult_le_compat; try lra. apply Rabs_pos. }
  destruct (product L (dcos phi) _ _ FL Fc BP NL C1 Ec') as [P1 P2]. destruct (product L (dsin phi) _ _ FL Fs BP NL S1 Es') as [P3 P4].
  rewrite (sin_double (B2R a)), (cos_double (B2R a)). fold h. split.
  - split; [exact P1|]. replace (rad * (2 * sin h * cos h)) with (2 * sin h * rad * cos h) by ring. exact P2.
  - split; [exact P3|]. replace (rad * (2 * sin h * sin h)) with (2 * sin h * rad * sin h) by ring. exact P4.
Qed.

(** ** Adding a displacement *)

Definition rotated (A B h : R) (from : R * R * R) : R * R * R := let '(x, y, th) := from in (x + (A * cos th - B * sin th), y + (A * sin th + B * cos th), th + h).
Definition bent (st : steer) (a : R) : R * R * R :=
  match st with SStraight => (a * rad, 0, 0) | SLeft => (rad * sin a, rad * (1 - cos a), a) | SRight => (rad * sin a, - (rad * (1 - cos a)), - a) end.
Lemma advance_rotated st dir len from : let '(A, B, h) := bent st (signed dir len) in advance rad st dir len from = rotated A B h from.
Proof using. clear G HK Fr HR. destruct from as [[x y] th]. unfold advance, rotated, bent. destruct st; set (a := signed dir len).
  - rewrite sin_plus, cos_plus. apply f_equal2; [apply f_equal2|]; ring.
  - apply f_equal2; [apply f_equal2|]; ring.
  - rewrite sin_minus, cos_minus. apply f_equal2; [apply f_equal2|]; ring.
Qed.

Lemma translate (r x : double) P : is_finite r = true -> is_finite x = true -> Rabs (B2R r - P) <= 740 * (u53 * K) -> Rabs P <= 4 * K -> Rabs (B2R x) <= 2 * K ->
  is_finite (d_add r x) = true /\ Rabs (B2R (d_add r x) - (B2R x + P)) <= 750 * (u53 * K).
Proof using HK.
  clear G Fr HR radius dsin dcos. intros F1 F2 H HP Hx. destruct scale as (KP & UK & ET). destruct small_units as (_ & _ & _ & _ & U5).
  assert (B : Rabs (B2R r + B2R x) <= 6.1 * K). { replace (B2R r + B2R x) with ((B2R r - P) + P + B2R x) by ring. eapply Rle_trans; [apply Rabs_triang|]. eapply Rle_trans; [apply Rplus_le_compat_r, Rabs_triang|]. lra. }
  destruct (add_real r x 403 F1 F2 ltac:(lia)) as [F E]. { eapply Rle_trans; [exact B|]. change 403%Z with (3 + 400)%Z. rewrite bpow_plus. change (bpow radix2 3) with 8. lra. }
  split; [exact F|]. pose proof (plus53 r x) as R1. rewrite <- E in R1. assert (u53 * Rabs (B2R r + B2R x) <= u53 * (6.1 * K)) by (apply Rmult_le_compat_l; lra).
  replace (B2R (d_add r x) - (B2R x + P)) with ((B2R (d_add r x) - (B2R r + B2R x)) + (B2R r - P)) by ring. eapply Rle_trans; [apply Rabs_triang|]. lra.
Qed.

Variable fuel : nat.
Hypothesis Hf : (3 <= fuel)%nat.

Lemma wrapped (a : double) : is_finite a = true -> Rabs (B2R a) <= 8 ->
  exists t k, d_wrap fuel a = Ok t /\ is_finite t = true /\ - pi_ <= B2R t <= pi_ /\ (Z.abs k <= 1)%Z /\ B2R t = B2R a - IZR k * (2 * pi_).
Proof using Hf.
  clear G HK Fr HR K radius dsin dcos. intros Fa Ba. pose proof pi_bounds as Bp. destruct (wrap_ends fuel a (3 * pi_) Fa) as (t & k & R1 & R2 & R3 & _ & R5).
  { lra. } { lra. } { apply Rle_trans with 16; [lra|]. change 16 with (bpow radix2 4). apply bpow_le. lia. } { apply le_INR in Hf. cbn [INR] in Hf. lra. }
  destruct (R5 ltac:(lra)) as [K1 E]. exists t, k. auto.
Qed.

Lemma pose_sum p (x y t : double) A B : pose_within (2 * K) p -> is_finite x = true -> is_finite y = true -> is_finite t = true -> - pi_ <= B2R t <= pi_ ->
  Rabs (B2R x - A) <= 40 * (u53 * K) -> Rabs (B2R y - B) <= 40 * (u53 * K) -> Rabs A <= 2 * K -> Rabs B <= 2 * K ->
  exists p' k, d_pose_add dsin dcos fuel p (DPose x y t) = Ok p' /\ is_finite (d_x p') = true /\ is_finite (d_y p') = true /\ is_finite (d_theta p') = true /\ - pi_ <= B2R (d_theta p') <= pi_ /\
    let th := B2R (d_theta p) in
    Rabs (B2R (d_x p') - (B2R (d_x p) + (A * cos th - B * sin th))) <= 750 * (u53 * K) /\ Rabs (B2R (d_y p') - (B2R (d_y p) + (A * sin th + B * cos th))) <= 750 * (u53 * K) /\
    Rabs (B2R (d_theta p') - (th + B2R t - IZR k * (2 * PI))) <= bpow radix2 (-49).
Proof using G HK Hf.
  clear Fr HR radius. intros ((Fx & Bx) & (Fy & By) & (Ft & Bt)) Fa Fb Fh Bh EA EB BA BB. fold pi_ in Bt. pose proof pi_bounds as Bp. destruct scale as (KP & UK & ET). destruct small_units as (_ & _ & U3 & _ & U5).
  destruct (G (d_theta p) Ft) as [[Fs Es] [Fc Ec]]; [apply Rabs_between; lra|]. rewrite two_units in Es, Ec. set (th := B2R (d_theta p)) in *. set (sn := dsin (d_theta p)) in *. set (cs := dcos (d_theta p)) in *.
  assert (C1 : Rabs (cos th) <= 1) by (apply Rabs_between; pose proof (COS_bound th); lra). assert (S1 : Rabs (sin th) <= 1) by (apply Rabs_between; pose proof (SIN_bound th); lra).
  assert (Fos : is_finite (Bopp sn) = true) by (rewrite is_finite_Bopp; exact Fs). assert (S1' : Rabs (- sin th) <= 1) by (rewrite Rabs_Ropp; exact S1).
  assert (Eos : Rabs (B2R (Bopp sn) - - sin th) <= 2 * u53). { rewrite B2R_Bopp. replace (- B2R sn - - sin th) with (- (B2R sn - sin th)) by ring. rewrite Rabs_Ropp. exact Es. }
  assert (L : 0 <= 22 * K <= bpow radix2 900). { split; [lra|]. apply Rle_trans with (bpow radix2 405); [|apply bpow_le; lia]. change 405%Z with (5 + 400)%Z. rewrite bpow_plus. change (bpow radix2 5) with 32. lra. }
  assert (A2 : Rabs A <= 2 * (22 * K)) by lra. assert (B2 : Rabs B <= 2 * (22 * K)) by lra.
  assert (EA' : Rabs (B2R x - A) <= 2 * (u53 * (22 * K))) by lra. assert (EB' : Rabs (B2R y - B) <= 2 * (u53 * (22 * K))) by lra.
  destruct (rotated_term _ _ _ _ _ Fc Fa C1 Ec L A2 EA') as (T1 & T2 & T3). destruct (rotated_term _ _ _ _ _ Fos Fb S1' Eos L B2 EB') as (T4 & T5 & T6).
  destruct (rotated_term _ _ _ _ _ Fs Fa S1 Es L A2 EA') as (T7 & T8 & T9). destruct (rotated_term _ _ _ _ _ Fc Fb C1 Ec L B2 EB') as (T10 & T11 & T12).
  destruct (rotated_sum _ _ _ _ _ T1 T4 L T2 T3 T5 T6) as [Fu Eu]. destruct (rotated_sum _ _ _ _ _ T7 T10 L T8 T9 T11 T12) as [Fv Ev].
  assert (E48 : bpow radix2 (-48) * (22 * K) + bpow radix2 (-1070) <= 740 * (u53 * K)).
  { change (-48)%Z with (5 + -53)%Z. change (-1070)%Z with (5 + -1075)%Z. rewrite !bpow_plus. fold u53 eta53. change (bpow radix2 5) with 32. lra. }
  assert (BP : forall a b c d, Rabs a <= 1 -> Rabs b <= 2 * K -> Rabs c <= 1 -> Rabs d <= 2 * K -> Rabs (a * b + c * d) <= 4 * K).
  { intros a b c d H1 H2 H3 H4. eapply Rle_trans; [apply Rabs_triang|]. rewrite !Rabs_mult. assert (Rabs a * Rabs b <= 1 * (2 * K)) by (apply Rmult_le_compat; auto using Rabs_pos). assert (Rabs c * Rabs d <= 1 * (2 * K)) by (apply Rmult_le_compat; auto using Rabs_pos). lra. }
  destruct (translate _ (d_x p) _ Fu Fx (Rle_trans _ _ _ Eu E48) (BP _ _ _ _ C1 BA S1' BB) Bx) as [Fx' Ex']. destruct (translate _ (d_y p) _ Fv Fy (Rle_trans _ _ _ Ev E48) (BP _ _ _ _ S1 BA C1 BB) By) as [Fy' Ey'].
  destruct (wrap_sum_real (d_theta p) t fuel Ft Fh Bt Bh Hf) as (w & k & W1 & W2 & W3 & _ & W5). destruct fuel as [|fuel']; [lia|].
  exists (DPose (d_add (d_add (d_mul cs x) (d_mul (Bopp sn) y)) (d_x p)) (d_add (d_add (d_mul sn x) (d_mul cs y)) (d_y p)) w), k.
  split. { unfold d_pose_add, d_mk_pose. cbn [d_x d_y d_theta]. rewrite W1. cbn [bind d_theta d_x d_y]. rewrite AngleFloat_proofs.wrap_same by assumption. cbn [bind]. reflexivity. }
  cbn [d_x d_y d_theta]. split; [exact Fx'|]. split; [exact Fy'|]. split; [exact W2|]. split; [exact W3|]. cbv zeta. fold th. split; [|split].
  - replace (A * cos th - B * sin th) with (cos th * A + - sin th * B) by ring. exact Ex'.
  - replace (A * sin th + B * cos th) with (sin th * A + cos th * B) by ring. exact Ey'.
  - exact W5.
Qed.

(** ** A motion from a pose of doubles *)

Definition stepped (p p' : d_pose) (q : R * R * R) : Prop :=
  is_finite (d_x p') = true /\ is_finite (d_y p') = true /\ is_finite (d_theta p') = true /\ - pi_ <= B2R (d_theta p') <= pi_ /\ near (750 * (u53 * K)) (bpow radix2 (-48)) p' q.

Lemma sign_real dir (a : double) : is_finite a = true -> let b := match dir with Backward => Bopp a | _ => a end in is_finite b = true /\ B2R b = signed dir (B2R a).
Proof using. clear G HK Fr HR Hf. intros F. destruct dir; cbn; auto. rewrite is_finite_Bopp, B2R_Bopp. auto. Qed.
Lemma signed_abs dir a : Rabs (signed dir a) = Rabs a.
Proof using. clear G HK Fr HR Hf. destruct dir; cbn; auto using Rabs_Ropp. Qed.

Lemma bent_bounds st a : (st <> SStraight -> Rabs a <= 8) -> Rabs a * rad <= K -> let '(A, B, _) := bent st a in Rabs A <= 2 * K /\ Rabs B <= 2 * K /\ Rabs A + Rabs B <= 2 * (Rabs a * rad).
Proof using HK HR.
  clear G Fr Hf. intros _ H. assert (D : Rabs (rad * sin a) <= Rabs a * rad). { rewrite Rabs_mult, (Rabs_pos_eq rad), Rmult_comm by lra. apply Rmult_le_compat_r; [lra|apply sin_le_abs]. }
  assert (D2 : Rabs (rad * (1 - cos a)) <= Rabs a * rad). { rewrite Rabs_mult, (Rabs_pos_eq rad), Rmult_comm by lra. apply Rmult_le_compat_r; [lra|apply one_minus_cos]. }
  destruct scale as (KP & _). assert (0 <= Rabs a * rad) by (apply Rmult_le_pos; [apply Rabs_pos|lra]). unfold bent. destruct st; rewrite ?Rabs_Ropp; [lra| |lra].
  rewrite Rabs_R0, Rabs_mult, (Rabs_pos_eq rad) by lra. lra.
Qed.

Lemma turn_step p dir st (a : double) : st <> SStraight -> pose_within (2 * K) p -> is_finite a = true -> Rabs (B2R a) <= 8 -> Rabs (B2R a) * rad <= K ->
  exists p', d_rs_turn dsin dcos fuel radius p dir st a = Ok p' /\ stepped p p' (advance rad st dir (B2R a) (coordinates p)).
Proof using G HK Fr HR Hf.
  intros NS W Fa Ba Ka. destruct (sign_real dir a Fa) as [Fb Eb]. unfold d_rs_turn. set (b := match dir with Backward => Bopp a | _ => a end) in *.
  assert (Bb : Rabs (B2R b) <= 8) by (rewrite Eb, signed_abs; exact Ba). destruct (chord b Fb Bb) as [[Fx Ex] [Fy Ey]]. set (x := d_mul _ (dcos _)) in *. set (y := d_mul (d_mul (d_mul (d_of 2 0) (dsin (d_div b (d_of 2 0)))) radius) (dsin (d_div b (d_of 2 0)))) in *.
  pose proof (advance_rotated st dir (B2R a) (coordinates p)) as AR. pose proof (bent_bounds st (signed dir (B2R a)) (fun _ => ltac:(rewrite signed_abs; exact Ba)) ltac:(rewrite signed_abs; exact Ka)) as BB.
  pose proof pi_close as PC. assert (E48 : bpow radix2 (-48) = 2 * bpow radix2 (-49)) by (change (-48)%Z with (1 + -49)%Z; rewrite bpow_plus; reflexivity).
  assert (P52 : 8 * bpow radix2 (-52) <= bpow radix2 (-49)) by (change 8 with (bpow radix2 3); rewrite <- bpow_plus; apply bpow_le; lia).
  assert (HH : forall (h : double) s k, (Z.abs k <= 1)%Z -> B2R h = s - IZR k * (2 * pi_) -> Rabs (B2R h - (s - IZR k * (2 * PI))) <= bpow radix2 (-49)).
  { intros h s k Hk E. rewrite E. replace (s - IZR k * (2 * pi_) - (s - IZR k * (2 * PI))) with (IZR k * (2 * (PI - pi_))) by ring. rewrite Rabs_mult, (Rabs_pos_eq (2 * (PI - pi_))) by lra.
    assert (Rabs (IZR k) <= 1) by (rewrite <- abs_IZR; apply IZR_le; lia). assert (Rabs (IZR k) * (2 * (PI - pi_)) <= 1 * (2 * bpow radix2 (-52))) by (apply Rmult_le_compat; auto using Rabs_pos; lra). pose proof (bpow_ge_0 radix2 (-52)). lra. }
  destruct st; [|congruence|]; cbn [bent] in AR, BB; rewrite AR; rewrite <- Eb in *; unfold d_mk_pose.
  - destruct (wrapped b Fb Bb) as (t & k & T1 & T2 & T3 & T4 & T5). rewrite T1. cbn [bind].
    destruct (pose_sum p x y t _ _ W Fx Fy T2 T3 Ex Ey ltac:(lra) ltac:(lra)) as (p' & k' & Q1 & Q2 & Q3 & Q4 & Q5 & Q6 & Q7 & Q8). exists p'. split; [exact Q1|]. unfold stepped. do 4 (split; [assumption|]). cbn [coordinates rotated near]. split; [exact Q6|]. split; [exact Q7|].
    exists (k' + k)%Z. pose proof (HH t _ k T4 T5) as E. rewrite plus_IZR.
    replace (B2R (d_theta p') - (B2R (d_theta p) + B2R b - (IZR k' + IZR k) * (2 * PI))) with ((B2R (d_theta p') - (B2R (d_theta p) + B2R t - IZR k' * (2 * PI))) + (B2R t - (B2R b - IZR k * (2 * PI)))) by ring.
    eapply Rle_trans; [apply Rabs_triang|]. lra.
  - destruct (times_minus_one y Fy) as [Fy' Ey']. destruct (times_minus_one b Fb) as [Fb' Eb'].
    destruct (wrapped (d_mul b (d_of (-1) 0)) Fb' ltac:(rewrite Eb', Rabs_Ropp; exact Bb)) as (t & k & T1 & T2 & T3 & T4 & T5). rewrite T1. cbn [bind]. rewrite Eb' in T5.
    assert (Ey2 : Rabs (B2R (d_mul y (d_of (-1) 0)) - - (rad * (1 - cos (B2R b)))) <= 40 * (u53 * K)). { rewrite Ey'. replace (- B2R y - - (rad * (1 - cos (B2R b)))) with (- (B2R y - rad * (1 - cos (B2R b)))) by ring. rewrite Rabs_Ropp. exact Ey. }
    destruct (pose_sum p x (d_mul y (d_of (-1) 0)) t _ _ W Fx Fy' T2 T3 Ex Ey2 ltac:(lra) ltac:(lra)) as (p' & k' & Q1 & Q2 & Q3 & Q4 & Q5 & Q6 & Q7 & Q8). exists p'. split; [exact Q1|]. unfold stepped. do 4 (split; [assumption|]). cbn [coordinates rotated near]. split; [exact Q6|]. split; [exact Q7|].
    exists (k' + k)%Z. pose proof (HH t _ k T4 T5) as E. rewrite plus_IZR.
    replace (B2R (d_theta p') - (B2R (d_theta p) + - B2R b - (IZR k' + IZR k) * (2 * PI))) with ((B2R (d_theta p') - (B2R (d_theta p) + B2R t - IZR k' * (2 * PI))) + (B2R t - (- B2R b - IZR k * (2 * PI)))) by ring.
    eapply Rle_trans; [apply Rabs_triang|]. lra.
Qed.

Lemma translate' (r x : double) P : is_finite r = true -> is_finite x = true -> Rabs (B2R r - P) <= 740 * (u53 * K) -> Rabs P <= 4 * K -> Rabs (B2R x) <= 2 * K ->
  is_finite (d_add x r) = true /\ Rabs (B2R (d_add x r) - (B2R x + P)) <= 750 * (u53 * K).
Proof using HK.
  clear G Fr HR radius dsin dcos Hf fuel. intros F1 F2 H HP Hx. destruct scale as (KP & UK & ET). destruct small_units as (_ & _ & _ & _ & U5).
  assert (B : Rabs (B2R x + B2R r) <= 6.1 * K). { replace (B2R x + B2R r) with ((B2R r - P) + P + B2R x) by ring. eapply Rle_trans; [apply Rabs_triang|]. eapply Rle_trans; [apply Rplus_le_compat_r, Rabs_triang|]. lra. }
  destruct (add_real x r 403 F2 F1 ltac:(lia)) as [F E]. { eapply Rle_trans; [exact B|]. change 403%Z with (3 + 400)%Z. rewrite bpow_plus. change (bpow radix2 3) with 8. lra. }
  split; [exact F|]. pose proof (plus53 x r) as R1. rewrite <- E in R1. assert (u53 * Rabs (B2R x + B2R r) <= u53 * (6.1 * K)) by (apply Rmult_le_compat_l; lra).
  replace (B2R (d_add x r) - (B2R x + P)) with ((B2R (d_add x r) - (B2R x + B2R r)) + (B2R r - P)) by ring. eapply Rle_trans; [apply Rabs_triang|]. lra.
Qed.

Lemma line_step p dir (a : double) : pose_within (2 * K) p -> is_finite a = true -> Rabs (B2R a) * rad <= K ->
  exists p', d_rs_straight dsin dcos fuel radius p dir a = Ok p' /\ stepped p p' (advance rad SStraight dir (B2R a) (coordinates p)).
Proof using G HK Fr HR Hf.
  intros ((Fx & Bx) & (Fy & By) & (Ft & Bt)) Fa Ka. fold pi_ in Bt. pose proof pi_bounds as Bp. destruct scale as (KP & UK & ET). destruct small_units as (_ & _ & U3 & _ & U5). destruct (sign_real dir a Fa) as [Fb Eb]. unfold d_rs_straight. set (b := match dir with Backward => Bopp a | _ => a end) in *.
  assert (Kb : Rabs (B2R b * rad) <= K) by (rewrite Eb, Rabs_mult, signed_abs, (Rabs_pos_eq rad) by lra; exact Ka).
  destruct (dmul_real b radius 400 Fb Fr ltac:(lia)) as [Fl El]; [lra|]. pose proof (StraightFloat_proofs.err53 (B2R b * rad)) as R1. rewrite <- El in R1. set (ll := d_mul b radius) in *.
  assert (u53 * Rabs (B2R b * rad) <= u53 * K) by (apply Rmult_le_compat_l; lra).
  destruct (G (d_theta p) Ft) as [[Fs Es] [Fc Ec]]; [apply Rabs_between; lra|]. rewrite two_units in Es, Ec. set (th := B2R (d_theta p)) in *.
  assert (C1 : Rabs (cos th) <= 1) by (apply Rabs_between; pose proof (COS_bound th); lra). assert (S1 : Rabs (sin th) <= 1) by (apply Rabs_between; pose proof (SIN_bound th); lra).
  destruct (product ll (dcos (d_theta p)) (B2R b * rad) (cos th) Fl Fc ltac:(lra) ltac:(lra) C1 ltac:(lra)) as [F1 N1]. destruct (product ll (dsin (d_theta p)) (B2R b * rad) (sin th) Fl Fs ltac:(lra) ltac:(lra) S1 ltac:(lra)) as [F2 N2].
  assert (BP : forall c, Rabs c <= 1 -> Rabs (B2R b * rad * c) <= 4 * K). { intros c Hc. rewrite Rabs_mult. assert (Rabs (B2R b * rad) * Rabs c <= K * 1) by (apply Rmult_le_compat; auto using Rabs_pos). lra. }
  assert (LE : 40 * (u53 * K) <= 740 * (u53 * K)) by lra.
  destruct (translate' _ (d_x p) _ F1 Fx (Rle_trans _ _ _ N1 LE) (BP _ C1) Bx) as [Q1 Q2]. destruct (translate' _ (d_y p) _ F2 Fy (Rle_trans _ _ _ N2 LE) (BP _ S1) By) as [Q3 Q4].
  destruct fuel as [|f]; [lia|]. unfold d_mk_pose. rewrite AngleFloat_proofs.wrap_same by assumption. cbn [bind]. eexists. split; [reflexivity|]. unfold stepped. cbn [d_x d_y d_theta coordinates advance near].
  do 4 (split; [assumption|]). rewrite <- Eb. fold th. split; [exact Q2|]. split; [exact Q4|]. exists 0%Z. replace (th - (th - 0 * (2 * PI))) with 0 by ring. rewrite Rabs_R0. apply bpow_ge_0.
Qed.

Lemma move_step p m (a : double) : pose_within (2 * K) p -> is_finite a = true -> (dm_steer m <> SStraight -> Rabs (B2R a) <= 8) -> Rabs (B2R a) * rad <= K ->
  exists p', d_rs_move dsin dcos fuel radius (Ok p) m a = Ok p' /\ stepped p p' (advance rad (dm_steer m) (dm_dir m) (B2R a) (coordinates p)).
Proof using G HK Fr HR Hf.
  intros W Fa B8 Ka. unfold d_rs_move. cbn [bind]. destruct (dm_steer m) eqn:E.
  - apply turn_step; auto; [discriminate|apply B8; discriminate].
  - apply line_step; auto.
  - apply turn_step; auto; [discriminate|apply B8; discriminate].
Qed.

(** ** From a pose nearby *)

Lemma heading_close t th k : Rabs (cos t - cos th) <= Rabs (t - (th - IZR k * (2 * PI))) /\ Rabs (sin t - sin th) <= Rabs (t - (th - IZR k * (2 * PI))).
Proof using.
  clear G HK Fr HR Hf K radius dsin dcos fuel. replace (th - IZR k * (2 * PI)) with (th + 2 * PI * IZR (- k)) by (rewrite opp_IZR; ring). split.
  - rewrite <- (cos_period_Z th (- k)). apply cos_close.
  - rewrite <- (sin_period_Z th (- k)). apply sin_close.
Qed.

Lemma from_near st dir a p q p' e eh e1 h1 : near e eh p q -> near e1 h1 p' (advance rad st dir a (coordinates p)) ->
  near (e + 2 * (Rabs a * rad) * eh + e1) (eh + h1) p' (advance rad st dir a q).
Proof using HK HR.
  clear G Fr Hf dsin dcos fuel. intros N1 N2. pose proof (advance_rotated st dir a (coordinates p)) as A1. pose proof (advance_rotated st dir a q) as A2.
  assert (BB : let '(A, B, _) := bent st (signed dir a) in Rabs A + Rabs B <= 2 * (Rabs a * rad)).
  { assert (D : Rabs (rad * sin (signed dir a)) <= Rabs a * rad). { rewrite Rabs_mult, (Rabs_pos_eq rad), Rmult_comm, <- (signed_abs dir a) by lra. apply Rmult_le_compat_r; [lra|apply sin_le_abs]. }
    assert (D2 : Rabs (rad * (1 - cos (signed dir a))) <= Rabs a * rad). { rewrite Rabs_mult, (Rabs_pos_eq rad), Rmult_comm, <- (signed_abs dir a) by lra. apply Rmult_le_compat_r; [lra|apply one_minus_cos]. }
    assert (0 <= Rabs a * rad) by (apply Rmult_le_pos; [apply Rabs_pos|lra]). unfold bent. destruct st; rewrite ?Rabs_Ropp; [lra| |lra]. rewrite Rabs_R0, Rabs_mult, signed_abs, (Rabs_pos_eq rad) by lra. lra. }
  destruct (bent st (signed dir a)) as [[A B] h]. rewrite A1 in N2. rewrite A2. clear A1 A2. destruct q as [[x y] th]. destruct N1 as (X1 & Y1 & k1 & H1). cbn [coordinates rotated near] in *. destruct N2 as (X2 & Y2 & k2 & H2).
  set (t := B2R (d_theta p)) in *. destruct (heading_close t th k1) as [Cc Cs].
  assert (EH : 0 <= eh) by (eapply Rle_trans; [apply Rabs_pos|exact H1]). set (c := cos t - cos th) in *. set (s := sin t - sin th) in *. assert (Hc : Rabs c <= eh) by lra. assert (Hs : Rabs s <= eh) by lra.
  assert (AB : forall u v, Rabs u <= eh -> Rabs v <= eh -> Rabs (A * u + B * v) <= 2 * (Rabs a * rad) * eh).
  { intros u v Hu Hv. eapply Rle_trans; [apply Rabs_triang|]. rewrite !Rabs_mult. assert (Rabs A * Rabs u <= Rabs A * eh) by (apply Rmult_le_compat_l; auto using Rabs_pos). assert (Rabs B * Rabs v <= Rabs B * eh) by (apply Rmult_le_compat_l; auto using Rabs_pos).
    assert ((Rabs A + Rabs B) * eh <= 2 * (Rabs a * rad) * eh) by (apply Rmult_le_compat_r; lra). lra. }
  split; [|split].
  - replace (B2R (d_x p') - (x + (A * cos th - B * sin th))) with ((B2R (d_x p') - (B2R (d_x p) + (A * cos t - B * sin t))) + ((B2R (d_x p) - x) + (A * c + B * - s))) by (unfold c, s; ring).
    eapply Rle_trans; [apply Rabs_triang|]. eapply Rle_trans; [apply Rplus_le_compat_l, Rabs_triang|]. pose proof (AB c (- s) Hc ltac:(rewrite Rabs_Ropp; exact Hs)). lra.
  - replace (B2R (d_y p') - (y + (A * sin th + B * cos th))) with ((B2R (d_y p') - (B2R (d_y p) + (A * sin t + B * cos t))) + ((B2R (d_y p) - y) + (A * s + B * c))) by (unfold c, s; ring).
    eapply Rle_trans; [apply Rabs_triang|]. eapply Rle_trans; [apply Rplus_le_compat_l, Rabs_triang|]. pose proof (AB s c Hs Hc). lra.
  - exists (k1 + k2)%Z. rewrite plus_IZR. replace (B2R (d_theta p') - (th + h - (IZR k1 + IZR k2) * (2 * PI))) with ((t - (th - IZR k1 * (2 * PI))) + (B2R (d_theta p') - (t + h - IZR k2 * (2 * PI)))) by ring.
    eapply Rle_trans; [apply Rabs_triang|]. lra.
Qed.

Lemma advance_short st dir a q : let '(x, y, th) := q in let '(x', y', th') := advance rad st dir a q in
  Rabs (x' - x) <= 2 * (Rabs a * rad) /\ Rabs (y' - y) <= 2 * (Rabs a * rad) /\ Rabs (th' - th) <= Rabs a.
Proof using HR.
  clear G Fr Hf dsin dcos fuel. destruct q as [[x y] th]. unfold advance. pose proof (signed_abs dir a) as S. set (b := signed dir a) in *. rewrite <- S. assert (P : 0 <= Rabs b * rad) by (apply Rmult_le_pos; [apply Rabs_pos|lra]).
  assert (D : forall u v, Rabs (u - v) <= Rabs b -> Rabs (rad * (u - v)) <= 2 * (Rabs b * rad)). { intros u v H. rewrite Rabs_mult, (Rabs_pos_eq rad) by lra. assert (rad * Rabs (u - v) <= rad * Rabs b) by (apply Rmult_le_compat_l; lra). lra. }
  assert (D3 : forall c, Rabs c <= 1 -> Rabs (b * rad * c) <= 2 * (Rabs b * rad)). { intros c H. rewrite !Rabs_mult, (Rabs_pos_eq rad) by lra. assert (Rabs b * rad * Rabs c <= Rabs b * rad * 1) by (apply Rmult_le_compat_l; lra). lra. }
  destruct st.
  - split; [|split].
    + replace (x + _ - x) with (rad * (sin (th + b) - sin th)) by ring. apply D. pose proof (sin_close (th + b) th) as H. replace (th + b - th) with b in H by ring. exact H.
    + replace (y + _ - y) with (rad * (cos th - cos (th + b))) by ring. apply D. rewrite Rabs_minus_sym. pose proof (cos_close (th + b) th) as H. replace (th + b - th) with b in H by ring. exact H.
    + replace (th + b - th) with b by ring. lra.
  - split; [|split].
    + replace (x + _ - x) with (b * rad * cos th) by ring. apply D3. apply Rabs_between. pose proof (COS_bound th). lra.
    + replace (y + _ - y) with (b * rad * sin th) by ring. apply D3. apply Rabs_between. pose proof (SIN_bound th). lra.
    + replace (th - th) with 0 by ring. rewrite Rabs_R0. apply Rabs_pos.
  - split; [|split].
    + replace (x - _ - x) with (rad * (sin th - sin (th - b))) by ring. apply D. rewrite Rabs_minus_sym. pose proof (sin_close (th - b) th) as H. replace (th - b - th) with (- b) in H by ring. rewrite Rabs_Ropp in H. exact H.
    + replace (y - _ - y) with (rad * (cos (th - b) - cos th)) by ring. apply D. pose proof (cos_close (th - b) th) as H. replace (th - b - th) with (- b) in H by ring. rewrite Rabs_Ropp in H. exact H.
    + replace (th - b - th) with (- b) by ring. rewrite Rabs_Ropp. lra.
Qed.

(** ** Several motions *)

Variables x0 y0 : R.
Definition along (j : nat) (D : R) (p : d_pose) (q : R * R * R) : Prop :=
  (is_finite (d_x p) = true /\ is_finite (d_y p) = true /\ is_finite (d_theta p) = true /\ - pi_ <= B2R (d_theta p) <= pi_) /\
  near (INR j * (750 * (u53 * K)) + 2 * D * (5 * bpow radix2 (-48))) (INR j * bpow radix2 (-48)) p q /\
  (let '(x, y, _) := q in Rabs x <= Rabs x0 + 2 * D /\ Rabs y <= Rabs y0 + 2 * D).

Lemma u48 : bpow radix2 (-48) = 32 * u53.
Proof using. clear G HK Fr HR Hf. unfold u53. change 32 with (bpow radix2 5). rewrite <- bpow_plus. reflexivity. Qed.

Lemma along_within j D p q : (j <= 5)%nat -> 0 <= D -> along j D p q -> Rabs x0 + 2 * D <= K -> Rabs y0 + 2 * D <= K -> pose_within (2 * K) p.
Proof using HK.
  clear G Fr HR radius dsin dcos Hf fuel. intros Hj PD ((F1 & F2 & F3 & B) & N & S) HX HY. destruct q as [[x y] th]. destruct N as (N1 & N2 & _). destruct S as [S1 S2]. destruct scale as (KP & UK & _). destruct small_units as (_ & _ & U3 & _ & U5).
  assert (J : INR j <= 5) by (replace 5 with (INR 5) by (cbn; lra); apply le_INR; exact Hj). pose proof (pos_INR j) as J0. pose proof (Rabs_pos x0). pose proof (Rabs_pos y0). rewrite u48 in *.
  assert (E1 : INR j * (750 * (u53 * K)) <= 5 * (750 * (u53 * K))) by (apply Rmult_le_compat_r; lra). assert (E2 : 2 * D * (5 * (32 * u53)) <= K * (5 * (32 * u53))) by (apply Rmult_le_compat_r; lra).
  assert (E : INR j * (750 * (u53 * K)) + 2 * D * (5 * (32 * u53)) <= K) by lra.
  split; [split; [exact F1|]|split; [split; [exact F2|]|split; [exact F3|exact B]]].
  - replace (B2R (d_x p)) with ((B2R (d_x p) - x) + x) by ring. eapply Rle_trans; [apply Rabs_triang|]. lra.
  - replace (B2R (d_y p)) with ((B2R (d_y p) - y) + y) by ring. eapply Rle_trans; [apply Rabs_triang|]. lra.
Qed.

Lemma near_weaken e e' eh eh' p q : near e eh p q -> e <= e' -> eh <= eh' -> near e' eh' p q.
Proof using. clear G HK Fr HR Hf K radius dsin dcos fuel x0 y0. destruct q as [[x y] th]. intros (N1 & N2 & k & N3) H1 H2. split; [lra|split; [lra|exists k; lra]]. Qed.

Lemma farther st dir a q D : 0 <= a -> (let '(x, y, _) := q in Rabs x <= Rabs x0 + 2 * D /\ Rabs y <= Rabs y0 + 2 * D) ->
  let '(x, y, _) := advance rad st dir a q in Rabs x <= Rabs x0 + 2 * (D + a * rad) /\ Rabs y <= Rabs y0 + 2 * (D + a * rad).
Proof using HR.
  clear G Fr Hf dsin dcos fuel. intros Pa H. pose proof (advance_short st dir a q) as S. destruct q as [[x y] th]. destruct (advance rad st dir a (x, y, th)) as [[x' y'] th']. rewrite (Rabs_pos_eq a Pa) in S. destruct S as (S1 & S2 & _). destruct H as [H1 H2]. split.
  - replace x' with ((x' - x) + x) by ring. eapply Rle_trans; [apply Rabs_triang|]. lra.
  - replace y' with ((y' - y) + y) by ring. eapply Rle_trans; [apply Rabs_triang|]. lra.
Qed.

Lemma along_step j D p q m (a : double) : (j < 5)%nat -> 0 <= D -> along j D p q -> is_finite a = true -> 0 <= B2R a -> (dm_steer m <> SStraight -> B2R a <= 8) ->
  Rabs x0 + 2 * (D + B2R a * rad) <= K -> Rabs y0 + 2 * (D + B2R a * rad) <= K ->
  exists p', d_rs_move dsin dcos fuel radius (Ok p) m a = Ok p' /\ along (S j) (D + B2R a * rad) p' (advance rad (dm_steer m) (dm_dir m) (B2R a) q).
Proof using G HK Fr HR Hf.
  intros Hj PD I Fa Pa B8 HX HY. assert (P : 0 <= B2R a * rad) by (apply Rmult_le_pos; lra). pose proof (Rabs_pos x0). destruct scale as (KP & UK & _). assert (Uk : 0 <= u53) by (unfold u53; apply bpow_ge_0).
  destruct (move_step p m a) as (p' & M & F1 & F2 & F3 & B & N2). { apply (along_within j D p q); auto; [lia|lra|lra]. } { exact Fa. } { intros NS. rewrite Rabs_pos_eq by lra. auto. } { rewrite Rabs_pos_eq by lra. lra. }
  exists p'. split; [exact M|]. destruct I as (_ & N1 & S). split; [auto|]. split; [|apply farther; auto].
  pose proof (from_near _ _ _ _ _ _ _ _ _ _ N1 N2) as N. rewrite (Rabs_pos_eq (B2R a)) in N by lra. rewrite S_INR. eapply near_weaken; [exact N| |lra].
  assert (J : INR j <= 5) by (replace 5 with (INR 5) by (cbn; lra); apply le_INR; lia). 
  assert (2 * (B2R a * rad) * (INR j * bpow radix2 (-48)) <= 2 * (B2R a * rad) * (5 * bpow radix2 (-48))). { apply Rmult_le_compat_l; [lra|]. apply Rmult_le_compat_r; [apply bpow_ge_0|lra]. } lra.
Qed.

(** A motion so short that it is left out. *)
Lemma along_skip j D p q m : bpow radix2 (-900) <= rad -> 0 <= D -> 0 <= B2R (dm_len m) -> B2R (dm_len m) * rad <= 4 * eta53 -> along j D p q ->
  along (S j) (D + B2R (dm_len m) * rad) p (advance rad (dm_steer m) (dm_dir m) (B2R (dm_len m)) q).
Proof using HK HR.
  clear G Fr Hf dsin dcos fuel. intros HR9 PD Pa T (F & N & S). set (a := B2R (dm_len m)) in *. assert (P : 0 <= a * rad) by (apply Rmult_le_pos; lra). destruct scale as (KP & UK & ET). assert (Uk : 0 <= u53) by (unfold u53; apply bpow_ge_0).
  split; [exact F|]. split; [|apply farther; auto].
  assert (A48 : a <= bpow radix2 (-48)).
  { apply Rmult_le_reg_r with rad; [lra|]. apply Rle_trans with (1 := T). apply Rle_trans with (bpow radix2 (-48) * bpow radix2 (-900)); [|apply Rmult_le_compat_l; [apply bpow_ge_0|exact HR9]].
    unfold eta53. change 4 with (bpow radix2 2). rewrite <- !bpow_plus. apply bpow_le. lia. }
  pose proof (advance_short (dm_steer m) (dm_dir m) a q) as A. destruct q as [[x y] th]. destruct (advance rad (dm_steer m) (dm_dir m) a (x, y, th)) as [[x' y'] th']. rewrite (Rabs_pos_eq a Pa) in A. destruct A as (A1 & A2 & A3). destruct N as (N1 & N2 & k & N3).
  assert (0 <= 2 * (a * rad) * (5 * bpow radix2 (-48))). { apply Rmult_le_pos; [lra|]. pose proof (bpow_ge_0 radix2 (-48)). lra. } rewrite S_INR. split; [|split].
  - replace (B2R (d_x p) - x') with ((B2R (d_x p) - x) - (x' - x)) by ring. eapply Rle_trans; [apply Rabs_triang|]. rewrite Rabs_Ropp. lra.
  - replace (B2R (d_y p) - y') with ((B2R (d_y p) - y) - (y' - y)) by ring. eapply Rle_trans; [apply Rabs_triang|]. rewrite Rabs_Ropp. lra.
  - exists k. replace (B2R (d_theta p) - (th' - IZR k * (2 * PI))) with ((B2R (d_theta p) - (th - IZR k * (2 * PI))) - (th' - th)) by ring. eapply Rle_trans; [apply Rabs_triang|]. rewrite Rabs_Ropp. lra.
Qed.

Hypothesis HR9 : bpow radix2 (-900) <= rad.
Hypothesis R400 : rad <= bpow radix2 400.

Lemma no_length (m : d_motion) : fine m -> Beqb (d_mul (dm_len m) radius) d_zero = true -> B2R (dm_len m) * rad <= 4 * eta53.
Proof using Fr HR R400.
  clear G Hf dsin dcos fuel HR9. intros (F & B) E.
  assert (P : 0 <= B2R (dm_len m) * rad <= bpow radix2 800). { split; [apply Rmult_le_pos; lra|]. change 800%Z with (400 + 400)%Z. rewrite bpow_plus. apply Rmult_le_compat; lra. }
  destruct (dmul_real (dm_len m) radius 800 F Fr ltac:(lia)) as [F1 E1]. { rewrite Rabs_pos_eq by lra. lra. }
  rewrite Beqb_correct in E by (auto; reflexivity). destruct (Req_bool_spec (B2R (d_mul (dm_len m) radius)) (B2R d_zero)) as [Y|Y]; [|discriminate]. change (B2R d_zero) with 0 in Y.
  pose proof (StraightFloat_proofs.err53 (B2R (dm_len m) * rad)) as R1. rewrite <- E1, Y, Rminus_0_l, Rabs_Ropp, (Rabs_pos_eq (B2R (dm_len m) * rad)) in R1 by lra. destruct small_units as (_ & _ & U3 & _ & U5).
  assert (u53 * (B2R (dm_len m) * rad) <= / 1000 * (B2R (dm_len m) * rad)) by (apply Rmult_le_compat_r; lra). lra.
Qed.

Lemma driven_pos l : (forall m, In m l -> fine m) -> 0 <= driven radius l.
Proof using HR. clear G Fr Hf dsin dcos fuel HR9 R400. induction l as [|m r IH]; cbn [driven]; intros H; [lra|]. specialize (IH (fun q I => H q (or_intror I))). destruct (H m (or_introl eq_refl)) as [_ B]. assert (0 <= B2R (dm_len m) * rad) by (apply Rmult_le_pos; lra). lra. Qed.

Lemma drive_along l : forall j D p q, (j + length l <= 5)%nat -> 0 <= D -> along j D p q -> (forall m, In m l -> fine m) -> (forall m, In m l -> dm_steer m <> SStraight -> B2R (dm_len m) <= 8) ->
  Rabs x0 + 2 * (D + driven radius l) <= K -> Rabs y0 + 2 * (D + driven radius l) <= K ->
  exists p', drive _ (d_rs_move dsin dcos fuel radius) radius l (Ok p) = Ok p' /\ along (j + length l) (D + driven radius l) p' (advance_all rad l q).
Proof using G HK Fr HR Hf HR9 R400.
  induction l as [|m r IH]; intros j D p q Hj PD I FN B8 HX HY.
  - exists p. split; [reflexivity|]. cbn [length driven advance_all fold_left]. rewrite Nat.add_0_r, Rplus_0_r. exact I.
  - cbn [length driven] in *. pose proof (driven_pos r (fun q I => FN q (or_intror I))) as PR. pose proof (FN m (or_introl eq_refl)) as Fm. destruct Fm as [Fl Bl]. assert (Pm : 0 <= B2R (dm_len m) * rad) by (apply Rmult_le_pos; lra).
    replace (j + S (length r))%nat with (S j + length r)%nat by lia. replace (D + (B2R (dm_len m) * rad + driven radius r)) with ((D + B2R (dm_len m) * rad) + driven radius r) in * by ring.
    unfold drive, advance_all. cbn [fold_left]. destruct (Beqb (d_mul (dm_len m) radius) d_zero) eqn:E.
    + apply (IH (S j)); auto; [lia|lra| |intros q' I'; apply FN; right; exact I'|intros q' I'; apply B8; right; exact I']. apply along_skip; auto; [lra|]. apply no_length; [split; assumption|exact E].
    + destruct (along_step j D p q m (dm_len m)) as (p' & M & I'); auto; [lia|lra|intros NS; apply B8; [left; reflexivity|exact NS]|lra|lra|]. rewrite M.
      apply (IH (S j)); auto; [lia|lra|intros q' I2; apply FN; right; exact I2|intros q' I2; apply B8; right; exact I2].
Qed.
End Turn.

(** ** The whole path *)

Section Whole.
Variables dsin dcos : double -> double.
Hypothesis G : good_rotations dsin dcos.
Variable fuel : nat.
Hypothesis Hf : (3 <= fuel)%nat.
Variables (K : R) (radius : double) (l : list d_motion) (init : d_pose).
Hypothesis U : usable radius l.
Hypothesis S : RsPoseFloat_spec.sized K radius l init.
Hypothesis I0 : pose_within K init.
Notation rad := (B2R radius).
Notation X := (driven radius l).
Notation x0 := (B2R (d_x init)).
Notation y0 := (B2R (d_y init)).
Notation inv := (along K x0 y0).

Lemma began : inv 0 0 init (coordinates init).
Proof using I0.
  clear G Hf U S. destruct I0 as ((Fx & _) & (Fy & _) & (Ft & Bt)). split; [auto|]. split; [|cbn; lra]. cbn [near coordinates INR]. rewrite !Rmult_0_l, Rmult_0_r, Rmult_0_l, Rplus_0_l, !Rminus_eq_0, Rabs_R0.
  split; [lra|]. split; [lra|]. exists 0%Z. replace (B2R (d_theta init) - (B2R (d_theta init) - 0 * (2 * PI))) with 0 by ring. rewrite Rabs_R0. lra.
Qed.

Lemma sizes : (bpow radix2 (-900) <= K <= bpow radix2 400) /\ 0 < rad <= K /\ bpow radix2 (-900) <= rad /\ rad <= bpow radix2 400 /\ Rabs x0 + 2 * X <= K /\ Rabs y0 + 2 * X <= K.
Proof using S.
  clear G Hf U I0 dsin dcos fuel. destruct S as (A & B & C & D & _). pose proof (bpow_gt_0 radix2 (-900)). repeat split; lra.
Qed.

Lemma accurate j D p q : (j <= 5)%nat -> 0 <= D <= X -> inv j D p q -> near (bpow radix2 (-41) * K) (bpow radix2 (-45)) p q.
Proof using S.
  clear G Hf U I0 dsin dcos fuel. intros Hj HD (_ & N & _). destruct sizes as (HK & HR & _ & _ & HX & _). destruct (scale K HK) as (KP & UK & _). pose proof (Rabs_pos x0).
  assert (J : INR j <= 5) by (replace 5 with (INR 5) by (cbn; lra); apply le_INR; exact Hj). pose proof (pos_INR j) as J0. pose proof (bpow_ge_0 radix2 (-48)) as P48. eapply near_weaken; [exact N| |].
  - rewrite u48. assert (0 <= u53) by (unfold u53; apply bpow_ge_0). replace (bpow radix2 (-41)) with (4096 * u53) by (unfold u53; change 4096 with (bpow radix2 12); rewrite <- bpow_plus; reflexivity).
    assert (INR j * (750 * (u53 * K)) <= 5 * (750 * (u53 * K))) by (apply Rmult_le_compat_r; lra). assert (2 * D * (5 * (32 * u53)) <= K * (5 * (32 * u53))) by (apply Rmult_le_compat_r; lra). lra.
  - replace (bpow radix2 (-45)) with (8 * bpow radix2 (-48)) by (change 8 with (bpow radix2 3); rewrite <- bpow_plus; reflexivity). assert (INR j * bpow radix2 (-48) <= 5 * bpow radix2 (-48)) by (apply Rmult_le_compat_r; lra). lra.
Qed.

Lemma blur_small : blur X <= bpow radix2 (-41) * K.
Proof using S U.
  clear G Hf I0 dsin dcos fuel. destruct sizes as (HK & HR & _ & _ & HX & _). destruct (scale K HK) as (KP & UK & ET). pose proof (Rabs_pos x0). rewrite blur_units.
  replace (bpow radix2 (-41)) with (4096 * u53) by (unfold u53; change 4096 with (bpow radix2 12); rewrite <- bpow_plus; reflexivity). assert (0 <= u53) by (unfold u53; apply bpow_ge_0).
  destruct (prefix_driven radius l U l [] (eq_sym (app_nil_r l))) as [P _]. assert (u53 * X <= u53 * K) by (apply Rmult_le_compat_l; lra). lra.
Qed.

Lemma none_driven k : forall j D p q, 0 <= D -> inv j D p q -> (forall m, In m k -> fine m /\ B2R (dm_len m) * rad <= 4 * eta53) -> inv (j + length k) (D + driven radius k) p (advance_all rad k q).
Proof using S.
  clear G Hf U I0 dsin dcos fuel. destruct sizes as (HK & HR & HR9 & _). induction k as [|m r IH]; intros j D p q PD I H; cbn [length driven advance_all fold_left].
  - rewrite Nat.add_0_r, Rplus_0_r. exact I.
  - destruct (H m (or_introl eq_refl)) as [[_ B] T]. assert (0 <= B2R (dm_len m) * rad) by (apply Rmult_le_pos; lra). replace (j + Datatypes.S (length r))%nat with (Datatypes.S j + length r)%nat by lia. rewrite <- Rplus_assoc.
    apply IH; [lra| |intros q' I'; apply H; right; exact I']. apply along_skip; auto. lra.
Qed.

Lemma posed r : is_ratio r -> let L := B2R (d_rs_length radius l) in
  exists p', d_rs_pose dsin dcos fuel radius l init r = Ok p' /\ - pi_ <= B2R (d_theta p') <= pi_ /\
  ((exists before m after t, l = before ++ m :: after /\ 0 <= t <= B2R (dm_len m) /\ Rabs (driven radius before + t * rad - B2R r * L) <= bpow radix2 (-40) * K /\
      near (bpow radix2 (-41) * K) (bpow radix2 (-45)) p' (advance rad (dm_steer m) (dm_dir m) t (advance_all rad before (coordinates init)))) \/
   (Rabs (X - B2R r * L) <= bpow radix2 (-40) * K /\ near (bpow radix2 (-41) * K) (bpow radix2 (-45)) p' (advance_all rad l (coordinates init)))).
Proof using G Hf U S I0.
  intros Hr L. destruct sizes as (HK & HR & HR9 & R4 & HX & HY). destruct (scale K HK) as (KP & UK & ET). pose proof blur_small as BS. assert (E40 : bpow radix2 (-40) = 2 * bpow radix2 (-41)) by (change (-40)%Z with (1 + -41)%Z; rewrite bpow_plus; reflexivity).
  assert (P41 : 0 <= bpow radix2 (-41) * K) by (apply Rmult_le_pos; [apply bpow_ge_0|lra]).
  assert (N5 : (length l <= 5)%nat) by apply U. assert (Fr : is_finite radius = true) by apply U. assert (B8 : forall m, In m l -> dm_steer m <> SStraight -> B2R (dm_len m) <= 8) by apply S. unfold d_rs_pose.
  destruct (prefix_driven radius l U l [] (eq_sym (app_nil_r l))) as [PX _].
  destruct (Req_dec L 0) as [Z|NZ].
  - unfold d_rs_at. destruct (length_near radius l U) as (FL & _ & N). fold L in N. rewrite Beqb_correct by (auto; reflexivity). fold L. rewrite Req_bool_true by (rewrite Z; reflexivity).
    exists init. split; [reflexivity|]. split; [apply I0|]. right. rewrite Z, Rmult_0_r in *. rewrite Rminus_0_r, (Rabs_pos_eq X) by lra. rewrite Rminus_0_l, Rabs_Ropp, (Rabs_pos_eq X) in N by lra. destruct small_units as (_ & _ & U3 & _ & U5).
    assert (u53 * X <= / 1000 * X) by (apply Rmult_le_compat_r; lra). assert (TX : X <= 2 * eta53) by lra. split.
    + apply Rle_trans with (u53 * K); [lra|]. apply Rmult_le_compat_r; [lra|]. unfold u53. apply bpow_le. lia.
    + pose proof (none_driven l 0 0 init (coordinates init) (Rle_refl 0) began) as J. rewrite Rplus_0_l in J. apply (accurate (length l) X); [lia|lra|]. apply J. intros m I. split; [apply (all_fine radius l U m I)|].
      apply in_split in I. destruct I as (a & b & E). pose proof (prefix_driven radius l U (a ++ [m]) b ltac:(rewrite <- app_assoc; exact E)) as PR. rewrite driven_app in PR. cbn [driven] in PR. pose proof (prefix_driven radius l U a (m :: b) E). lra.
  - destruct (interpolated radius l U r Hr (res d_pose) (d_rs_move dsin dcos fuel radius) (Ok init) NZ) as [(before & m & s & Hs & ((after & E) & _ & Pl) & V)|(Pl & V)]; rewrite V.
    + pose proof (prefix_driven radius l U (before ++ [m]) after ltac:(rewrite <- app_assoc; exact E)) as PR. rewrite driven_app in PR. cbn [driven] in PR. rewrite Rplus_0_r in PR. pose proof (prefix_driven radius l U before (m :: after) E) as PB.
      assert (NL : (length before + 1 <= 5)%nat) by (rewrite E, app_length in N5; cbn [length] in N5; lia).
      destruct (drive_along dsin dcos G K HK radius Fr HR fuel Hf x0 y0 HR9 R4 before 0 0 init (coordinates init)) as (p & M & I); [lia|lra|exact began|intros q I; apply (all_fine radius l U); rewrite E; apply in_or_app; auto|intros q I; apply B8; rewrite E; apply in_or_app; auto|lra|lra|].
      rewrite M. rewrite Rplus_0_l in I. change (0 + length before)%nat with (length before) in I. assert (Im : In m l) by (rewrite E; apply in_elt). destruct (all_fine radius l U m Im) as [Fm Bm]. destruct Hs as [Fs Bs].
      assert (R1 : 0 <= B2R (dm_len m) * B2R s <= B2R (dm_len m)). { split; [apply Rmult_le_pos; lra|]. rewrite <- (Rmult_1_r (B2R (dm_len m))) at 2. apply Rmult_le_compat_l; lra. }
      destruct (dmul_real (dm_len m) s 400 Fm Fs ltac:(lia)) as [Ft Et]; [rewrite Rabs_pos_eq by lra; lra|]. set (t := d_mul (dm_len m) s) in *.
      assert (Bt : 0 <= B2R t <= B2R (dm_len m)). { rewrite Et. split; [apply round_ge_generic; auto with typeclass_instances; [apply generic_format_0|lra]|apply round_le_generic; auto with typeclass_instances; [apply CompositeFloat_proofs.number_format|lra]]. }
      assert (Tr : 0 <= B2R t * rad <= B2R (dm_len m) * rad). { split; [apply Rmult_le_pos; lra|apply Rmult_le_compat_r; lra]. }
      destruct (along_step dsin dcos G K HK radius Fr HR fuel Hf x0 y0 (length before) (driven radius before) p (advance_all rad before (coordinates init)) m t) as (p' & M' & I'); [lia|lra|exact I|exact Ft|lra|intros NS; specialize (B8 m Im NS); lra|lra|lra|].
      exists p'. split; [exact M'|]. split; [apply I'|]. left. exists before, m, after, (B2R t). split; [exact E|]. split; [exact Bt|]. split.
      * pose proof (StraightFloat_proofs.err53 (B2R (dm_len m) * B2R s)) as R2. rewrite <- Et, (Rabs_pos_eq (B2R (dm_len m) * B2R s)) in R2 by lra. destruct small_units as (_ & _ & U3 & _ & U5).
        assert (D1 : Rabs (B2R t * rad - B2R s * (B2R (dm_len m) * rad)) <= 10 * (u53 * K)).
        { replace (B2R t * rad - B2R s * (B2R (dm_len m) * rad)) with ((B2R t - B2R (dm_len m) * B2R s) * rad) by ring. rewrite Rabs_mult, (Rabs_pos_eq rad) by lra.
          assert (Q : Rabs (B2R t - B2R (dm_len m) * B2R s) * rad <= (u53 * B2R (dm_len m) + eta53) * rad). { apply Rmult_le_compat_r; [lra|]. assert (u53 * (B2R (dm_len m) * B2R s) <= u53 * B2R (dm_len m)) by (apply Rmult_le_compat_l; lra). lra. }
          assert (Q2 : u53 * (B2R (dm_len m) * rad) <= u53 * K). { apply Rmult_le_compat_l; [lra|]. pose proof (Rabs_pos x0). lra. }
          assert (Q3 : eta53 * rad <= u53 * K). { apply Rmult_le_compat; try lra. apply bpow_le. lia. } lra. }
        assert (E41 : bpow radix2 (-41) = 4096 * u53) by (unfold u53; change 4096 with (bpow radix2 12); rewrite <- bpow_plus; reflexivity).
        replace (driven radius before + B2R t * rad - B2R r * L) with ((driven radius before + B2R s * (B2R (dm_len m) * rad) - B2R r * L) + (B2R t * rad - B2R s * (B2R (dm_len m) * rad))) by ring.
        eapply Rle_trans; [apply Rabs_triang|]. fold L in Pl. rewrite E40, E41 in *. lra.
      * apply (accurate (Datatypes.S (length before)) (driven radius before + B2R t * rad)); [lia|lra|exact I'].
    + destruct (drive_along dsin dcos G K HK radius Fr HR fuel Hf x0 y0 HR9 R4 l 0 0 init (coordinates init)) as (p & M & I); [lia|lra|exact began|intros q I; apply (all_fine radius l U q I)|exact B8|lra|lra|].
      rewrite Rplus_0_l in I. change (0 + length l)%nat with (length l) in I. exists p. split; [exact M|]. split; [apply I|]. right. fold L in Pl. rewrite E40. split; [lra|]. apply (accurate (length l) X); [exact N5|lra|exact I].
Qed.
End Whole.

(** ** The end of the path *)

Lemma signed_plus dir a b : signed dir (a + b) = signed dir a + signed dir b.
Proof. destruct dir; cbn; ring. Qed.
Lemma advance_plus rad st dir a b q : advance rad st dir b (advance rad st dir a q) = advance rad st dir (a + b) q.
Proof.
  destruct q as [[x y] th]. unfold advance. rewrite signed_plus. set (u := signed dir a). set (v := signed dir b). destruct st.
  - replace (th + (u + v)) with (th + u + v) by ring. apply f_equal2; [apply f_equal2|]; ring.
  - apply f_equal2; [apply f_equal2|]; ring.
  - replace (th - (u + v)) with (th - u - v) by ring. apply f_equal2; [apply f_equal2|]; ring.
Qed.
Lemma advance_all_app rad a b q : advance_all rad (a ++ b) q = advance_all rad b (advance_all rad a q).
Proof. apply fold_left_app. Qed.

Lemma advance_all_short K radius l : 0 < B2R radius <= K -> (forall m, In m l -> fine m) -> forall q, let '(x, y, th) := q in let '(x', y', th') := advance_all (B2R radius) l q in
  Rabs (x' - x) <= 2 * driven radius l /\ Rabs (y' - y) <= 2 * driven radius l /\ Rabs (th' - th) <= driven radius l / B2R radius.
Proof.
  intros HR. induction l as [|m r IH]; intros FN q.
  - destruct q as [[x y] th]. cbn [advance_all fold_left driven]. rewrite !Rminus_eq_0, Rabs_R0. unfold Rdiv. rewrite Rmult_0_l. lra.
  - specialize (IH (fun q I => FN q (or_intror I)) (advance (B2R radius) (dm_steer m) (dm_dir m) (B2R (dm_len m)) q)). destruct (FN m (or_introl eq_refl)) as [_ B].
    pose proof (advance_short K radius HR (dm_steer m) (dm_dir m) (B2R (dm_len m)) q) as A. destruct q as [[x y] th]. unfold advance_all. cbn [fold_left]. change (fold_left _ r ?p) with (advance_all (B2R radius) r p).
    destruct (advance (B2R radius) (dm_steer m) (dm_dir m) (B2R (dm_len m)) (x, y, th)) as [[x1 y1] th1]. destruct (advance_all (B2R radius) r (x1, y1, th1)) as [[x2 y2] th2]. cbn [driven]. rewrite (Rabs_pos_eq (B2R (dm_len m))) in A by lra.
    destruct A as (A1 & A2 & A3). destruct IH as (I1 & I2 & I3). split; [|split].
    + replace (x2 - x) with ((x2 - x1) + (x1 - x)) by ring. eapply Rle_trans; [apply Rabs_triang|]. lra.
    + replace (y2 - y) with ((y2 - y1) + (y1 - y)) by ring. eapply Rle_trans; [apply Rabs_triang|]. lra.
    + replace (th2 - th) with ((th2 - th1) + (th1 - th)) by ring. eapply Rle_trans; [apply Rabs_triang|]. replace ((B2R (dm_len m) * B2R radius + driven radius r) / B2R radius) with (B2R (dm_len m) + driven radius r / B2R radius) by (field; lra). lra.
Qed.

Lemma ended dsin dcos fuel K radius l init : good_rotations dsin dcos -> (3 <= fuel)%nat -> usable radius l -> RsPoseFloat_spec.sized K radius l init -> pose_within K init ->
  exists p', d_rs_final (res d_pose) (d_rs_move dsin dcos fuel radius) radius l (Ok init) = Ok p' /\
    near (bpow radix2 (-37) * K) (bpow radix2 (-45) + bpow radix2 (-39) * (K / B2R radius)) p' (advance_all (B2R radius) l (coordinates init)).
Proof.
  intros G Hf U S I0. assert (O : is_ratio d_one) by (destruct one_real as [F E]; split; [exact F|rewrite E; lra]). destruct (posed dsin dcos G fuel Hf K radius l init U S I0 d_one O) as (p' & M & _ & C). exists p'. split; [exact M|].
  destruct (sizes K radius l init S) as (HK & HR & _). destruct (scale K HK) as (KP & UK & ET). pose proof (blur_small K radius l init U S) as BS. destruct (length_near radius l U) as (_ & _ & NL). rewrite blur_units in BS.
  destruct (prefix_driven radius l U l [] (eq_sym (app_nil_r l))) as [PX _]. assert (0 <= u53 * driven radius l) by (apply Rmult_le_pos; [unfold u53; apply bpow_ge_0|lra]). pose proof (bpow_ge_0 radix2 (-41)) as P41.
  assert (E40 : bpow radix2 (-40) = 2 * bpow radix2 (-41)) by (change (-40)%Z with (1 + -41)%Z; rewrite bpow_plus; reflexivity). assert (E39 : bpow radix2 (-39) = 4 * bpow radix2 (-41)) by (change (-39)%Z with (2 + -41)%Z; rewrite bpow_plus; reflexivity).
  assert (E37 : bpow radix2 (-37) = 16 * bpow radix2 (-41)) by (change (-37)%Z with (4 + -41)%Z; rewrite bpow_plus; reflexivity). destruct one_real as [_ E1]. rewrite E1, Rmult_1_l in C. set (e := bpow radix2 (-41)) in *. assert (Pe : 0 <= e * K) by (apply Rmult_le_pos; lra).
  assert (KR : 0 <= 4 * e * (K / B2R radius)). { apply Rmult_le_pos; [lra|]. apply Rmult_le_pos; [lra|apply Rlt_le, Rinv_0_lt_compat; lra]. }
  rewrite E37, E39. rewrite E40 in C. destruct C as [(before & m & after & t & E & Bt & Pl & N)|(_ & N)].
  - assert (Fm : fine m) by (apply (all_fine radius l U); rewrite E; apply in_elt). set (s := B2R (dm_len m) - t).
    assert (Rem : driven radius after + s * B2R radius <= 4 * e * K /\ 0 <= driven radius after /\ 0 <= s * B2R radius).
    { assert (0 <= driven radius after). { apply (driven_pos K); [lra|]. intros q I. apply (all_fine radius l U). rewrite E. apply in_or_app. right. right. exact I. }
      assert (0 <= s * B2R radius) by (apply Rmult_le_pos; unfold s; lra). split; [|auto]. pose proof (f_equal (driven radius) E) as EX. rewrite driven_app in EX. cbn [driven] in EX. apply Rabs_between in Pl. apply Rabs_between in NL. unfold s. lra. }
    rewrite E, advance_all_app. change (m :: after) with ([m] ++ after). rewrite advance_all_app. cbn [advance_all fold_left]. replace (B2R (dm_len m)) with (t + s) by (unfold s; ring). rewrite <- advance_plus.
    set (q := advance (B2R radius) (dm_steer m) (dm_dir m) t _) in *. pose proof (advance_short K radius HR (dm_steer m) (dm_dir m) s q) as A1.
    pose proof (advance_all_short K radius after HR ltac:(intros w I; apply (all_fine radius l U); rewrite E; apply in_or_app; right; right; exact I) (advance (B2R radius) (dm_steer m) (dm_dir m) s q)) as A2.
    change (fold_left _ after ?x) with (advance_all (B2R radius) after x). destruct q as [[x y] th]. destruct (advance (B2R radius) (dm_steer m) (dm_dir m) s (x, y, th)) as [[x1 y1] th1]. destruct (advance_all (B2R radius) after (x1, y1, th1)) as [[x2 y2] th2].
    rewrite (Rabs_pos_eq s) in A1 by (unfold s; lra). destruct A1 as (A & B & C). destruct A2 as (A' & B' & C'). destruct N as (N1 & N2 & k & N3). destruct Rem as (R1 & R2 & R3). split; [|split].
    + replace (B2R (d_x p') - x2) with ((B2R (d_x p') - x) - ((x2 - x1) + (x1 - x))) by ring. eapply Rle_trans; [apply Rabs_triang|]. rewrite Rabs_Ropp. eapply Rle_trans; [apply Rplus_le_compat_l, Rabs_triang|]. lra.
    + replace (B2R (d_y p') - y2) with ((B2R (d_y p') - y) - ((y2 - y1) + (y1 - y))) by ring. eapply Rle_trans; [apply Rabs_triang|]. rewrite Rabs_Ropp. eapply Rle_trans; [apply Rplus_le_compat_l, Rabs_triang|]. lra.
    + exists k. replace (B2R (d_theta p') - (th2 - IZR k * (2 * PI))) with ((B2R (d_theta p') - (th - IZR k * (2 * PI))) - ((th2 - th1) + (th1 - th))) by ring. eapply Rle_trans; [apply Rabs_triang|]. rewrite Rabs_Ropp. eapply Rle_trans; [apply Rplus_le_compat_l, Rabs_triang|].
      assert (driven radius after / B2R radius + s <= 4 * e * (K / B2R radius)). { apply Rmult_le_reg_r with (B2R radius); [lra|]. replace ((driven radius after / B2R radius + s) * B2R radius) with (driven radius after + s * B2R radius) by (field; lra). replace (4 * e * (K / B2R radius) * B2R radius) with (4 * e * K) by (field; lra). exact R1. }
      lra.
  - eapply near_weaken; [exact N|lra|lra].
Qed.

(** The correctly rounded functions. *)
Lemma rounded_rotations : good_rotations (fun x => rounded (sin (B2R x))) (fun x => rounded (cos (B2R x))).
Proof. intros x _ _. split; apply rounded_small, Rabs_le; [apply SIN_bound|apply COS_bound]. Qed.
