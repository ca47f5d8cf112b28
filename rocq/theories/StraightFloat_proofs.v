(** Straight paths in double precision. *)
From Coq Require Import Reals ZArith Lra Lia.
From Flocq Require Import Core BinarySingleNaN Relative Plus_error.
From Verif Require Import Base CoordsFloat_model CoordsFloat_proofs StraightFloat_model.
Local Open Scope R_scope.
#[local] Existing Instance prec53.
#[local] Existing Instance emax1024.
#[local] Existing Instance vexp53.
#[local] Existing Instance vrndne.

Lemma dmul_real x y e : is_finite x = true -> is_finite y = true -> (-1074 <= e < 1024)%Z -> Rabs (B2R x * B2R y) <= bpow radix2 e ->
  is_finite (d_mul x y) = true /\ B2R (d_mul x y) = rnd53 (B2R x * B2R y).
Proof.
  intros Fx Fy He H. pose proof (Bmult_correct 53 1024 prec53 emax1024 mode_NE x y) as C. rewrite (rnd53_small _ e He H) in C. destruct C as (C1 & C2 & _).
  rewrite Fx, Fy in C2. split; assumption.
Qed.

Lemma one_real : is_finite d_one = true /\ B2R d_one = 1.
Proof. split; [reflexivity|]. change (F2R (Float radix2 4503599627370496 (-52)) = 1). unfold F2R. cbn [Fnum Fexp]. change (bpow radix2 (-52)) with (/ 4503599627370496). field. Qed.

(** Every double is below the largest power of two. *)
Lemma double_big (x : double) : Rabs (B2R x) <= bpow radix2 1024.
Proof. apply Rlt_le, abs_B2R_lt_emax. Qed.
Lemma rnd_double (x : double) : rnd53 (B2R x) = B2R x.
Proof. apply round_generic; auto with typeclass_instances. apply generic_format_B2R. Qed.

Definition u53 : R := bpow radix2 (-53).
Definition eta53 : R := bpow radix2 (-1075).
Lemma err53 x : Rabs (rnd53 x - x) <= u53 * Rabs x + eta53.
Proof.
  rewrite fexp53. destruct (error_N_FLT radix2 (-1074) 53 eq_refl (fun z => negb (Z.even z)) x) as (e & h & He & Hh & _ & E).
  change (round_mode mode_NE) with ZnearestE. rewrite E. replace (x * (1 + e) + h - x) with (e * x + h) by ring.
  eapply Rle_trans; [apply Rabs_triang|]. rewrite Rabs_mult. apply Rplus_le_compat.
  - apply Rmult_le_compat_r; [apply Rabs_pos|]. eapply Rle_trans; [exact He|]. apply Req_le. unfold u53, u_ro. change (- (53) + 1)%Z with (-52)%Z.
    change (/ 2) with (bpow radix2 (-1)). rewrite <- bpow_plus. reflexivity.
  - eapply Rle_trans; [exact Hh|]. apply Req_le. unfold eta53. change (/ 2) with (bpow radix2 (-1)). rewrite <- bpow_plus. reflexivity.
Qed.

(** The operations, where the rounded result is a double. *)
Lemma dmul_fits x y : is_finite x = true -> is_finite y = true -> Rabs (rnd53 (B2R x * B2R y)) < bpow radix2 1024 ->
  is_finite (d_mul x y) = true /\ B2R (d_mul x y) = rnd53 (B2R x * B2R y).
Proof.
  intros Fx Fy H. pose proof (Bmult_correct 53 1024 prec53 emax1024 mode_NE x y) as C. rewrite (Rlt_bool_true _ _ H) in C. destruct C as (C1 & C2 & _).
  rewrite Fx, Fy in C2. split; assumption.
Qed.
Lemma dadd_fits x y : is_finite x = true -> is_finite y = true -> Rabs (rnd53 (B2R x + B2R y)) < bpow radix2 1024 ->
  is_finite (d_add x y) = true /\ B2R (d_add x y) = rnd53 (B2R x + B2R y).
Proof.
  intros Fx Fy H. pose proof (Bplus_correct 53 1024 prec53 emax1024 mode_NE x y Fx Fy) as C. rewrite (Rlt_bool_true _ _ H) in C. destruct C as (C1 & C2 & _). split; assumption.
Qed.
Lemma dmul_one x y : B2R x = 1 -> is_finite x = true -> is_finite y = true -> is_finite (d_mul x y) = true /\ B2R (d_mul x y) = B2R y.
Proof.
  intros Ex Fx Fy. destruct (dmul_fits x y Fx Fy) as [F E]; rewrite Ex, Rmult_1_l, rnd_double in *; [apply abs_B2R_lt_emax|auto].
Qed.
Lemma dmul_zero x y : B2R x = 0 -> is_finite x = true -> is_finite y = true -> is_finite (d_mul x y) = true /\ B2R (d_mul x y) = 0.
Proof.
  intros Ex Fx Fy. destruct (dmul_fits x y Fx Fy) as [F E]; rewrite Ex, Rmult_0_l, round_0 in * by auto with typeclass_instances; [|auto].
  rewrite Rabs_R0. apply bpow_gt_0.
Qed.

(** The ends are met exactly. *)
Lemma interp_start a b : is_finite a = true -> is_finite b = true -> is_finite (d_interp a b d_zero) = true /\ B2R (d_interp a b d_zero) = B2R a.
Proof.
  intros Fa Fb. unfold d_interp.
  assert (O : is_finite (d_sub d_one d_zero) = true /\ B2R (d_sub d_one d_zero) = 1) by exact one_real. destruct O as [FO EO].
  destruct (dmul_one _ a EO FO Fa) as [F1 E1]. destruct (dmul_zero d_zero b eq_refl eq_refl Fb) as [F2 E2].
  destruct (dadd_fits _ _ F1 F2) as [F E]; rewrite E1, E2, Rplus_0_r, rnd_double in *; [apply abs_B2R_lt_emax|auto].
Qed.
Lemma interp_end a b : is_finite a = true -> is_finite b = true -> is_finite (d_interp a b d_one) = true /\ B2R (d_interp a b d_one) = B2R b.
Proof.
  intros Fa Fb. unfold d_interp.
  assert (O : is_finite (d_sub d_one d_one) = true /\ B2R (d_sub d_one d_one) = 0) by (split; reflexivity). destruct O as [FO EO].
  destruct one_real as [FI EI]. destruct (dmul_one d_one b EI FI Fb) as [F1 E1]. destruct (dmul_zero _ a EO FO Fa) as [F2 E2].
  destruct (dadd_fits _ _ F2 F1) as [F E]; rewrite E1, E2, Rplus_0_l, rnd_double in *; [apply abs_B2R_lt_emax|auto].
Qed.

Lemma u53_small : 0 < u53 <= / 16.
Proof. unfold u53. split; [apply bpow_gt_0|]. change (/ 16) with (bpow radix2 (-4)). apply bpow_le. lia. Qed.
Lemma eta53_small : 0 < eta53 <= / 16.
Proof. unfold eta53. split; [apply bpow_gt_0|]. change (/ 16) with (bpow radix2 (-4)). apply bpow_le. lia. Qed.
Lemma rnd_le_abs x e : (-1074 <= e)%Z -> Rabs x <= bpow radix2 e -> Rabs (rnd53 x) <= bpow radix2 e.
Proof. intros He H. apply abs_round_le_generic; auto with typeclass_instances. now apply format53_pow. Qed.

(** Sums have a relative error only. *)
Lemma plus53 (x y : double) : Rabs (rnd53 (B2R x + B2R y) - (B2R x + B2R y)) <= u53 * Rabs (B2R x + B2R y).
Proof.
  rewrite fexp53.
  destruct (FLT_plus_error_N_ex radix2 (-1074) 53 (fun z => negb (Z.even z)) (B2R x) (B2R y)) as (e & He & E).
  { rewrite <- fexp53. apply generic_format_B2R. }
  { rewrite <- fexp53. apply generic_format_B2R. }
  change (round_mode mode_NE) with ZnearestE. rewrite E. replace ((B2R x + B2R y) * (1 + e) - (B2R x + B2R y)) with (e * (B2R x + B2R y)) by ring.
  rewrite Rabs_mult. apply Rmult_le_compat_r; [apply Rabs_pos|]. eapply Rle_trans; [exact He|].
  assert (U : u_ro radix2 53 = u53). { unfold u_ro, u53. change (/ 2) with (bpow radix2 (-1)). rewrite <- bpow_plus. reflexivity. }
  rewrite U. pose proof u53_small as [U0 _]. apply Rmult_le_reg_r with (1 + u53); [lra|]. unfold Rdiv. rewrite Rmult_assoc, Rinv_l by lra. nra.
Qed.

Lemma abs_near x y d : Rabs (x - y) <= d -> Rabs x <= Rabs y + d.
Proof. intros H. replace x with (y + (x - y)) by ring. eapply Rle_trans; [apply Rabs_triang|]. lra. Qed.

Lemma interp_error a b r M : is_finite a = true -> is_finite b = true -> is_finite r = true -> 0 <= B2R r <= 1 ->
  Rabs (B2R a) <= M -> Rabs (B2R b) <= M -> M <= bpow radix2 1022 ->
  is_finite (d_interp a b r) = true /\
  Rabs (B2R (d_interp a b r) - ((1 - B2R r) * B2R a + B2R r * B2R b)) <= bpow radix2 (-51) * M + bpow radix2 (-1073).
Proof.
  intros Fa Fb Fr Hr Ha Hb HM. unfold d_interp. destruct one_real as [FI EI]. pose proof u53_small as [U0 U1]. pose proof eta53_small as [T0 T1].
  assert (M0 : 0 <= M) by (eapply Rle_trans; [apply Rabs_pos|exact Ha]).
  assert (B0 : bpow radix2 0 = 1) by reflexivity.
  destruct (sub_real d_one r 0 FI Fr) as [Fs Es]; [lia|rewrite EI, B0; apply Rabs_le; lra|].
  set (s := d_sub d_one r) in *. rewrite EI in Es.
  assert (Ds : Rabs (B2R s - (1 - B2R r)) <= u53 * (1 - B2R r)).
  { pose proof (plus53 d_one (Bopp r)) as P. rewrite B2R_Bopp, EI in P. change (1 + - B2R r) with (1 - B2R r) in P. rewrite <- Es in P.
    rewrite (Rabs_pos_eq (1 - B2R r)) in P by lra. exact P. }
  assert (S1 : Rabs (B2R s) <= 1). { rewrite Es. rewrite <- B0. apply rnd_le_abs; [lia|]. rewrite B0. apply Rabs_le. lra. }
  assert (S2 : Rabs (B2R s) <= (1 + u53) * (1 - B2R r)). { pose proof (abs_near _ _ _ Ds) as P. rewrite (Rabs_pos_eq (1 - B2R r)) in P by lra. lra. }
  assert (P1 : Rabs (B2R s * B2R a) <= Rabs (B2R s) * M) by (rewrite Rabs_mult; apply Rmult_le_compat_l; [apply Rabs_pos|exact Ha]).
  assert (P2 : Rabs (B2R r * B2R b) <= B2R r * M) by (rewrite Rabs_mult, (Rabs_pos_eq (B2R r)) by lra; apply Rmult_le_compat_l; [lra|exact Hb]).
  assert (Q1 : Rabs (B2R s * B2R a) <= bpow radix2 1022). { eapply Rle_trans; [exact P1|]. pose proof (Rabs_pos (B2R s)). nra. }
  assert (Q2 : Rabs (B2R r * B2R b) <= bpow radix2 1022). { eapply Rle_trans; [exact P2|]. nra. }
  destruct (dmul_real s a 1022 Fs Fa) as [F1 E1]; [lia|exact Q1|]. destruct (dmul_real r b 1022 Fr Fb) as [F2 E2]; [lia|exact Q2|].
  set (p := d_mul s a) in *. set (q := d_mul r b) in *.
  assert (Dp : Rabs (B2R p - B2R s * B2R a) <= u53 * (Rabs (B2R s) * M) + eta53).
  { rewrite E1. eapply Rle_trans; [apply err53|]. apply Rplus_le_compat_r. apply Rmult_le_compat_l; [lra|exact P1]. }
  assert (Dq : Rabs (B2R q - B2R r * B2R b) <= u53 * (B2R r * M) + eta53).
  { rewrite E2. eapply Rle_trans; [apply err53|]. apply Rplus_le_compat_r. apply Rmult_le_compat_l; [lra|exact P2]. }
  assert (R1 : Rabs (B2R p) <= bpow radix2 1022) by (rewrite E1; apply rnd_le_abs; [lia|exact Q1]).
  assert (R2 : Rabs (B2R q) <= bpow radix2 1022) by (rewrite E2; apply rnd_le_abs; [lia|exact Q2]).
  assert (R3 : Rabs (B2R p + B2R q) <= bpow radix2 1023).
  { eapply Rle_trans; [apply Rabs_triang|]. replace (bpow radix2 1023) with (2 * bpow radix2 1022) by (change 1023%Z with (1 + 1022)%Z; rewrite bpow_plus; reflexivity). lra. }
  destruct (add_real p q 1023 F1 F2) as [F E]; [lia|exact R3|]. split; [exact F|].
  pose proof (plus53 p q) as D. rewrite <- E in D. set (z := d_add p q) in *.
  assert (W1 : Rabs (B2R s) * M <= (1 + u53) * (1 - B2R r) * M) by (apply Rmult_le_compat_r; assumption).
  assert (W2 : Rabs (B2R p + B2R q) <= (1 + u53) * ((1 + u53) * (1 - B2R r) * M) + (1 + u53) * (B2R r * M) + 2 * eta53).
  { eapply Rle_trans; [apply Rabs_triang|]. pose proof (abs_near _ _ _ Dp). pose proof (abs_near _ _ _ Dq).
    assert (u53 * (Rabs (B2R s) * M) <= u53 * ((1 + u53) * (1 - B2R r) * M)) by (apply Rmult_le_compat_l; lra). lra. }
  assert (D1 : Rabs (B2R s * B2R a - (1 - B2R r) * B2R a) <= u53 * (1 - B2R r) * M).
  { replace (B2R s * B2R a - (1 - B2R r) * B2R a) with ((B2R s - (1 - B2R r)) * B2R a) by ring. rewrite Rabs_mult.
    apply Rmult_le_compat; auto using Rabs_pos. }
  assert (T : Rabs (B2R z - ((1 - B2R r) * B2R a + B2R r * B2R b)) <=
    u53 * ((1 + u53) * ((1 + u53) * (1 - B2R r) * M) + (1 + u53) * (B2R r * M) + 2 * eta53) + (u53 * ((1 + u53) * (1 - B2R r) * M) + eta53) +
    (u53 * (B2R r * M) + eta53) + u53 * (1 - B2R r) * M).
  { replace (B2R z - ((1 - B2R r) * B2R a + B2R r * B2R b)) with
      ((B2R z - (B2R p + B2R q)) + (B2R p - B2R s * B2R a) + (B2R q - B2R r * B2R b) + (B2R s * B2R a - (1 - B2R r) * B2R a)) by ring.
    eapply Rle_trans; [apply Rabs_triang|]. apply Rplus_le_compat; [|exact D1].
    eapply Rle_trans; [apply Rabs_triang|]. apply Rplus_le_compat; [|exact Dq].
    eapply Rle_trans; [apply Rabs_triang|]. apply Rplus_le_compat.
    - eapply Rle_trans; [exact D|]. apply Rmult_le_compat_l; lra.
    - eapply Rle_trans; [exact Dp|]. apply Rplus_le_compat_r, Rmult_le_compat_l; lra. }
  eapply Rle_trans; [exact T|]. change (-51)%Z with (2 + -53)%Z. change (-1073)%Z with (2 + -1075)%Z. rewrite !bpow_plus. fold u53 eta53.
  change (bpow radix2 2) with 4.
  assert (X : (1 - B2R r) * M = M - B2R r * M) by ring. set (rm := B2R r * M) in *. assert (Hrm : 0 <= rm <= M) by (unfold rm; nra).
  replace (u53 * ((1 + u53) * ((1 + u53) * (1 - B2R r) * M) + (1 + u53) * rm + 2 * eta53) + (u53 * ((1 + u53) * (1 - B2R r) * M) + eta53) + (u53 * rm + eta53) + u53 * (1 - B2R r) * M)
    with (u53 * ((1 + (1 + u53) + (1 + u53) * (1 + u53)) * (M - rm) + (2 + u53) * rm) + (2 + 2 * u53) * eta53)
    by (rewrite <- X; ring).
  assert (Y : (1 + (1 + u53) + (1 + u53) * (1 + u53)) * (M - rm) + (2 + u53) * rm <= 4 * M).
  { clear - U0 U1 Hrm. assert ((1 + (1 + u53) + (1 + u53) * (1 + u53)) <= 4) by nra.
    assert ((1 + (1 + u53) + (1 + u53) * (1 + u53)) * (M - rm) <= 4 * (M - rm)) by (apply Rmult_le_compat_r; lra). nra. }
  assert (u53 * ((1 + (1 + u53) + (1 + u53) * (1 + u53)) * (M - rm) + (2 + u53) * rm) <= u53 * (4 * M)) by (apply Rmult_le_compat_l; lra).
  clear - U0 U1 T0 H. nra.
Qed.

(** Between numbers of different sign the result is between them. *)
Lemma dmul_shrinks s a : is_finite s = true -> is_finite a = true -> 0 <= B2R s <= 1 ->
  is_finite (d_mul s a) = true /\ Rmin 0 (B2R a) <= B2R (d_mul s a) <= Rmax 0 (B2R a).
Proof.
  intros Fs Fa Hs.
  assert (B : Rmin 0 (B2R a) <= rnd53 (B2R s * B2R a) <= Rmax 0 (B2R a)).
  { unfold Rmin, Rmax. destruct (Rle_dec 0 (B2R a)).
    - split; [apply round_ge_generic|apply round_le_generic]; auto with typeclass_instances; try apply generic_format_0; try apply generic_format_B2R; nra.
    - split; [apply round_ge_generic|apply round_le_generic]; auto with typeclass_instances; try apply generic_format_0; try apply generic_format_B2R; nra. }
  destruct (dmul_fits s a Fs Fa) as [F E].
  - eapply Rle_lt_trans; [|apply (abs_B2R_lt_emax 53 1024 a)]. revert B. unfold Rmin, Rmax, Rabs. intros B. destruct (Rle_dec 0 (B2R a)); repeat destruct (Rcase_abs _); lra.
  - rewrite E. auto.
Qed.

Lemma interp_between a b r : is_finite a = true -> is_finite b = true -> is_finite r = true -> 0 <= B2R r <= 1 ->
  B2R a <= 0 <= B2R b \/ B2R b <= 0 <= B2R a ->
  is_finite (d_interp a b r) = true /\ Rmin (B2R a) (B2R b) <= B2R (d_interp a b r) <= Rmax (B2R a) (B2R b).
Proof.
  intros Fa Fb Fr Hr H. unfold d_interp. destruct one_real as [FI EI]. assert (B0 : bpow radix2 0 = 1) by reflexivity.
  destruct (sub_real d_one r 0 FI Fr) as [Fs Es]; [lia|rewrite EI, B0; apply Rabs_le; lra|]. rewrite EI in Es.
  assert (Hs : 0 <= B2R (d_sub d_one r) <= 1).
  { rewrite Es. split; [apply round_ge_generic|apply round_le_generic]; auto with typeclass_instances; try apply generic_format_0; try lra.
    rewrite <- EI. apply generic_format_B2R. }
  destruct (dmul_shrinks _ a Fs Fa Hs) as [F1 H1]. destruct (dmul_shrinks r b Fr Fb Hr) as [F2 H2].
  set (p := d_mul (d_sub d_one r) a) in *. set (q := d_mul r b) in *.
  assert (B : Rmin (B2R a) (B2R b) <= rnd53 (B2R p + B2R q) <= Rmax (B2R a) (B2R b)).
  { revert H1 H2. unfold Rmin, Rmax. destruct H as [H|H].
    - destruct (Rle_dec (B2R a) (B2R b)); [|lra]. destruct (Rle_dec 0 (B2R b)); [|lra]. intros H1 H2.
      assert (B2R a <= B2R p <= 0) by (destruct (Rle_dec 0 (B2R a)); lra).
      split; [apply round_ge_generic|apply round_le_generic]; auto with typeclass_instances; try apply generic_format_B2R; lra.
    - destruct (Rle_dec 0 (B2R a)); [|lra]. intros H1 H2.
      assert (B2R b <= B2R q <= 0) by (destruct (Rle_dec 0 (B2R b)); lra).
      destruct (Rle_dec (B2R a) (B2R b)); split; [apply round_ge_generic|apply round_le_generic|apply round_ge_generic|apply round_le_generic]; auto with typeclass_instances; try apply generic_format_B2R; lra. }
  destruct (dadd_fits p q F1 F2) as [F E].
  - pose proof (abs_B2R_lt_emax 53 1024 a) as A. pose proof (abs_B2R_lt_emax 53 1024 b) as A'. apply Rabs_def2 in A, A'.
    revert B. unfold Rmin, Rmax. intros B. apply Rabs_def1; destruct (Rle_dec (B2R a) (B2R b)); lra.
  - rewrite E. auto.
Qed.

(** Between equal numbers the result may be outside. *)
Lemma three_real : B2R (d_of 3 0) = 3.
Proof. change (F2R (Float radix2 6755399441055744 (-51)) = 3). unfold F2R. cbn [Fnum Fexp]. change (bpow radix2 (-51)) with (/ 2251799813685248). field. Qed.
Lemma fifth_real : B2R (d_div d_one (d_of 5 0)) = 3602879701896397 / 18014398509481984.
Proof.
  change (F2R (Float radix2 7205759403792794 (-55)) = 3602879701896397 / 18014398509481984). unfold F2R. cbn [Fnum Fexp]. change (bpow radix2 (-55)) with (/ 36028797018963968). field.
Qed.
Lemma above_three : B2R (d_interp (d_of 3 0) (d_of 3 0) (d_div d_one (d_of 5 0))) = 6755399441055745 / 2251799813685248.
Proof.
  replace (d_interp (d_of 3 0) (d_of 3 0) (d_div d_one (d_of 5 0))) with (d_of 6755399441055745 (-51)) by (apply B2SF_inj; vm_compute; reflexivity).
  change (F2R (Float radix2 6755399441055745 (-51)) = 6755399441055745 / 2251799813685248). unfold F2R. cbn [Fnum Fexp]. change (bpow radix2 (-51)) with (/ 2251799813685248). field.
Qed.

Lemma truncate_ends p : is_finite (dp_init p) = true -> is_finite (dp_final p) = true -> is_finite (dp_length p) = true ->
  B2R (dp_final (d_truncate p d_one)) = B2R (dp_final p) /\ B2R (dp_length (d_truncate p d_one)) = B2R (dp_length p) /\
  B2R (dp_final (d_truncate p d_zero)) = B2R (dp_init p) /\ B2R (dp_length (d_truncate p d_zero)) = 0.
Proof.
  intros Fi Ff Fl. cbn [d_truncate dp_final dp_length]. split; [now apply interp_end|]. split.
  { destruct one_real as [FI EI]. destruct (dmul_fits (dp_length p) d_one Fl FI) as [F E]; rewrite EI, Rmult_1_r, rnd_double in *; [apply abs_B2R_lt_emax|auto]. }
  split; [now apply interp_start|].
  destruct (dmul_fits (dp_length p) d_zero Fl eq_refl) as [F E]; change (B2R d_zero) with 0 in *; rewrite Rmult_0_r, round_0 in * by auto with typeclass_instances; [|auto].
  rewrite Rabs_R0. apply bpow_gt_0.
Qed.
