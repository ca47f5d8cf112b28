(** Proofs about the steering inputs in double precision. *)
From Coq Require Import Reals ZArith Lra Lia Ratan.
From Flocq Require Import Core BinarySingleNaN.
From Verif Require Import Base CoordsFloat_model StraightFloat_model CoordsFloat_proofs StraightFloat_proofs ValidatorFloat_proofs CellFloat_proofs AngleFloat_model AngleFloat_proofs PathCostFloat_proofs
  SteerInputFloat_model SteerInputFloat_spec.
From Verif Require SteeringFloat_proofs.
From Coq Require Import ZifyBool ZifyNat ZifyN.
Local Open Scope R_scope.

(** * The inverse tangent *)

Lemma atan_slope x y : x < y -> exists c, x < c < y /\ atan y - atan x = (y - x) / (1 + c * c).
Proof.
  intros H. destruct (MVT_cor2 atan (fun c => / (1 + c ^ 2)) x y H) as (c & E & B).
  - intros c _. apply derivable_pt_lim_atan.
  - exists c. split; [exact B|]. rewrite E. replace (c ^ 2) with (c * c) by ring. unfold Rdiv. ring.
Qed.
Lemma inv_sq_le a b : 0 <= a <= b -> / (1 + b * b) <= / (1 + a * a).
Proof. intros H. apply Rinv_le_contravar; nra. Qed.

Lemma atan_small x : 0 <= x -> x / (1 + x * x) <= atan x <= x.
Proof.
  intros [H|<-]; [|rewrite atan_0; unfold Rdiv; rewrite Rmult_0_l; lra]. destruct (atan_slope 0 x H) as (c & B & E). rewrite atan_0, !Rminus_0_r in E. rewrite E. unfold Rdiv. split.
  - apply Rmult_le_compat_l; [lra|]. apply inv_sq_le. lra.
  - rewrite <- (Rmult_1_r x) at 2. apply Rmult_le_compat_l; [lra|]. rewrite <- Rinv_1. apply Rinv_le_contravar; nra.
Qed.

(** A relative error is not increased. *)
Lemma atan_relative x y e : 0 < x -> 0 <= e <= / 4 -> Rabs (y - x) <= e * x -> Rabs (atan y - atan x) <= 2 * e * atan x.
Proof.
  intros Px He H. apply Rabs_le_inv in H. pose proof (atan_small x ltac:(lra)) as [L _]. assert (PA : 0 < x / (1 + x * x)) by (apply Rdiv_lt_0_compat; nra).
  destruct (Rtotal_order x y) as [Hl|[<- |Hg]].
  - destruct (atan_slope x y Hl) as (c & B & E). rewrite E. assert (Q : 0 <= (y - x) / (1 + c * c) <= e * (x / (1 + x * x))).
    { split; [apply Rmult_le_pos; [lra|apply Rlt_le, Rinv_0_lt_compat; nra]|]. unfold Rdiv. rewrite <- Rmult_assoc. apply Rmult_le_compat; [lra|apply Rlt_le, Rinv_0_lt_compat; nra|lra|apply inv_sq_le; lra]. }
    rewrite Rabs_pos_eq by lra. assert (e * (x / (1 + x * x)) <= e * atan x) by (apply Rmult_le_compat_l; lra). assert (0 <= e * atan x) by (apply Rmult_le_pos; lra). lra.
  - rewrite Rminus_diag_eq by reflexivity. rewrite Rabs_R0. apply Rmult_le_pos; lra.
  - destruct (atan_slope y x Hg) as (c & B & E). assert (Py : 3 / 4 * x <= y) by (assert (e * x <= / 4 * x) by (apply Rmult_le_compat_r; lra); lra).
    assert (Q : 0 <= (x - y) / (1 + c * c) <= e * x * (2 * / (1 + x * x))).
    { split; [apply Rmult_le_pos; [lra|apply Rlt_le, Rinv_0_lt_compat; nra]|]. unfold Rdiv. apply Rmult_le_compat; [lra|apply Rlt_le, Rinv_0_lt_compat; nra|lra|].
      replace (2 * / (1 + x * x)) with (/ ((1 + x * x) / 2)) by (field; nra). apply Rinv_le_contravar; nra. }
    replace (atan y - atan x) with (- (atan x - atan y)) by ring. rewrite Rabs_Ropp, E, Rabs_pos_eq by lra. unfold Rdiv in L. assert (e * (x * / (1 + x * x)) <= e * atan x) by (apply Rmult_le_compat_l; lra).
    replace (e * x * (2 * / (1 + x * x))) with (2 * (e * (x * / (1 + x * x)))) in Q by ring. lra.
Qed.

(** The tangent of an angle close to the inverse tangent of [x]. *)
Lemma tan_near x a e : 0 < x <= 16 -> 0 <= e <= / 4096 -> Rabs (a - atan x) <= e * atan x -> 0 < a < PI / 2 /\ Rabs (tan a - x) <= 2048 * e * x.
Proof.
  intros Px He H. pose proof (atan_small x ltac:(lra)) as [L U]. assert (PA : 0 < x / (1 + x * x)) by (apply Rdiv_lt_0_compat; nra). apply Rabs_le_inv in H.
  assert (eA : 0 <= e * atan x <= e * x) by (split; [apply Rmult_le_pos; lra|apply Rmult_le_compat_l; lra]). assert (eB : e * atan x <= / 4096 * atan x) by (apply Rmult_le_compat_r; lra).
  destruct (atan_slope x (2 * x) ltac:(lra)) as (c2 & B2 & E2). replace (2 * x - x) with x in E2 by ring.
  assert (G : x / 1025 <= x / (1 + c2 * c2)). { unfold Rdiv. apply Rmult_le_compat_l; [lra|]. apply Rinv_le_contravar; nra. }
  assert (eX : e * x <= / 4096 * x) by (apply Rmult_le_compat_r; lra). assert (Ha : a <= atan (2 * x)) by lra. pose proof (atan_bound (2 * x)) as [_ Bp]. assert (Pa : 0 < a) by lra.
  split; [lra|]. set (T := tan a). assert (ET : atan T = a) by (apply atan_tan; lra). assert (T2 : T <= 2 * x). { destruct (Rle_lt_dec T (2 * x)) as [Y|Y]; [exact Y|]. apply atan_increasing in Y. lra. }
  assert (T0 : 0 < T). { apply tan_gt_0; lra. }
  assert (K : forall c, 0 <= c <= 2 * x -> 0 < / (1 + c * c) /\ / 1025 <= / (1 + c * c)) by (intros c Bc; split; [apply Rinv_0_lt_compat; nra|apply Rinv_le_contravar; nra]).
  destruct (Rtotal_order x T) as [Hl|[Hl|Hg]].
  - destruct (atan_slope x T Hl) as (c & B & E). destruct (K c ltac:(lra)) as [K1 K2]. rewrite ET in E. unfold Rdiv in E. assert ((T - x) * / 1025 <= (T - x) * / (1 + c * c)) by (apply Rmult_le_compat_l; lra). rewrite Rabs_pos_eq by lra. lra.
  - rewrite Hl, Rminus_diag_eq by reflexivity. rewrite Rabs_R0. apply Rmult_le_pos; lra.
  - destruct (atan_slope T x Hg) as (c & B & E). destruct (K c ltac:(lra)) as [K1 K2]. rewrite ET in E. unfold Rdiv in E. assert ((x - T) * / 1025 <= (x - T) * / (1 + c * c)) by (apply Rmult_le_compat_l; lra). rewrite Rabs_left1 by lra. lra.
Qed.

(** * The angle *)

Section Library.
Variables dsq datan : double -> double.
Hypothesis acc : trusted dsq datan.

Lemma sqrt_real x : is_finite x = true -> 0 <= B2R x -> Bsign x = false -> is_finite (d_sqrt x) = true /\ B2R (d_sqrt x) = rnd53 (sqrt (B2R x)).
Proof using.
  clear. intros F P Sg. destruct (Bsqrt_correct 53 1024 prec53 emax1024 mode_NE x) as (E & G & _). split; [|exact E]. change (d_sqrt x) with (@Bsqrt 53 1024 prec53 emax1024 mode_NE x). rewrite G. destruct x as [s|s| |s m e b]; cbn in *; try reflexivity; try discriminate. rewrite Sg. reflexivity.
Qed.
Lemma positive_sign (x : double) : 0 < B2R x -> Bsign x = false.
Proof using. clear. intros P. destruct x as [s|s| |s m e b]; cbn [B2R Bsign] in *; try lra. destruct s; [|reflexivity]. exfalso. assert (F2R (Float radix2 (Z.neg m) e) < 0) by (apply F2R_lt_0; cbn; lia). cbn [SpecFloat.cond_Zopp] in P. cbn in *. lra. Qed.

Lemma relative53 x : bpow radix2 (-900) <= x -> Rabs (rnd53 x - x) <= bpow radix2 (-52) * x.
Proof using.
  clear. intros H. pose proof (bpow_gt_0 radix2 (-900)). pose proof (CoordsFloat_proofs.err53 x) as R1. rewrite (Rabs_pos_eq x) in R1 by lra. apply Rle_trans with (1 := R1).
  assert (bpow radix2 (-1075) <= bpow radix2 (-53) * x). { apply Rle_trans with (bpow radix2 (-53) * bpow radix2 (-900)); [rewrite <- bpow_plus; apply bpow_le; lia|apply Rmult_le_compat_l; [apply bpow_ge_0|lra]]. }
  replace (bpow radix2 (-52)) with (2 * bpow radix2 (-53)) by (change (-52)%Z with (1 + -53)%Z; rewrite bpow_plus; reflexivity). lra.
Qed.

Lemma angle_near W R0 : measure W -> measure R0 -> let a := d_steering_angle dsq datan W d_zero R0 in let x := B2R W / B2R R0 in
  is_finite a = true /\ 0 < x /\ Rabs (B2R a - atan x) <= bpow radix2 (-47) * atan x.
Proof using acc.
  intros [FW BW] [FR BR] a x. pose proof (bpow_gt_0 radix2 (-100)) as P100. assert (Px : 0 < x) by (unfold x; apply Rdiv_lt_0_compat; lra). subst a. unfold d_steering_angle.
  assert (NB : Bltb R0 d_zero = false). { apply Bool.not_true_is_false. intros Y. apply dltb in Y; auto. change (B2R d_zero) with 0 in Y. lra. } rewrite NB.
  destruct (sq_near _ _ acc R0 FR BR) as [Fs Ns]. destruct (sq_0 _ _ acc d_zero eq_refl eq_refl) as [F0 E0]. set (s := dsq R0) in *. set (r := B2R R0) in *. set (w := B2R W) in *.
  assert (Br2 : bpow radix2 (-200) <= r * r <= bpow radix2 200). { change (-200)%Z with (-100 + -100)%Z. change 200%Z with (100 + 100)%Z. rewrite !bpow_plus. split; apply Rmult_le_compat; lra. }
  change (bpow radix2 (-52)) with (/ 4503599627370496) in Ns. apply Rabs_le_inv in Ns. pose proof (bpow_gt_0 radix2 (-200)) as P200.
  assert (Bs : / 2 * (r * r) <= B2R s <= 2 * (r * r)) by lra. assert (P201 : 2 * bpow radix2 200 = bpow radix2 201) by (change 201%Z with (1 + 200)%Z; rewrite bpow_plus; reflexivity).
  destruct (sub_real s (dsq d_zero) 201 Fs F0 ltac:(lia)) as [Fd Ed]; [rewrite E0, Rminus_0_r, Rabs_pos_eq; lra|]. rewrite E0, Rminus_0_r, rnd_double in Ed. set (d := d_sub s (dsq d_zero)) in *.
  destruct (sqrt_real d Fd ltac:(lra) (positive_sign d ltac:(lra))) as [Fq Eq]. rewrite Ed in Eq. set (q := d_sqrt d) in *. set (y := sqrt (B2R s)) in *.
  assert (Py : 0 <= y) by apply sqrt_pos. assert (Ey : y * y = B2R s) by (apply sqrt_sqrt; lra).
  assert (Ny : Rabs (y - r) <= / 4503599627370496 * r). { assert (Z : (y - r) * (y + r) = B2R s - r * r) by (rewrite <- Ey; ring). apply Rabs_le. split; nra. }
  apply Rabs_le_inv in Ny. assert (Ly : bpow radix2 (-900) <= y). { apply Rle_trans with (/ 2 * bpow radix2 (-100)); [change (/ 2) with (bpow radix2 (-1)); rewrite <- bpow_plus; apply bpow_le; lia|lra]. }
  pose proof (relative53 y Ly) as Nq. rewrite <- Eq in Nq. change (bpow radix2 (-52)) with (/ 4503599627370496) in Nq. apply Rabs_le_inv in Nq.
  assert (Nqr : Rabs (B2R q - r) <= 3 * / 4503599627370496 * r) by (apply Rabs_le; lra). apply Rabs_le_inv in Nqr. assert (Pq : 0 < B2R q) by lra.
  assert (Bx : bpow radix2 (-200) <= x <= bpow radix2 200). { unfold x. change (-200)%Z with (-100 + -100)%Z. change 200%Z with (100 + 100)%Z. rewrite !bpow_plus. unfold Rdiv. assert (O : bpow radix2 (-100) = / bpow radix2 100) by (change (-100)%Z with (- (100))%Z; apply bpow_opp). assert (O' : bpow radix2 100 = / bpow radix2 (-100)) by (rewrite O; symmetry; apply Rinv_inv).
    assert (I : bpow radix2 (-100) <= / r <= bpow radix2 100). { split; [rewrite O|rewrite O']; apply Rinv_le_contravar; try apply bpow_gt_0; lra. }
    split; apply Rmult_le_compat; lra. }
  set (z := w / B2R q). assert (Nz : Rabs (z - x) <= 4 * / 4503599627370496 * x).
  { assert (Ez : z * B2R q = w) by (unfold z; field; lra). assert (Ex : x * r = w) by (unfold x; fold w r; field; lra). assert (Pz : 0 < z) by (unfold z; apply Rdiv_lt_0_compat; lra). apply Rabs_le. split; nra. }
  apply Rabs_le_inv in Nz. destruct (div_real W q 201 FW ltac:(lra) ltac:(lia)) as [Fg Eg]; [fold w z; rewrite Rabs_pos_eq; lra|]. fold w z in Eg. set (g := d_div W q) in *.
  assert (Lz : bpow radix2 (-900) <= z). { apply Rle_trans with (/ 2 * bpow radix2 (-200)); [change (/ 2) with (bpow radix2 (-1)); rewrite <- bpow_plus; apply bpow_le; lia|lra]. }
  pose proof (relative53 z Lz) as Ng. rewrite <- Eg in Ng. change (bpow radix2 (-52)) with (/ 4503599627370496) in Ng. apply Rabs_le_inv in Ng. assert (Ngx : Rabs (B2R g - x) <= 6 * / 4503599627370496 * x) by (apply Rabs_le; lra).
  pose proof (atan_relative x (B2R g) (6 * / 4503599627370496) Px ltac:(lra) Ngx) as Na. apply Rabs_le_inv in Ngx. destruct (atan_near _ _ acc g Fg) as [Fa Ea]; [apply Rle_trans with (/ 4 * bpow radix2 (-200)); [change (/ 4) with (bpow radix2 (-2)); rewrite <- bpow_plus; apply bpow_le; lia|lra]|]. split; [exact Fa|]. split; [exact Px|].
  pose proof (atan_small x ltac:(lra)) as [L _]. assert (PA : 0 < x / (1 + x * x)) by (apply Rdiv_lt_0_compat; nra). change (bpow radix2 (-50)) with (/ 1125899906842624) in Ea. change (bpow radix2 (-47)) with (/ 140737488355328). apply Rabs_le_inv in Na. apply Rabs_le_inv in Ea. apply Rabs_le. split; lra.
Qed.

(** The angle is always a number between zero and about a right angle. *)
Lemma angle_number W rear R0 : measure W -> is_finite rear = true -> 0 <= B2R rear -> measure R0 -> let a := d_steering_angle dsq datan W rear R0 in
  is_finite a = true /\ 0 <= B2R a <= PI / 2 + bpow radix2 (-49).
Proof using acc.
  intros [FW BW] Fe Be [FR BR] a. subst a. unfold d_steering_angle. pose proof (bpow_gt_0 radix2 (-100)) as P100. pose proof pi_close as [PI1 PI2]. pose proof pi_bounds as PB. change (bpow radix2 (-52)) with (/ 4503599627370496) in PI2. change (bpow radix2 (-49)) with (/ 562949953421312).
  destruct (Bltb R0 rear) eqn:EL.
  - split; [vm_compute; reflexivity|]. assert (E : B2R d_half_pi = pi_ / 2) by (rewrite pi_value; change (F2R (Float radix2 7074237752028440 (-52)) = IZR 7074237752028440 / IZR 2251799813685248 / 2); unfold F2R; cbn [Fnum Fexp]; change (bpow radix2 (-52)) with (/ 4503599627370496); field). rewrite E. lra.
  - assert (LE : B2R rear <= B2R R0). { destruct (Rle_lt_dec (B2R rear) (B2R R0)) as [Y|Y]; [exact Y|]. apply dltb in Y; auto. congruence. }
    destruct (sq_mono _ _ acc rear R0 Fe FR ltac:(lra) ltac:(lra)) as [F0 M]. destruct (sq_near _ _ acc R0 FR BR) as [Fs Ns]. set (s := dsq R0) in *. set (e := dsq rear) in *. set (r := B2R R0) in *.
    assert (Br2 : bpow radix2 (-200) <= r * r <= bpow radix2 200). { change (-200)%Z with (-100 + -100)%Z. change 200%Z with (100 + 100)%Z. rewrite !bpow_plus. split; apply Rmult_le_compat; lra. }
    change (bpow radix2 (-52)) with (/ 4503599627370496) in Ns. apply Rabs_le_inv in Ns. pose proof (bpow_gt_0 radix2 (-200)) as P200. assert (P201 : 2 * bpow radix2 200 = bpow radix2 201) by (change 201%Z with (1 + 200)%Z; rewrite bpow_plus; reflexivity).
    destruct (sub_real s e 201 Fs F0 ltac:(lia)) as [Fd Ed]; [rewrite Rabs_pos_eq; lra|].
    assert (Sd : Bsign (d_sub s e) = false). { pose proof (Bminus_correct 53 1024 prec53 emax1024 mode_NE s e Fs F0) as C. rewrite (rnd53_small _ 201) in C; [|lia|rewrite Rabs_pos_eq; lra]. destruct C as (_ & _ & C). change (@Bminus 53 1024 prec53 emax1024 mode_NE s e) with (d_sub s e) in C. rewrite C. pose proof (positive_sign s ltac:(lra)) as Ps. rewrite Ps. destruct (Rcompare_spec (B2R s - B2R e) 0); [lra|reflexivity|reflexivity]. }
    set (d := d_sub s e) in *. assert (Pd : 0 <= B2R d) by (rewrite Ed; apply round_ge_generic; auto with typeclass_instances; [apply generic_format_0|lra]).
    destruct (sqrt_real d Fd Pd Sd) as [Fq Eq]. destruct Pd as [Pd|Zd].
    + assert (Ld : bpow radix2 (-1074) <= B2R d). { pose proof (@abs_B2R_ge_emin 53 1024 d) as G. destruct d as [sd|sd| |sd m x b]; cbn [B2R] in Pd; try lra. specialize (G eq_refl). rewrite Rabs_pos_eq in G by (cbn [B2R]; lra). exact G. }
      assert (Lq : bpow radix2 (-537) <= B2R (d_sqrt d)). { rewrite Eq. apply round_ge_generic; auto with typeclass_instances; [apply format53_pow; lia|]. rewrite <- (sqrt_Rsqr (bpow radix2 (-537))) by apply bpow_ge_0. apply sqrt_le_1_alt. unfold Rsqr. rewrite <- bpow_plus. exact Ld. }
      pose proof (bpow_gt_0 radix2 (-537)). assert (Bg : 0 <= B2R W / B2R (d_sqrt d) <= bpow radix2 637). { split; [apply Rmult_le_pos; [lra|apply Rlt_le, Rinv_0_lt_compat; lra]|]. replace (bpow radix2 637) with (bpow radix2 100 * / bpow radix2 (-537)) by (rewrite <- bpow_opp; cbn [Z.opp]; rewrite <- bpow_plus; reflexivity). apply Rmult_le_compat; [lra|apply Rlt_le, Rinv_0_lt_compat; lra|lra|apply Rinv_le_contravar; lra]. }
      destruct (div_real W (d_sqrt d) 637 FW ltac:(lra) ltac:(lia)) as [Fg Eg]; [rewrite Rabs_pos_eq; lra|]. assert (Pg : 0 <= B2R (d_div W (d_sqrt d))) by (rewrite Eg; apply round_ge_generic; auto with typeclass_instances; [apply generic_format_0|lra]).
      destruct (atan_range _ _ acc _ Fg Pg) as [Fa Ea]. split; [exact Fa|]. change (bpow radix2 (-50)) with (/ 1125899906842624) in Ea. lra.
    + assert (Ed0 : d = B754_zero false). { destruct d as [sd|sd| |sd m x b]; cbn [B2R Bsign is_finite] in *; try discriminate; [congruence|]. exfalso. pose proof (F2R_gt_0 radix2 (Float radix2 (Z.pos m) x)) as Q. rewrite Sd in Zd. cbn [SpecFloat.cond_Zopp] in Zd. assert (0 < F2R (Float radix2 (Z.pos m) x)) by (apply Q; cbn; lia). lra. }
      assert (EW : d_div W (d_sqrt d) = B754_infinity false). { rewrite Ed0. pose proof (positive_sign W ltac:(lra)) as SW. destruct W as [sw|sw| |sw m x b]; cbn [B2R Bsign is_finite] in *; try discriminate; [exfalso; lra|]. rewrite SW. reflexivity. }
      rewrite EW. destruct (atan_top _ _ acc) as [Fa Na]. split; [exact Fa|]. change (bpow radix2 (-50)) with (/ 1125899906842624) in Na. apply Rabs_le_inv in Na. lra.
Qed.

(** * The inputs *)

Lemma half_real i : (i < 2 ^ 30)%nat -> is_finite (d_div (d_of (Z.of_nat i + 1) 0) (d_of 2 0)) = true /\ B2R (d_div (d_of (Z.of_nat i + 1) 0) (d_of 2 0)) = (INR i + 1) / 2.
Proof using.
  clear. intros Hi. assert (Zi : (0 <= Z.of_nat i < 2 ^ 30)%Z). { split; [lia|]. apply inj_lt in Hi. rewrite Nat2Z.inj_pow in Hi. exact Hi. } set (z := Z.of_nat i) in *. assert (Ez : IZR (z + 1) = INR i + 1) by (unfold z; rewrite plus_IZR, <- INR_IZR_INZ; reflexivity).
  change (2 ^ 30)%Z with 1073741824%Z in Zi. destruct (int_double (z + 1) ltac:(lia)) as [F E]. pose proof two_real as E2. assert (E2' : B2R (d_of 2 0) = 2) by exact E2.
  assert (B : 0 <= IZR (z + 1) <= 1073741824) by (split; [apply IZR_le; lia|change 1073741824 with (IZR 1073741824); apply IZR_le; lia]).
  destruct (div_real (d_of (z + 1) 0) (d_of 2 0) 31 F ltac:(rewrite E2'; lra) ltac:(lia)) as [Fq Eq]; [rewrite E, E2', Rabs_pos_eq by lra; change (bpow radix2 31) with 2147483648; lra|]. split; [exact Fq|]. rewrite Eq, E, E2', Ez. apply round_generic; auto with typeclass_instances.
  replace ((INR i + 1) / 2) with (F2R (Float radix2 (z + 1) (-1))) by (unfold F2R; cbn [Fnum Fexp]; rewrite Ez; change (bpow radix2 (-1)) with (/ 2); reflexivity). rewrite fexp53. apply generic_format_FLT. exists (Float radix2 (z + 1) (-1)); cbn [Fnum Fexp]; [reflexivity| |lia]. change (radix2 ^ 53)%Z with 9007199254740992%Z. lia.
Qed.

Section Inputs.
Variables W R0 : double.
Hypothesis HW : measure W.
Hypothesis HR : measure R0.
Notation a := (d_steering_angle dsq datan W d_zero R0).
Notation x := (B2R W / B2R R0).

Lemma angle_range : is_finite a = true /\ bpow radix2 (-300) <= B2R a <= 2.
Proof using acc HW HR.
  destruct (angle_near W R0 HW HR) as (F & P & N). split; [exact F|]. pose proof (atan_bound x) as [_ U]. pose proof pi_close as [_ P2]. pose proof pi_bounds. change (bpow radix2 (-52)) with (/ 4503599627370496) in P2. change (bpow radix2 (-47)) with (/ 140737488355328) in N. apply Rabs_le_inv in N.
  assert (L : 2 * bpow radix2 (-300) <= atan x).
  { destruct HW as [_ BW], HR as [_ BR]. pose proof (bpow_gt_0 radix2 (-100)) as P100. set (y := bpow radix2 (-200)). assert (Ly : y <= x). { unfold y, Rdiv. change (-200)%Z with (-100 + -100)%Z. rewrite bpow_plus. apply Rmult_le_compat; try lra. replace (bpow radix2 (-100)) with (/ bpow radix2 100) by (symmetry; change (-100)%Z with (- (100))%Z; apply bpow_opp). apply Rinv_le_contravar; lra. }
    assert (Py : 0 < y) by apply bpow_gt_0. assert (Y1 : y <= 1) by (change 1 with (bpow radix2 0); apply bpow_le; lia). pose proof (atan_small y ltac:(lra)) as [L1 _]. assert (y / 2 <= y / (1 + y * y)) by (unfold Rdiv; apply Rmult_le_compat_l; [lra|]; apply Rinv_le_contravar; nra).
    assert (atan y <= atan x) by (destruct Ly as [Y|Y]; [apply Rlt_le, atan_increasing; exact Y|rewrite Y; lra]). assert (8 * bpow radix2 (-300) <= y) by (change 8 with (bpow radix2 3); rewrite <- bpow_plus; apply bpow_le; lia). lra. }
  pose proof (bpow_gt_0 radix2 (-300)). lra.
Qed.

Lemma input_near i : (i < 2 ^ 30)%nat -> is_finite (d_input dsq datan W R0 i) = true /\ 0 < B2R (d_input dsq datan W R0 i) /\
  Rabs (B2R (d_input dsq datan W R0 i) - (INR i + 1) / 2 * B2R a) <= bpow radix2 (-52) * ((INR i + 1) / 2 * B2R a) /\ ((i <= 1)%nat -> B2R (d_input dsq datan W R0 i) <= B2R a) /\ (i = 1%nat -> B2R (d_input dsq datan W R0 i) = B2R a).
Proof using acc HW HR.
  intros Hi. destruct (half_real i Hi) as [Fh Eh]. destruct angle_range as [Fa Ba]. pose proof (pos_INR i) as Pi. pose proof (bpow_gt_0 radix2 (-300)) as P3. assert (Ii : INR i <= 1073741824). { replace 1073741824 with (INR (2 ^ 30)) by (rewrite INR_IZR_INZ, Nat2Z.inj_pow; reflexivity). apply le_INR. lia. }
  unfold d_input. set (h := d_div (d_of (Z.of_nat i + 1) 0) (d_of 2 0)) in *. set (p := (INR i + 1) / 2 * B2R a). assert (Bp : / 2 * bpow radix2 (-300) <= p <= bpow radix2 32). { unfold p. change (bpow radix2 32) with 4294967296. split; [apply Rmult_le_compat; lra|]. apply Rle_trans with (1073741825 * 2); [apply Rmult_le_compat; lra|lra]. }
  assert (Lp : bpow radix2 (-900) <= p). { apply Rle_trans with (2 := proj1 Bp). change (/ 2) with (bpow radix2 (-1)). rewrite <- bpow_plus. apply bpow_le. lia. } pose proof (bpow_gt_0 radix2 (-900)) as P9.
  destruct (dmul_real h a 32 Fh Fa ltac:(lia)) as [Fp Ep]; [rewrite Eh; fold p; rewrite Rabs_pos_eq; lra|]. rewrite Eh in Ep. fold p in Ep. split; [exact Fp|]. pose proof (relative53 p Lp) as Np. rewrite <- Ep in Np. split.
  - change (bpow radix2 (-52)) with (/ 4503599627370496) in Np. apply Rabs_le_inv in Np. lra.
  - split; [exact Np|]. split.
    + intros Hl. rewrite Ep. rewrite <- (rnd_double a). apply round_le; auto with typeclass_instances. unfold p. assert (INR i <= 1) by (replace 1 with (INR 1) by reflexivity; apply le_INR; exact Hl). rewrite <- (Rmult_1_l (B2R a)) at 2. apply Rmult_le_compat_r; lra.
    + intros ->. rewrite Ep. unfold p. replace ((INR 1 + 1) / 2 * B2R a) with (B2R a) by (cbn [INR]; field). apply rnd_double.
Qed.

(** The inputs of a number of motions: zero, and each half of the largest angle and its opposite. *)
Lemma inputs_list n : (n < 2 ^ 30)%nat -> length (d_inputs dsq datan W R0 n) = (1 + 2 * (n / 2))%nat /\
  (forall d, In d (d_inputs dsq datan W R0 n) <-> d = d_zero \/ exists i, (i < n / 2)%nat /\ (d = d_input dsq datan W R0 i \/ d = Bopp (d_input dsq datan W R0 i))).
Proof using.
  clear. intros Hn. unfold d_inputs. generalize (n / 2)%nat. intros k. split.
  - cbn [length]. assert (L : forall s, length (flat_map (fun i => let delta := d_input dsq datan W R0 i in [delta; Bopp delta]) (seq s k)) = (2 * k)%nat); [|rewrite L; lia]. induction k as [|k IH]; intros s; [reflexivity|]. cbn [seq flat_map app length]. rewrite IH. lia.
  - intros d. cbn [In]. rewrite in_flat_map. split.
    + intros [<- |(i & Hi & [<- |[<- |[]]])]; [left; reflexivity| |]; right; apply in_seq in Hi; exists i; (split; [lia|]); auto.
    + intros [-> |(i & Hi & [-> | ->])]; [left; reflexivity| |]; right; exists i; (split; [apply in_seq; lia|]); cbn; auto.
Qed.

Lemma within_limit n d : (n <= 5)%nat -> In d (d_inputs dsq datan W R0 n) -> is_finite d = true /\ Rabs (B2R d) <= B2R a.
Proof using acc HW HR.
  intros Hn I. assert (Hs : (5 < 2 ^ 30)%nat) by (apply Nat.lt_le_trans with (2 ^ 3)%nat; [cbn; lia|apply Nat.pow_le_mono_r; lia]). destruct (inputs_list n ltac:(lia)) as [_ L]. apply L in I. destruct angle_range as [_ Ba]. pose proof (bpow_gt_0 radix2 (-300)).
  destruct I as [-> |(i & Hi & Hd)]; [split; [reflexivity|]; change (B2R d_zero) with 0; rewrite Rabs_R0; lra|]. assert (Hi' : (i <= 1)%nat) by (assert (n / 2 <= 5 / 2)%nat by (apply Nat.div_le_mono; lia); change (5 / 2)%nat with 2%nat in *; lia).
  destruct (input_near i ltac:(lia)) as (F & P & _ & M & _). specialize (M Hi'). destruct Hd as [-> | ->]; [split; [exact F|]|rewrite is_finite_Bopp, B2R_Bopp, Rabs_Ropp; split; [exact F|]]; rewrite Rabs_pos_eq; lra.
Qed.

(** The curvature of the motions. *)
Lemma curvature_limit : x <= 16 -> 0 < B2R a < PI / 2 /\ Rabs (tan (B2R a) / B2R W - / B2R R0) <= bpow radix2 (-36) * / B2R R0.
Proof using acc HW HR.
  intros Hx. destruct (angle_near W R0 HW HR) as (F & P & N). change (bpow radix2 (-47)) with (/ 140737488355328) in N. destruct (tan_near x (B2R a) (/ 140737488355328) ltac:(lra) ltac:(lra) N) as [B T]. split; [exact B|]. destruct HW as [_ BW], HR as [_ BR]. pose proof (bpow_gt_0 radix2 (-100)).
  replace (tan (B2R a) / B2R W - / B2R R0) with ((tan (B2R a) - x) * / B2R W) by (field; lra). rewrite Rabs_mult, (Rabs_pos_eq (/ B2R W)) by (apply Rlt_le, Rinv_0_lt_compat; lra). apply Rle_trans with (2048 * / 140737488355328 * x * / B2R W); [apply Rmult_le_compat_r; [apply Rlt_le, Rinv_0_lt_compat; lra|exact T]|].
  change (bpow radix2 (-36)) with (/ 68719476736). right. field. lra.
Qed.
Lemma inputs_curvature n d : (n <= 5)%nat -> x <= 16 -> In d (d_inputs dsq datan W R0 n) -> Rabs (tan (B2R d) / B2R W) <= (1 + bpow radix2 (-36)) * / B2R R0.
Proof using acc HW HR.
  intros Hn Hx I. destruct (within_limit n d Hn I) as [_ L]. destruct (curvature_limit Hx) as [B N]. pose proof HW as [_ BW]. pose proof (bpow_gt_0 radix2 (-100)). assert (PI' : 0 < / B2R W) by (apply Rinv_0_lt_compat; lra).
  assert (M : forall y, 0 <= y <= B2R a -> 0 <= tan y <= tan (B2R a)). { intros y By. split; [destruct (Req_dec y 0) as [-> |Y]; [rewrite tan_0; lra|apply Rlt_le, tan_gt_0; lra]|]. destruct (Req_dec y (B2R a)) as [-> |Y]; [lra|]. apply Rlt_le, tan_increasing; lra. }
  assert (T : Rabs (tan (B2R d)) <= tan (B2R a)). { destruct (Rle_lt_dec 0 (B2R d)) as [Y|Y]; [rewrite (Rabs_pos_eq (B2R d)) in L by lra; destruct (M (B2R d) ltac:(lra)); rewrite Rabs_pos_eq; lra|]. rewrite Rabs_left in L by lra. destruct (M (- B2R d) ltac:(lra)) as [M1 M2]. rewrite tan_neg in M1, M2. rewrite Rabs_left1; lra. }
  unfold Rdiv. rewrite Rabs_mult, (Rabs_pos_eq (/ B2R W)) by lra. apply Rle_trans with (tan (B2R a) * / B2R W); [apply Rmult_le_compat_r; lra|]. apply Rabs_le_inv in N. unfold Rdiv in N. lra.
Qed.
End Inputs.
End Library.

(** A library that rounds correctly. *)
Definition plain_sq (x : double) : double := d_mul x x.
Definition plain_atan (x : double) : double := match x with B754_infinity false => d_half_pi | _ => SteeringFloat_proofs.rounded (atan (B2R x)) end.

Lemma plain_trusted : trusted plain_sq plain_atan.
Proof.
  assert (M : forall x, is_finite x = true -> 0 <= B2R x <= bpow radix2 100 -> is_finite (plain_sq x) = true /\ B2R (plain_sq x) = rnd53 (B2R x * B2R x)).
  { intros x F B. apply (dmul_real x x 200 F F ltac:(lia)). rewrite Rabs_pos_eq by (apply Rmult_le_pos; lra). change 200%Z with (100 + 100)%Z. rewrite bpow_plus. apply Rmult_le_compat; lra. }
  assert (A : forall x, is_finite x = true -> plain_atan x = SteeringFloat_proofs.rounded (atan (B2R x))) by (intros x F; destruct x as [s|[]| |s m e b]; try reflexivity; discriminate).
  assert (AB : forall x, 0 <= x -> 0 <= atan x <= 2). { intros x P. pose proof (atan_bound x) as [_ U]. pose proof pi_close as [_ P2]. pose proof pi_bounds. change (bpow radix2 (-52)) with (/ 4503599627370496) in P2. split; [|lra]. destruct P as [P|<-]; [rewrite <- atan_0; apply Rlt_le, atan_increasing; exact P|rewrite atan_0; lra]. }
  assert (AR : forall x, is_finite x = true -> 0 <= B2R x -> is_finite (plain_atan x) = true /\ B2R (plain_atan x) = rnd53 (atan (B2R x))).
  { intros x F P. rewrite (A x F). apply (SteeringFloat_proofs.rounded_real _ 1 ltac:(lia)). rewrite Rabs_pos_eq by (apply AB; exact P). apply AB. exact P. }
  split.
  - intros x F B. pose proof (bpow_gt_0 radix2 (-100)). destruct (M x F ltac:(lra)) as [F1 E1]. split; [exact F1|]. rewrite E1. apply relative53. apply Rle_trans with (bpow radix2 (-100) * bpow radix2 (-100)); [rewrite <- bpow_plus; apply bpow_le; lia|apply Rmult_le_compat; lra].
  - intros x y Fx Fy B By. destruct (M x Fx ltac:(lra)) as [F1 E1]. destruct (M y Fy ltac:(lra)) as [F2 E2]. split; [exact F1|]. rewrite E1, E2. split; [apply round_ge_generic; auto with typeclass_instances; [apply generic_format_0|apply Rmult_le_pos; lra]|]. apply round_le; auto with typeclass_instances. apply Rmult_le_compat; lra.
  - intros x F E. pose proof (bpow_ge_0 radix2 100). destruct (M x F ltac:(lra)) as [F1 E1]. split; [exact F1|]. rewrite E1, E, Rmult_0_l. apply round_0. auto with typeclass_instances.
  - intros x F B. pose proof (bpow_gt_0 radix2 (-300)) as P3. destruct (AR x F ltac:(lra)) as [F1 E1]. split; [exact F1|]. rewrite E1. assert (L : bpow radix2 (-900) <= atan (B2R x)).
    { set (y := bpow radix2 (-300)) in *. assert (Y1 : y <= 1) by (change 1 with (bpow radix2 0); apply bpow_le; lia). pose proof (atan_small y ltac:(lra)) as [L1 _]. assert (y / 2 <= y / (1 + y * y)) by (unfold Rdiv; apply Rmult_le_compat_l; [lra|]; apply Rinv_le_contravar; nra).
      assert (atan y <= atan (B2R x)) by (destruct B as [Y|Y]; [apply Rlt_le, atan_increasing; exact Y|rewrite Y; lra]). assert (2 * bpow radix2 (-900) <= y) by (change 2 with (bpow radix2 1); rewrite <- bpow_plus; apply bpow_le; lia). lra. }
    apply Rle_trans with (1 := relative53 _ L). apply Rmult_le_compat_r; [apply AB; lra|apply bpow_le; lia].
  - intros x F P. destruct (AR x F P) as [F1 E1]. split; [exact F1|]. destruct (AB _ P) as [L U]. rewrite E1. split; [apply round_ge_generic; auto with typeclass_instances; apply generic_format_0|].
    pose proof (CoordsFloat_proofs.err53 (atan (B2R x))) as R1. rewrite (Rabs_pos_eq (atan _)) in R1 by exact L. apply Rabs_le_inv in R1. pose proof (atan_bound (B2R x)) as [_ B]. assert (T : bpow radix2 (-1075) <= bpow radix2 (-53)) by (apply bpow_le; lia). change (bpow radix2 (-53)) with (/ 9007199254740992) in *. change (bpow radix2 (-50)) with (/ 1125899906842624). lra.
  - split; [vm_compute; reflexivity|]. cbn [plain_atan]. assert (E : B2R d_half_pi = pi_ / 2) by (rewrite pi_value; change (F2R (Float radix2 7074237752028440 (-52)) = IZR 7074237752028440 / IZR 2251799813685248 / 2); unfold F2R; cbn [Fnum Fexp]; change (bpow radix2 (-52)) with (/ 4503599627370496); field). rewrite E.
    pose proof pi_close as [P1 P2]. change (bpow radix2 (-52)) with (/ 4503599627370496) in P2. change (bpow radix2 (-50)) with (/ 1125899906842624). apply Rabs_le. lra.
Qed.
