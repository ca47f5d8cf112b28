(** The kinematic bicycle in double precision. *)
From Coq Require Import Reals ZArith Lra Lia.
From Flocq Require Import Core BinarySingleNaN.
From Verif Require Import Base CoordsFloat_model CoordsFloat_proofs StraightFloat_model StraightFloat_proofs ValidatorFloat_proofs StateValidFloat_model Bicycle_model
  SteeringFloat_model SteeringFloat_spec.
Local Open Scope R_scope.
#[local] Existing Instance prec53.
#[local] Existing Instance emax1024.
#[local] Existing Instance vexp53.
#[local] Existing Instance vrndne.

(** ** Sine and cosine do not stretch *)

Lemma lipschitz f f' : (forall x, derivable_pt_lim f x (f' x)) -> (forall x, Rabs (f' x) <= 1) -> forall a b, Rabs (f a - f b) <= Rabs (a - b).
Proof.
  intros D B. assert (L : forall a b, a < b -> Rabs (f a - f b) <= Rabs (a - b)).
  { intros a b H. destruct (MVT_cor2 f f' a b H (fun c _ => D c)) as (c & E & _). rewrite Rabs_minus_sym, E, Rabs_mult, (Rabs_minus_sym a b).
    pose proof (B c). pose proof (Rabs_pos (b - a)). rewrite <- (Rmult_1_l (Rabs (b - a))) at 2. apply Rmult_le_compat_r; lra. }
  intros a b. destruct (Rtotal_order a b) as [H|[-> | H]]; [now apply L| |rewrite Rabs_minus_sym, (Rabs_minus_sym a b); now apply L].
  unfold Rminus. rewrite !Rplus_opp_r. lra.
Qed.
Lemma sin_close a b : Rabs (sin a - sin b) <= Rabs (a - b).
Proof. apply (lipschitz sin cos); [exact derivable_pt_lim_sin|]. intros x. apply Rabs_le. pose proof (COS_bound x). lra. Qed.
Lemma cos_close a b : Rabs (cos a - cos b) <= Rabs (a - b).
Proof. apply (lipschitz cos (fun x => - sin x)); [exact derivable_pt_lim_cos|]. intros x. apply Rabs_le. pose proof (SIN_bound x). lra. Qed.

(** ** Units *)

Lemma u_tiny : 0 < u53 <= / 1000000.
Proof. split; [apply bpow_gt_0|]. change u53 with (/ 9007199254740992). lra. Qed.
Lemma two_u : bpow radix2 (-52) = 2 * u53.
Proof. change (-52)%Z with (1 + -53)%Z. rewrite bpow_plus. reflexivity. Qed.
Lemma eta_small : 0 < eta53 <= u53 * bpow radix2 (-200).
Proof. split; [apply bpow_gt_0|]. unfold u53. rewrite <- bpow_plus. apply bpow_le. lia. Qed.
Lemma nano : is_finite d_nano = true /\ bpow radix2 (-30) <= B2R d_nano <= / 999999999.
Proof.
  assert (E : B2R d_nano = IZR 4835703278458517 * bpow radix2 (-82)).
  { change (F2R (Float radix2 4835703278458517 (-82)) = IZR 4835703278458517 * bpow radix2 (-82)). reflexivity. }
  split; [reflexivity|]. rewrite E. change (bpow radix2 (-82)) with (/ 4835703278458516698824704). change (bpow radix2 (-30)) with (/ 1073741824). lra.
Qed.

(** ** A zero plus a number *)
Lemma zero_add x y : B2R x = 0 -> is_finite x = true -> is_finite y = true -> is_finite (d_add x y) = true /\ B2R (d_add x y) = B2R y.
Proof. intros Ex Fx Fy. destruct (dadd_fits x y Fx Fy) as [F E]; rewrite Ex, Rplus_0_l, rnd_double in *; [apply abs_B2R_lt_emax|auto]. Qed.
Lemma zero_div x y : B2R x = 0 -> is_finite x = true -> B2R y <> 0 -> is_finite (d_div x y) = true /\ B2R (d_div x y) = 0.
Proof.
  intros Ex Fx Hy. assert (Z : B2R x / B2R y = 0) by (rewrite Ex; unfold Rdiv; apply Rmult_0_l).
  destruct (div_real x y 0 Fx Hy) as [F E]; [lia|rewrite Z, Rabs_R0; apply bpow_ge_0|]. rewrite Z, round_0 in E; auto with typeclass_instances.
Qed.
Lemma div_one x y : B2R y = 1 -> is_finite x = true -> is_finite (d_div x y) = true /\ B2R (d_div x y) = B2R x.
Proof.
  intros Ey Fx. pose proof (Bdiv_correct 53 1024 prec53 emax1024 mode_NE x y) as C. rewrite Ey in C. specialize (C R1_neq_R0).
  replace (B2R x / 1) with (B2R x) in C by field. rewrite rnd_double, Rlt_bool_true in C by apply abs_B2R_lt_emax. destruct C as (C1 & C2 & _). split; [rewrite <- Fx; exact C2|exact C1].
Qed.

Section Steering.
Variables dsin dcos dtan datan : double -> double.
Hypothesis acc : accurate dsin dcos dtan datan.
Variables wheelbase rear : double.
Hypothesis Hw : bpow radix2 (-50) <= B2R wheelbase.
Hypothesis Fr : is_finite rear = true.
Hypothesis Hr : B2R rear = 0.

(** ** The curvature *)

Lemma wheelbase_pos : 0 < B2R wheelbase.
Proof. pose proof (bpow_gt_0 radix2 (-50)). lra. Qed.

Lemma beta_zero steering : is_finite steering = true -> Rabs (tan (B2R steering)) <= bpow radix2 60 ->
  is_finite (d_beta dtan datan wheelbase rear steering) = true /\ B2R (d_beta dtan datan wheelbase rear steering) = 0.
Proof.
  intros Fs Hs. pose proof wheelbase_pos as W. destruct (acc_tan _ _ _ _ acc steering Fs Hs) as [Ft _].
  destruct (dmul_zero rear (dtan steering) Hr Fr Ft) as [F1 E1]. destruct (zero_div _ wheelbase E1 F1) as [F2 E2]; [lra|].
  exact (acc_atan_0 _ _ _ _ acc _ F2 E2).
Qed.

Lemma rate_close steering : is_finite steering = true -> Rabs (tan (B2R steering)) <= bpow radix2 60 ->
  let k := B2R (d_rate dcos dtan datan wheelbase rear steering) in let e := tan (B2R steering) / B2R wheelbase in
  is_finite (d_rate dcos dtan datan wheelbase rear steering) = true /\ Rabs (k - e) <= bpow radix2 (-49) * Rabs e + bpow radix2 (-1000) /\ Rabs k <= bpow radix2 120.
Proof.
  intros Fs Hs k e. pose proof wheelbase_pos as W. destruct (acc_tan _ _ _ _ acc steering Fs Hs) as [Ft Et].
  destruct (beta_zero steering Fs Hs) as [Fb Eb]. destruct (acc_cos_0 _ _ _ _ acc _ Fb Eb) as [Fc Ec].
  destruct (dmul_one _ (dtan steering) Ec Fc Ft) as [Fm Em]. set (t := B2R (dtan steering)) in *. set (T := tan (B2R steering)) in *.
  set (w := B2R wheelbase) in *.
  assert (Hi : 0 < / w <= bpow radix2 50).
  { split; [now apply Rinv_0_lt_compat|]. replace (bpow radix2 50) with (/ bpow radix2 (-50)) by (rewrite <- bpow_opp; reflexivity). apply Rinv_le; [apply bpow_gt_0|exact Hw]. }
  assert (D : Rabs (t / w - e) <= bpow radix2 (-50) * Rabs e + bpow radix2 (-1024)).
  { unfold e. replace (t / w - T / w) with ((t - T) * / w) by (unfold Rdiv; ring). unfold Rdiv. rewrite !Rabs_mult, (Rabs_pos_eq (/ w)) by lra.
    apply Rle_trans with ((bpow radix2 (-50) * Rabs T + bpow radix2 (-1074)) * / w); [apply Rmult_le_compat_r; lra|].
    replace (bpow radix2 (-1024)) with (bpow radix2 (-1074) * bpow radix2 50) by (rewrite <- bpow_plus; reflexivity).
    assert (bpow radix2 (-1074) * / w <= bpow radix2 (-1074) * bpow radix2 50) by (apply Rmult_le_compat_l; [apply bpow_ge_0|lra]). lra. }
  assert (Be : Rabs e <= bpow radix2 110).
  { unfold e, Rdiv. rewrite Rabs_mult, (Rabs_pos_eq (/ w)) by lra. change 110%Z with (60 + 50)%Z. rewrite bpow_plus. apply Rmult_le_compat; try lra. apply Rabs_pos. }
  assert (T1 : bpow radix2 (-1024) <= 1) by (change 1 with (bpow radix2 0); apply bpow_le; lia).
  assert (P110 : 1 <= bpow radix2 110) by (change 1 with (bpow radix2 0); apply bpow_le; lia).
  assert (P120 : bpow radix2 120 = 1024 * bpow radix2 110) by (change 120%Z with (10 + 110)%Z; rewrite bpow_plus; reflexivity).
  assert (U50 : bpow radix2 (-50) = 8 * u53) by (change (-50)%Z with (3 + -53)%Z; rewrite bpow_plus; reflexivity).
  assert (U49 : bpow radix2 (-49) = 16 * u53) by (change (-49)%Z with (4 + -53)%Z; rewrite bpow_plus; reflexivity).
  pose proof u_tiny as U. pose proof (Rabs_pos e) as E0.
  assert (S : Rabs (t / w) <= 1.5 * Rabs e + bpow radix2 (-1024)).
  { replace (t / w) with ((t / w - e) + e) by ring. eapply Rle_trans; [apply Rabs_triang|].
    assert (bpow radix2 (-50) * Rabs e <= 0.5 * Rabs e) by (apply Rmult_le_compat_r; lra). lra. }
  unfold k, d_rate.
  destruct (div_real (d_mul (dcos (d_beta dtan datan wheelbase rear steering)) (dtan steering)) wheelbase 119 Fm) as [F E].
  { fold w. lra. } { lia. }
  { rewrite Em. fold w. assert (bpow radix2 120 = 2 * bpow radix2 119) by (change 120%Z with (1 + 119)%Z; rewrite bpow_plus; reflexivity). lra. }
  rewrite Em in E. fold w in E. split; [exact F|]. rewrite E. split.
  - pose proof (err53 (t / w)) as Q. replace (rnd53 (t / w) - e) with ((rnd53 (t / w) - t / w) + (t / w - e)) by ring. eapply Rle_trans; [apply Rabs_triang|].
    assert (u53 * Rabs (t / w) <= u53 * (1.5 * Rabs e + bpow radix2 (-1024))) by (apply Rmult_le_compat_l; lra).
    assert (u53 * bpow radix2 (-1024) <= bpow radix2 (-1024)). { rewrite <- (Rmult_1_l (bpow radix2 (-1024))) at 2. apply Rmult_le_compat_r; [apply bpow_ge_0|lra]. }
    assert (bpow radix2 (-1000) = 16777216 * bpow radix2 (-1024)) by (change (-1000)%Z with (24 + -1024)%Z; rewrite bpow_plus; reflexivity).
    assert (eta53 <= bpow radix2 (-1024)) by (apply bpow_le; lia). pose proof (bpow_gt_0 radix2 (-1024)). rewrite U50 in D. rewrite U49.
    assert (0 <= u53 * Rabs e) by (apply Rmult_le_pos; lra). lra.
  - apply rnd_le_abs; [lia|]. lra.
Qed.

(** ** A coordinate on the arc *)

Lemma arc_coordinate (x k df : double) D : is_finite x = true -> is_finite k = true -> is_finite df = true ->
  Rabs (B2R x) <= bpow radix2 60 -> bpow radix2 (-30) <= Rabs (B2R k) <= bpow radix2 120 -> Rabs (B2R df - D) <= 35 * u53 -> Rabs D <= 2 ->
  let r := d_add x (d_mul (d_div d_one k) df) in
  is_finite r = true /\ Rabs (B2R r - (B2R x + D / B2R k)) <= 64 * u53 * / Rabs (B2R k) + 2 * u53 * Rabs (B2R x).
Proof.
  intros Fx Fk Fd Hx Hk Hd HD r. pose proof u_tiny as U. pose proof eta_small as Et. destruct one_real as [F1 E1].
  set (K := B2R k) in *. set (X := B2R x) in *. set (w := / Rabs K).
  pose proof (bpow_gt_0 radix2 (-30)) as P30. assert (K0 : K <> 0). { intros Q. rewrite Q, Rabs_R0 in Hk. lra. }
  assert (Ew : Rabs (/ K) = w) by (unfold w; now apply Rabs_inv).
  assert (W : bpow radix2 (-120) <= w <= bpow radix2 30).
  { unfold w. split.
    - replace (bpow radix2 (-120)) with (/ bpow radix2 120) by (rewrite <- bpow_opp; reflexivity). apply Rinv_le; lra.
    - replace (bpow radix2 30) with (/ bpow radix2 (-30)) by (rewrite <- bpow_opp; reflexivity). apply Rinv_le; lra. }
  assert (Eta : eta53 <= u53 * w). { eapply Rle_trans; [apply Et|]. apply Rmult_le_compat_l; [lra|]. eapply Rle_trans; [|apply W]. apply bpow_le. lia. }
  assert (W0 : 0 < w). { pose proof (bpow_gt_0 radix2 (-120)). lra. }
  assert (UW : 0 < u53 * w) by (apply Rmult_lt_0_compat; lra).
  assert (UW2 : u53 * w <= / 1000000 * w) by (apply Rmult_le_compat_r; lra).
  (* the inverse *)
  destruct (div_real d_one k 30 F1 K0) as [Fi Ei]; [lia| |].
  { rewrite E1. unfold Rdiv. rewrite Rmult_1_l. fold K. rewrite Ew. lra. }
  rewrite E1 in Ei. unfold Rdiv in Ei. rewrite Rmult_1_l in Ei. fold K in Ei.
  set (inv := B2R (d_div d_one k)) in *.
  assert (Di : Rabs (inv - / K) <= 2 * (u53 * w)). { rewrite Ei. eapply Rle_trans; [apply err53|]. rewrite Ew. lra. }
  assert (Bi : Rabs inv <= 1.01 * w). { replace inv with ((inv - / K) + / K) by ring. eapply Rle_trans; [apply Rabs_triang|]. rewrite Ew. lra. }
  set (d := B2R df) in *.
  assert (Bd : Rabs d <= 2.01). { replace d with ((d - D) + D) by ring. eapply Rle_trans; [apply Rabs_triang|]. lra. }
  (* the product *)
  assert (Bp : Rabs (inv * d) <= 2.04 * w).
  { rewrite Rabs_mult. eapply Rle_trans; [apply Rmult_le_compat; [apply Rabs_pos|apply Rabs_pos|exact Bi|exact Bd]|]. lra. }
  assert (P32 : bpow radix2 32 = 4 * bpow radix2 30) by (change 32%Z with (2 + 30)%Z; rewrite bpow_plus; reflexivity).
  destruct (dmul_real (d_div d_one k) df 32 Fi Fd) as [Fp Ep]; [lia|fold inv d; lra|]. fold inv d in Ep.
  set (p := B2R (d_mul (d_div d_one k) df)) in *.
  assert (Dp : Rabs (p - inv * d) <= 3.04 * (u53 * w)).
  { rewrite Ep. eapply Rle_trans; [apply err53|]. assert (u53 * Rabs (inv * d) <= u53 * (2.04 * w)) by (apply Rmult_le_compat_l; lra). lra. }
  assert (Dq : Rabs (inv * d - D / K) <= 39.1 * (u53 * w)).
  { replace (inv * d - D / K) with ((inv - / K) * d + / K * (d - D)) by (unfold Rdiv; ring). eapply Rle_trans; [apply Rabs_triang|]. rewrite !Rabs_mult, Ew.
    assert (Rabs (inv - / K) * Rabs d <= 2 * (u53 * w) * 2.01) by (apply Rmult_le_compat; auto using Rabs_pos).
    assert (w * Rabs (d - D) <= w * (35 * u53)) by (apply Rmult_le_compat_l; lra). lra. }
  assert (Dr : Rabs (p - D / K) <= 43 * (u53 * w)).
  { replace (p - D / K) with ((p - inv * d) + (inv * d - D / K)) by ring. eapply Rle_trans; [apply Rabs_triang|]. lra. }
  assert (Bpp : Rabs p <= 2.1 * w). { replace p with ((p - inv * d) + inv * d) by ring. eapply Rle_trans; [apply Rabs_triang|]. lra. }
  (* the sum *)
  assert (P61 : bpow radix2 61 = 2 * bpow radix2 60) by (change 61%Z with (1 + 60)%Z; rewrite bpow_plus; reflexivity).
  assert (P60 : bpow radix2 60 = 1073741824 * bpow radix2 30) by (change 60%Z with (30 + 30)%Z; rewrite bpow_plus; reflexivity).
  assert (Bs : Rabs (X + p) <= Rabs X + 2.1 * w) by (eapply Rle_trans; [apply Rabs_triang|]; lra).
  destruct (add_real x (d_mul (d_div d_one k) df) 61 Fx Fp) as [F E]; [lia|fold X p; lra|]. fold X p in E.
  split; [exact F|]. fold r in E. 
  pose proof (plus53 x (d_mul (d_div d_one k) df)) as Ps. fold X p in Ps. rewrite <- E in Ps.
  replace (B2R r - (X + D / K)) with ((B2R r - (X + p)) + (p - D / K)) by ring. eapply Rle_trans; [apply Rabs_triang|].
  assert (u53 * Rabs (X + p) <= u53 * (Rabs X + 2.1 * w)) by (apply Rmult_le_compat_l; lra).
  assert (0 <= u53 * Rabs X) by (apply Rmult_le_pos; [lra|apply Rabs_pos]). fold w. lra.
Qed.

(** ** The heading *)

Lemma heading_close (th s k : double) : is_finite th = true -> is_finite s = true -> is_finite k = true -> Rabs (B2R th) <= 8 -> Rabs (B2R s * B2R k) <= 8 ->
  let h := d_add th (d_mul s k) in is_finite h = true /\ Rabs (B2R h - (B2R th + B2R s * B2R k)) <= 25 * u53 /\ Rabs (B2R h) <= 17.
Proof.
  intros Ft Fs Fk Ht Hs h. pose proof u_tiny as U. pose proof eta_small as Et.
  assert (Eta : eta53 <= 0.1 * u53).
  { assert (bpow radix2 (-200) <= bpow radix2 (-4)) by (apply bpow_le; lia). change (bpow radix2 (-4)) with (/ 16) in H.
    assert (u53 * bpow radix2 (-200) <= u53 * / 16) by (apply Rmult_le_compat_l; lra). lra. }
  destruct (dmul_real s k 3 Fs Fk) as [Fp Ep]; [lia|change (bpow radix2 3) with 8; exact Hs|]. pose proof (err53 (B2R s * B2R k)) as Q. rewrite <- Ep in Q.
  set (p := B2R (d_mul s k)) in *. set (q := B2R s * B2R k) in *. set (t := B2R th) in *.
  assert (u53 * Rabs q <= u53 * 8) by (apply Rmult_le_compat_l; lra).
  assert (B : Rabs (t + p) <= 16.01).
  { replace (t + p) with (t + (p - q) + q) by ring. eapply Rle_trans; [apply Rabs_triang|]. pose proof (Rabs_triang t (p - q)). lra. }
  destruct (add_real th (d_mul s k) 5 Ft Fp) as [F E]; [lia|fold t p; change (bpow radix2 5) with 32; lra|]. fold t p in E. split; [exact F|].
  pose proof (plus53 th (d_mul s k)) as Ps. fold t p in Ps. rewrite <- E in Ps. change (B2R (d_add th (d_mul s k))) with (B2R h) in Ps.
  assert (u53 * Rabs (t + p) <= u53 * 16.01) by (apply Rmult_le_compat_l; lra).
  split.
  - replace (B2R h - (t + q)) with ((B2R h - (t + p)) + (p - q)) by ring. eapply Rle_trans; [apply Rabs_triang|]. lra.
  - replace (B2R h) with ((B2R h - (t + p)) + (t + p)) by ring. eapply Rle_trans; [apply Rabs_triang|]. lra.
Qed.

(** ** The straight line *)

Lemma line_coordinate (x s c : double) C : is_finite x = true -> is_finite s = true -> is_finite c = true ->
  Rabs (B2R x) <= bpow radix2 60 -> Rabs (B2R s) <= bpow radix2 60 -> Rabs (B2R c - C) <= 2 * u53 -> Rabs C <= 1 ->
  let r := d_add x (d_mul s c) in
  is_finite r = true /\ Rabs (B2R r - (B2R x + B2R s * C)) <= 8 * u53 * Rabs (B2R s) + 2 * u53 * Rabs (B2R x) + bpow radix2 (-1000).
Proof.
  intros Fx Fs Fc Hx Hs Hc HC r. pose proof u_tiny as U. set (X := B2R x) in *. set (S := B2R s) in *. set (c' := B2R c) in *.
  assert (S0 := Rabs_pos S). assert (US : 0 <= u53 * Rabs S) by (apply Rmult_le_pos; lra).
  assert (Bc : Rabs c' <= 1.01). { replace c' with ((c' - C) + C) by ring. eapply Rle_trans; [apply Rabs_triang|]. lra. }
  assert (Bp : Rabs (S * c') <= 1.01 * Rabs S). { rewrite Rabs_mult, Rmult_comm. apply Rmult_le_compat_r; lra. }
  assert (P62 : bpow radix2 62 = 4 * bpow radix2 60) by (change 62%Z with (2 + 60)%Z; rewrite bpow_plus; reflexivity).
  assert (P60 : 1 <= bpow radix2 60) by (change 1 with (bpow radix2 0); apply bpow_le; lia).
  destruct (dmul_real s c 62 Fs Fc) as [Fp Ep]; [lia|fold S c'; lra|]. fold S c' in Ep. pose proof (err53 (S * c')) as Q. rewrite <- Ep in Q.
  set (p := B2R (d_mul s c)) in *. assert (u53 * Rabs (S * c') <= u53 * (1.01 * Rabs S)) by (apply Rmult_le_compat_l; lra).
  assert (Eta : eta53 <= / 1000000). { pose proof eta_small as Et. assert (bpow radix2 (-200) <= 1) by (change 1 with (bpow radix2 0); apply bpow_le; lia).
    assert (u53 * bpow radix2 (-200) <= u53 * 1) by (apply Rmult_le_compat_l; lra). lra. }
  assert (Eta2 : 2 * eta53 <= bpow radix2 (-1000)). { unfold eta53. change 2 with (bpow radix2 1). rewrite <- bpow_plus. apply bpow_le. lia. }
  assert (USs : u53 * Rabs S <= / 1000000 * Rabs S) by (apply Rmult_le_compat_r; lra).
  assert (Dp : Rabs (p - S * C) <= 3.02 * (u53 * Rabs S) + eta53).
  { replace (p - S * C) with ((p - S * c') + S * (c' - C)) by ring. eapply Rle_trans; [apply Rabs_triang|]. rewrite (Rabs_mult S).
    assert (Rabs S * Rabs (c' - C) <= Rabs S * (2 * u53)) by (apply Rmult_le_compat_l; lra). lra. }
  assert (Bpp : Rabs p <= 1.02 * Rabs S + eta53). { replace p with ((p - S * c') + S * c') by ring. eapply Rle_trans; [apply Rabs_triang|]. lra. }
  assert (Bs : Rabs (X + p) <= Rabs X + (1.02 * Rabs S + eta53)) by (eapply Rle_trans; [apply Rabs_triang|]; lra).
  destruct (add_real x (d_mul s c) 62 Fx Fp) as [F E]; [lia|fold X p; lra|]. fold X p in E. split; [exact F|].
  pose proof (plus53 x (d_mul s c)) as Ps. fold X p in Ps. rewrite <- E in Ps. fold r in Ps.
  replace (B2R r - (X + S * C)) with ((B2R r - (X + p)) + (p - S * C)) by ring. eapply Rle_trans; [apply Rabs_triang|].
  assert (u53 * Rabs (X + p) <= u53 * (Rabs X + (1.02 * Rabs S + eta53))) by (apply Rmult_le_compat_l; lra).
  assert (u53 * eta53 <= 1 * eta53) by (apply Rmult_le_compat_r; [apply bpow_ge_0|lra]).
  assert (0 <= u53 * Rabs X) by (apply Rmult_le_pos; [lra|apply Rabs_pos]). lra.
Qed.

(** ** A motion *)

Definition travelled (steering dist : double) (dir : direction) : double :=
  d_div (match dir with Backward => Bopp dist | _ => dist end) (dcos (d_beta dtan datan wheelbase rear steering)).
Lemma travelled_real steering dist dir : is_finite steering = true -> Rabs (tan (B2R steering)) <= bpow radix2 60 -> is_finite dist = true ->
  is_finite (travelled steering dist dir) = true /\ B2R (travelled steering dist dir) = signed dir (B2R dist).
Proof.
  intros Fs Hs Fd. destruct (beta_zero steering Fs Hs) as [Fb Eb]. destruct (acc_cos_0 _ _ _ _ acc _ Fb Eb) as [Fc Ec]. unfold travelled.
  destruct (div_one (match dir with Backward => Bopp dist | _ => dist end) _ Ec) as [F E]; [destruct dir; rewrite ?is_finite_Bopp; exact Fd|].
  split; [exact F|]. eapply eq_trans; [exact E|]. destruct dir; cbn [signed]; rewrite ?B2R_Bopp; reflexivity.
Qed.

(** The library at the sum of a zero and a heading. *)
Lemma sin_at beta th t e : B2R beta = 0 -> is_finite beta = true -> is_finite th = true -> Rabs (B2R th) <= 17 -> Rabs (B2R th - t) <= e ->
  is_finite (dsin (d_add beta th)) = true /\ Rabs (B2R (dsin (d_add beta th)) - sin t) <= 2 * u53 + e.
Proof.
  intros Eb Fb Ft Ht He. destruct (zero_add beta th Eb Fb Ft) as [F E]. destruct (acc_sin _ _ _ _ acc _ F) as [G A]; [rewrite E; lra|]. split; [exact G|].
  rewrite E, two_u in A. replace (B2R (dsin (d_add beta th)) - sin t) with ((B2R (dsin (d_add beta th)) - sin (B2R th)) + (sin (B2R th) - sin t)) by ring.
  eapply Rle_trans; [apply Rabs_triang|]. pose proof (sin_close (B2R th) t). lra.
Qed.
Lemma cos_at beta th t e : B2R beta = 0 -> is_finite beta = true -> is_finite th = true -> Rabs (B2R th) <= 17 -> Rabs (B2R th - t) <= e ->
  is_finite (dcos (d_add beta th)) = true /\ Rabs (B2R (dcos (d_add beta th)) - cos t) <= 2 * u53 + e.
Proof.
  intros Eb Fb Ft Ht He. destruct (zero_add beta th Eb Fb Ft) as [F E]. destruct (acc_cos _ _ _ _ acc _ F) as [G A]; [rewrite E; lra|]. split; [exact G|].
  rewrite E, two_u in A. replace (B2R (dcos (d_add beta th)) - cos t) with ((B2R (dcos (d_add beta th)) - cos (B2R th)) + (cos (B2R th) - cos t)) by ring.
  eapply Rle_trans; [apply Rabs_triang|]. pose proof (cos_close (B2R th) t). lra.
Qed.

(** The difference of two values of the library. *)
Lemma spread (a b : double) A B : is_finite a = true -> is_finite b = true -> Rabs (B2R a - A) <= 27 * u53 -> Rabs (B2R b - B) <= 2 * u53 -> -1 <= A <= 1 -> -1 <= B <= 1 ->
  is_finite (d_sub a b) = true /\ Rabs (B2R (d_sub a b) - (A - B)) <= 35 * u53.
Proof.
  intros Fa Fb Ha Hb HA HB. pose proof u_tiny as U. apply Rabs_le_inv in Ha. apply Rabs_le_inv in Hb.
  assert (D : Rabs (B2R a - B2R b) <= 2.1) by (apply Rabs_le; lra).
  destruct (sub_real a b 2 Fa Fb) as [F E]; [lia|change (bpow radix2 2) with 4; lra|]. split; [exact F|].
  pose proof (plus53 a (Bopp b)) as P. rewrite B2R_Bopp in P. change (B2R a + - B2R b) with (B2R a - B2R b) in P. rewrite <- E in P.
  assert (u53 * Rabs (B2R a - B2R b) <= u53 * 2.1) by (apply Rmult_le_compat_l; lra). apply Rabs_le. 
  assert (Q : Rabs (B2R (d_sub a b) - (B2R a - B2R b)) <= 2.1 * u53) by lra. apply Rabs_le_inv in Q. lra.
Qed.
Lemma spread_add (a b : double) A B : is_finite a = true -> is_finite b = true -> Rabs (B2R a - A) <= 27 * u53 -> Rabs (B2R b - B) <= 2 * u53 -> -1 <= A <= 1 -> -1 <= B <= 1 ->
  is_finite (d_add (Bopp a) b) = true /\ Rabs (B2R (d_add (Bopp a) b) - (B - A)) <= 35 * u53.
Proof.
  intros Fa Fb Ha Hb HA HB. pose proof u_tiny as U. apply Rabs_le_inv in Ha. apply Rabs_le_inv in Hb.
  assert (D : Rabs (B2R (Bopp a) + B2R b) <= 2.1) by (rewrite B2R_Bopp; apply Rabs_le; lra). assert (Fo : is_finite (Bopp a) = true) by (rewrite is_finite_Bopp; exact Fa).
  destruct (add_real (Bopp a) b 2 Fo Fb) as [F E]; [lia|change (bpow radix2 2) with 4; lra|]. split; [exact F|].
  pose proof (plus53 (Bopp a) b) as P. rewrite <- E in P.
  assert (u53 * Rabs (B2R (Bopp a) + B2R b) <= u53 * 2.1) by (apply Rmult_le_compat_l; lra). 
  assert (Q : Rabs (B2R (d_add (Bopp a) b) - (B2R (Bopp a) + B2R b)) <= 2.1 * u53) by lra. rewrite B2R_Bopp in Q. apply Rabs_le_inv in Q. apply Rabs_le. lra.
Qed.

Lemma steer_close from steering dist dir : numbers from -> is_finite steering = true -> is_finite dist = true ->
  Rabs (tan (B2R steering)) <= bpow radix2 60 -> Rabs (B2R (d_x from)) <= bpow radix2 60 -> Rabs (B2R (d_y from)) <= bpow radix2 60 -> Rabs (B2R (d_theta from)) <= 8 ->
  Rabs (B2R dist) <= bpow radix2 60 -> Rabs (B2R dist * (tan (B2R steering) / B2R wheelbase)) <= 7 ->
  let to := d_constant_steer dsin dcos dtan datan wheelbase rear from steering dist dir in
  let s := signed dir (B2R dist) in
  numbers to /\
  exists k, Rabs (k - tan (B2R steering) / B2R wheelbase) <= bpow radix2 (-49) * Rabs (tan (B2R steering) / B2R wheelbase) + bpow radix2 (-1000) /\
    (bpow radix2 (-30) <= Rabs k /\
     at_end_of_arc (bpow radix2 (-47) * / Rabs k + bpow radix2 (-52) * (Rabs (B2R (d_x from)) + Rabs (B2R (d_y from)))) (bpow radix2 (-48)) k s from to
     \/ Rabs k <= / 999999999 /\
     at_end_of_line (bpow radix2 (-50) * Rabs s + bpow radix2 (-52) * (Rabs (B2R (d_x from)) + Rabs (B2R (d_y from))) + bpow radix2 (-1000)) s from to).
Proof.
  intros (Fx & Fy & Ft) Fs Fd Hs Hx Hy Ht Hd Hk to s. pose proof u_tiny as U.
  destruct (rate_close steering Fs Hs) as (Fk & Ck & Bk). destruct (beta_zero steering Fs Hs) as [Fb Eb]. destruct (travelled_real steering dist dir Fs Hs Fd) as [Fv Ev].
  fold s in Ev. assert (Bs : Rabs s = Rabs (B2R dist)) by (unfold s; destruct dir; cbn [signed]; rewrite ?Rabs_Ropp; reflexivity).
  set (rate := d_rate dcos dtan datan wheelbase rear steering) in *. set (k := B2R rate) in *. set (e := tan (B2R steering) / B2R wheelbase) in *.
  set (beta := d_beta dtan datan wheelbase rear steering) in *. set (v := travelled steering dist dir) in *.
  assert (Bsk : Rabs (s * k) <= 8).
  { replace (s * k) with (s * (k - e) + s * e) by ring. eapply Rle_trans; [apply Rabs_triang|]. rewrite !Rabs_mult, Bs. rewrite Rabs_mult in Hk.
    assert (Q : Rabs (B2R dist) * Rabs (k - e) <= Rabs (B2R dist) * (bpow radix2 (-49) * Rabs e + bpow radix2 (-1000))) by (apply Rmult_le_compat_l; [apply Rabs_pos|exact Ck]).
    assert (Rabs (B2R dist) * bpow radix2 (-1000) <= bpow radix2 60 * bpow radix2 (-1000)) by (apply Rmult_le_compat_r; [apply bpow_ge_0|exact Hd]).
    assert (bpow radix2 60 * bpow radix2 (-1000) <= bpow radix2 (-2)) by (rewrite <- bpow_plus; apply bpow_le; lia). change (bpow radix2 (-2)) with (/ 4) in *.
    assert (bpow radix2 (-49) * (Rabs (B2R dist) * Rabs e) <= / 100 * 7).
    { apply Rmult_le_compat; [apply bpow_ge_0|apply Rmult_le_pos; apply Rabs_pos| |exact Hk]. change (bpow radix2 (-49)) with (/ 562949953421312). lra. }
    lra. }
  destruct nano as [Fn Bn]. assert (Fa : is_finite (Babs rate) = true) by (rewrite is_finite_Babs; exact Fk).
  assert (U47 : bpow radix2 (-47) = 64 * u53) by (change (-47)%Z with (6 + -53)%Z; rewrite bpow_plus; reflexivity).
  assert (U48 : bpow radix2 (-48) = 32 * u53) by (change (-48)%Z with (5 + -53)%Z; rewrite bpow_plus; reflexivity).
  assert (U50 : bpow radix2 (-50) = 8 * u53) by (change (-50)%Z with (3 + -53)%Z; rewrite bpow_plus; reflexivity).
  pose proof two_u as U52. assert (X0 := Rabs_pos (B2R (d_x from))). assert (Y0 := Rabs_pos (B2R (d_y from))).
  assert (UX : 0 <= u53 * Rabs (B2R (d_x from))) by (apply Rmult_le_pos; lra). assert (UY : 0 <= u53 * Rabs (B2R (d_y from))) by (apply Rmult_le_pos; lra).
  set (th := d_theta from) in *.
  destruct (Bltb d_nano (Babs rate)) eqn:Eb1.
  - assert (K30 : bpow radix2 (-30) <= Rabs k). { apply dltb in Eb1; auto. rewrite B2R_Babs in Eb1. fold k in Eb1. lra. }
    set (h := d_add th (d_mul v rate)).
    assert (Et : to = DPose (d_add (d_x from) (d_mul (d_div d_one rate) (d_sub (dsin (d_add beta h)) (dsin (d_add beta th)))))
        (d_add (d_y from) (d_mul (d_div d_one rate) (d_add (Bopp (dcos (d_add beta h))) (dcos (d_add beta th))))) h).
    { unfold to, d_constant_steer. fold beta. fold rate. rewrite Eb1. reflexivity. }
    destruct (heading_close th v rate Ft Fv Fk) as (Fh & Ch & Bh); [exact Ht|rewrite Ev; exact Bsk|]. fold h in Fh, Ch, Bh. rewrite Ev in Ch. fold k in Ch.
    destruct (sin_at beta h _ _ Eb Fb Fh Bh Ch) as [Fsh Csh]. destruct (cos_at beta h _ _ Eb Fb Fh Bh Ch) as [Fch Cch].
    assert (R0 : Rabs (B2R th - B2R th) <= 0) by (unfold Rminus; rewrite Rplus_opp_r, Rabs_R0; lra).
    destruct (sin_at beta th (B2R th) 0 Eb Fb Ft) as [Fst Cst]; [lra|exact R0|]. destruct (cos_at beta th (B2R th) 0 Eb Fb Ft) as [Fct Cct]; [lra|exact R0|].
    set (t := B2R th + s * k) in *. pose proof (SIN_bound t). pose proof (COS_bound t). pose proof (SIN_bound (B2R th)). pose proof (COS_bound (B2R th)).
    destruct (spread _ _ (sin t) (sin (B2R th)) Fsh Fst) as [Fdx Cdx]; try lra. destruct (spread_add _ _ (cos t) (cos (B2R th)) Fch Fct) as [Fdy Cdy]; try lra.
    destruct (arc_coordinate (d_x from) rate _ (sin t - sin (B2R th)) Fx Fk Fdx Hx) as [Frx Crx]; [fold k; lra|exact Cdx|apply Rabs_le; lra|].
    destruct (arc_coordinate (d_y from) rate _ (cos (B2R th) - cos t) Fy Fk Fdy Hy) as [Fry Cry]; [fold k; lra|exact Cdy|apply Rabs_le; lra|].
    fold k in Crx, Cry. rewrite Et. split; [repeat split; assumption|]. exists k. split; [exact Ck|]. left. split; [exact K30|].
    unfold at_end_of_arc. cbn [d_x d_y d_theta]. fold th. fold t. rewrite U47, U48, U52. split; [lra|]. split; [lra|]. lra.
  - assert (K30 : Rabs k <= B2R d_nano). { apply Rnot_lt_le. intros Q. unfold k in Q. rewrite <- B2R_Babs in Q. apply dltb in Q; auto. congruence. }
    assert (Et : to = DPose (d_add (d_x from) (d_mul v (dcos th))) (d_add (d_y from) (d_mul v (dsin th))) th).
    { unfold to, d_constant_steer. fold beta. fold rate. rewrite Eb1. reflexivity. }
    destruct (acc_sin _ _ _ _ acc th Ft) as [Fsn Csn]; [lra|]. destruct (acc_cos _ _ _ _ acc th Ft) as [Fcn Ccn]; [lra|]. rewrite two_u in Csn, Ccn.
    assert (Hv : Rabs (B2R v) <= bpow radix2 60) by (rewrite Ev, Bs; exact Hd).
    destruct (line_coordinate (d_x from) v (dcos th) (cos (B2R th)) Fx Fv Fcn Hx Hv Ccn) as [Frx Crx]; [apply Rabs_le; apply COS_bound|].
    destruct (line_coordinate (d_y from) v (dsin th) (sin (B2R th)) Fy Fv Fsn Hy Hv Csn) as [Fry Cry]; [apply Rabs_le; apply SIN_bound|].
    rewrite Ev in Crx, Cry. rewrite Et. split; [repeat split; assumption|]. exists k. split; [exact Ck|]. right. split; [lra|].
    unfold at_end_of_line. cbn [d_x d_y d_theta]. fold th. rewrite U50, U52. split; [lra|]. split; [lra|]. reflexivity.
Qed.

(** ** No motion *)

Lemma same_double (a b : double) : is_finite a = true -> is_finite b = true -> B2R a = B2R b -> B2R a <> 0 -> a = b.
Proof.
  intros Fa Fb E N. apply B2R_inj; [| |exact E].
  - destruct a; try discriminate; [cbn in N; lra|reflexivity].
  - rewrite E in N. destruct b; try discriminate; [cbn in N; lra|reflexivity].
Qed.

(** The library gives one value for two headings that are the same number. *)
Lemma sin_same a b : is_finite a = true -> is_finite b = true -> B2R a = B2R b -> B2R (dsin a) = B2R (dsin b).
Proof.
  intros Fa Fb E. destruct (Req_dec (B2R a) 0) as [Z|N]; [|now rewrite (same_double a b Fa Fb E N)].
  destruct (acc_sin_0 _ _ _ _ acc a Fa Z) as [_ ->]. destruct (acc_sin_0 _ _ _ _ acc b Fb) as [_ ->]; [now rewrite <- E|]. reflexivity.
Qed.
Lemma cos_same a b : is_finite a = true -> is_finite b = true -> B2R a = B2R b -> B2R (dcos a) = B2R (dcos b).
Proof.
  intros Fa Fb E. destruct (Req_dec (B2R a) 0) as [Z|N]; [|now rewrite (same_double a b Fa Fb E N)].
  destruct (acc_cos_0 _ _ _ _ acc a Fa Z) as [_ ->]. destruct (acc_cos_0 _ _ _ _ acc b Fb) as [_ ->]; [now rewrite <- E|]. reflexivity.
Qed.

Lemma add_zero x y : B2R y = 0 -> is_finite x = true -> is_finite y = true -> is_finite (d_add x y) = true /\ B2R (d_add x y) = B2R x.
Proof. intros Ey Fx Fy. destruct (dadd_fits x y Fx Fy) as [F E]; rewrite Ey, Rplus_0_r, rnd_double in *; [apply abs_B2R_lt_emax|auto]. Qed.
Lemma mul_zero x y : B2R y = 0 -> is_finite x = true -> is_finite y = true -> is_finite (d_mul x y) = true /\ B2R (d_mul x y) = 0.
Proof.
  intros Ey Fx Fy. destruct (dmul_fits x y Fx Fy) as [F E]; rewrite Ey, Rmult_0_r, round_0 in *; auto with typeclass_instances. rewrite Rabs_R0. apply bpow_gt_0.
Qed.
Lemma sub_same x y : is_finite x = true -> is_finite y = true -> B2R x = B2R y -> is_finite (d_sub x y) = true /\ B2R (d_sub x y) = 0.
Proof.
  intros Fx Fy E. destruct (sub_real x y 0 Fx Fy) as [F G]; [lia| |]; rewrite E in *; unfold Rminus in *; rewrite Rplus_opp_r in *; [rewrite Rabs_R0; apply bpow_ge_0|].
  rewrite round_0 in G; auto with typeclass_instances.
Qed.

Lemma no_motion from steering dist dir : numbers from -> is_finite steering = true -> is_finite dist = true -> Rabs (tan (B2R steering)) <= bpow radix2 60 ->
  Rabs (B2R (d_theta from)) <= 32 -> B2R dist = 0 ->
  let to := d_constant_steer dsin dcos dtan datan wheelbase rear from steering dist dir in
  numbers to /\ B2R (d_x to) = B2R (d_x from) /\ B2R (d_y to) = B2R (d_y from) /\ B2R (d_theta to) = B2R (d_theta from).
Proof.
  intros (Fx & Fy & Ft) Fs Fd Hs Ht Hd to. destruct one_real as [F1 E1].
  destruct (rate_close steering Fs Hs) as (Fk & _ & _). destruct (beta_zero steering Fs Hs) as [Fb Eb]. destruct (travelled_real steering dist dir Fs Hs Fd) as [Fv Ev].
  assert (Zv : B2R (travelled steering dist dir) = 0). { rewrite Ev, Hd. destruct dir; cbn [signed]; lra. }
  set (rate := d_rate dcos dtan datan wheelbase rear steering) in *. set (beta := d_beta dtan datan wheelbase rear steering) in *. set (v := travelled steering dist dir) in *.
  set (th := d_theta from) in *. destruct nano as [Fn Bn]. assert (Fa : is_finite (Babs rate) = true) by (rewrite is_finite_Babs; exact Fk).
  destruct (Bltb d_nano (Babs rate)) eqn:Eb1.
  - set (h := d_add th (d_mul v rate)).
    assert (Et : to = DPose (d_add (d_x from) (d_mul (d_div d_one rate) (d_sub (dsin (d_add beta h)) (dsin (d_add beta th)))))
        (d_add (d_y from) (d_mul (d_div d_one rate) (d_add (Bopp (dcos (d_add beta h))) (dcos (d_add beta th))))) h).
    { unfold to, d_constant_steer. fold beta. fold rate. rewrite Eb1. reflexivity. }
    destruct (dmul_zero v rate Zv Fv Fk) as [Fm Em]. destruct (add_zero th _ Em Ft Fm) as [Fh Eh]. fold h in Fh, Eh.
    destruct (zero_add beta h Eb Fb Fh) as [Fbh Ebh]. destruct (zero_add beta th Eb Fb Ft) as [Fbt Ebt].
    assert (Same : B2R (d_add beta h) = B2R (d_add beta th)) by congruence.
    destruct (acc_sin _ _ _ _ acc _ Fbh) as [Fsh _]; [rewrite Ebh, Eh; exact Ht|]. destruct (acc_sin _ _ _ _ acc _ Fbt) as [Fst _]; [rewrite Ebt; exact Ht|].
    destruct (acc_cos _ _ _ _ acc _ Fbh) as [Fch _]; [rewrite Ebh, Eh; exact Ht|]. destruct (acc_cos _ _ _ _ acc _ Fbt) as [Fct _]; [rewrite Ebt; exact Ht|].
    destruct (sub_same _ _ Fsh Fst (sin_same _ _ Fbh Fbt Same)) as [Fdx Zdx].
    assert (Fdy : is_finite (d_add (Bopp (dcos (d_add beta h))) (dcos (d_add beta th))) = true /\ B2R (d_add (Bopp (dcos (d_add beta h))) (dcos (d_add beta th))) = 0).
    { pose proof (cos_same _ _ Fbh Fbt Same) as Ec.
      assert (Z : B2R (Bopp (dcos (d_add beta h))) + B2R (dcos (d_add beta th)) = 0) by (rewrite B2R_Bopp, Ec; lra).
      destruct (add_real (Bopp (dcos (d_add beta h))) (dcos (d_add beta th)) 0) as [F E]; [rewrite is_finite_Bopp; exact Fch|exact Fct|lia|rewrite Z, Rabs_R0; apply bpow_ge_0|].
      rewrite Z, round_0 in E; auto with typeclass_instances. }
    destruct Fdy as [Fdy Zdy].
    assert (Fi : is_finite (d_div d_one rate) = true).
    { assert (K30 : bpow radix2 (-30) <= Rabs (B2R rate)). { apply dltb in Eb1; auto. rewrite B2R_Babs in Eb1. lra. }
      pose proof (bpow_gt_0 radix2 (-30)) as P. assert (K0 : B2R rate <> 0). { intros Q. rewrite Q, Rabs_R0 in K30. lra. }
      apply (div_real d_one rate 30 F1 K0); [lia|]. rewrite E1. unfold Rdiv. rewrite Rmult_1_l, Rabs_inv by exact K0.
      replace (bpow radix2 30) with (/ bpow radix2 (-30)) by (rewrite <- bpow_opp; reflexivity). apply Rinv_le; lra. }
    destruct (mul_zero _ _ Zdx Fi Fdx) as [Fpx Zpx]. destruct (mul_zero _ _ Zdy Fi Fdy) as [Fpy Zpy].
    destruct (add_zero (d_x from) _ Zpx Fx Fpx) as [Frx Erx]. destruct (add_zero (d_y from) _ Zpy Fy Fpy) as [Fry Ery].
    rewrite Et. cbn [d_x d_y d_theta]. repeat split; assumption.
  - assert (Et : to = DPose (d_add (d_x from) (d_mul v (dcos th))) (d_add (d_y from) (d_mul v (dsin th))) th).
    { unfold to, d_constant_steer. fold beta. fold rate. rewrite Eb1. reflexivity. }
    destruct (acc_sin _ _ _ _ acc th Ft Ht) as [Fsn _]. destruct (acc_cos _ _ _ _ acc th Ft Ht) as [Fcn _].
    destruct (dmul_zero v _ Zv Fv Fcn) as [Fpx Zpx]. destruct (dmul_zero v _ Zv Fv Fsn) as [Fpy Zpy].
    destruct (add_zero (d_x from) _ Zpx Fx Fpx) as [Frx Erx]. destruct (add_zero (d_y from) _ Zpy Fy Fpy) as [Fry Ery].
    rewrite Et. cbn [d_x d_y d_theta]. repeat split; assumption.
Qed.
End Steering.

(** ** A library that rounds correctly is accurate *)

Definition rounded (r : R) : double :=
  @binary_normalize 53 1024 (eq_refl _) (eq_refl _) mode_NE (Ztrunc (scaled_mantissa radix2 (SpecFloat.fexp 53 1024) (rnd53 r))) (cexp radix2 (SpecFloat.fexp 53 1024) (rnd53 r)) false.
Lemma rounded_real r e : (-1074 <= e < 1024)%Z -> Rabs r <= bpow radix2 e -> is_finite (rounded r) = true /\ B2R (rounded r) = rnd53 r.
Proof.
  intros He Hr. unfold rounded.
  pose proof (binary_normalize_correct 53 1024 prec53 emax1024 mode_NE (Ztrunc (scaled_mantissa radix2 (SpecFloat.fexp 53 1024) (rnd53 r)))
    (cexp radix2 (SpecFloat.fexp 53 1024) (rnd53 r)) false) as C.
  assert (G : generic_format radix2 (SpecFloat.fexp 53 1024) (rnd53 r)) by (apply generic_format_round; auto with typeclass_instances).
  pose proof G as G'. unfold generic_format in G'. rewrite <- G' in C. cbv zeta in C. rewrite (round_generic radix2 (SpecFloat.fexp 53 1024) (round_mode mode_NE) (rnd53 r) G) in C.
  rewrite (rnd53_small r e He Hr) in C. destruct C as (C1 & C2 & _). split; [exact C2|exact C1].
Qed.

Lemma rounded_small r : Rabs r <= 1 -> is_finite (rounded r) = true /\ Rabs (B2R (rounded r) - r) <= bpow radix2 (-52).
Proof.
  intros H. destruct (rounded_real r 0) as [F E]; [lia|exact H|]. split; [exact F|]. rewrite E. eapply Rle_trans; [apply err53|]. rewrite two_u.
  pose proof u_tiny as U. pose proof eta_small as Et. assert (u53 * Rabs r <= u53 * 1) by (apply Rmult_le_compat_l; lra).
  assert (bpow radix2 (-200) <= 1) by (change 1 with (bpow radix2 0); apply bpow_le; lia). assert (u53 * bpow radix2 (-200) <= u53 * 1) by (apply Rmult_le_compat_l; lra). lra.
Qed.

Lemma rounded_accurate : accurate (fun x => rounded (sin (B2R x))) (fun x => rounded (cos (B2R x))) (fun x => rounded (tan (B2R x))) (fun x => rounded (atan (B2R x))).
Proof.
  split.
  - intros x _ _. apply rounded_small. apply Rabs_le, SIN_bound.
  - intros x _ _. apply rounded_small. apply Rabs_le, COS_bound.
  - intros x _ H. destruct (rounded_real (tan (B2R x)) 60) as [F E]; [lia|exact H|]. split; [exact F|]. rewrite E. eapply Rle_trans; [apply err53|].
    apply Rplus_le_compat; [apply Rmult_le_compat_r; [apply Rabs_pos|]; apply bpow_le; lia|apply bpow_le; lia].
  - intros x _ Z. rewrite Z, sin_0. destruct (rounded_real 0 0) as [F E]; [lia|rewrite Rabs_R0; apply bpow_ge_0|]. rewrite round_0 in E; auto with typeclass_instances.
  - intros x _ Z. rewrite Z, cos_0. destruct (rounded_real 1 0) as [F E]; [lia|rewrite Rabs_R1; apply Rle_refl|]. split; [exact F|]. rewrite E.
    apply round_generic; auto with typeclass_instances. change 1 with (bpow radix2 0). apply format53_pow. lia.
  - intros x _ Z. rewrite Z, atan_0. destruct (rounded_real 0 0) as [F E]; [lia|rewrite Rabs_R0; apply bpow_ge_0|]. rewrite round_0 in E; auto with typeclass_instances.
Qed.
