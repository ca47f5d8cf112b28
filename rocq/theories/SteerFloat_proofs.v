(** Steering in double precision. *)
From Coq Require Import Reals ZArith Lra Lia.
From Flocq Require Import Core BinarySingleNaN.
From Verif Require Import Base Coords_model Straight_model Straight_spec Straight_proofs CoordsFloat_model CoordsFloat_proofs StraightFloat_model StraightFloat_proofs ValidatorFloat_proofs
  Validator_proofs Rrt_model Rrt_spec RrtAny_proofs SteerFloat_model SteerFloat_spec.
Local Open Scope R_scope.
#[local] Existing Instance prec53.
#[local] Existing Instance emax1024.
#[local] Existing Instance vexp53.
#[local] Existing Instance vrndne.

(** Products of small and large numbers. *)
Lemma bpow_double e : bpow radix2 (1 + e) = 2 * bpow radix2 e.
Proof. rewrite bpow_plus. reflexivity. Qed.
Lemma u_tiny : 0 < u53 <= / 1000000.
Proof. split; [apply bpow_gt_0|]. change u53 with (/ 9007199254740992). lra. Qed.

(** The difference of two coordinates has a relative error only. *)
Lemma diff_close (a b : double) M : is_finite a = true -> is_finite b = true -> Rabs (B2R a) <= M -> Rabs (B2R b) <= M -> M <= bpow radix2 500 ->
  is_finite (d_sub b a) = true /\ Rabs (B2R (d_sub b a) - (B2R b - B2R a)) <= u53 * Rabs (B2R b - B2R a) /\ Rabs (B2R (d_sub b a)) <= bpow radix2 501.
Proof.
  intros Fa Fb Ha Hb HM.
  assert (D : Rabs (B2R b - B2R a) <= bpow radix2 501).
  { change 501%Z with (1 + 500)%Z. rewrite bpow_double. unfold Rminus. eapply Rle_trans; [apply Rabs_triang|]. rewrite Rabs_Ropp. lra. }
  destruct (sub_real b a 501 Fb Fa) as [F E]; [lia|exact D|]. split; [exact F|]. split.
  - pose proof (plus53 b (Bopp a)) as P. rewrite B2R_Bopp in P. change (B2R b + - B2R a) with (B2R b - B2R a) in P. rewrite <- E in P. exact P.
  - rewrite E. apply rnd_le_abs; [lia|exact D].
Qed.

(** The square of a difference. *)
Lemma square_close (X : double) w : is_finite X = true -> Rabs (B2R X - w) <= u53 * Rabs w -> Rabs (B2R X) <= bpow radix2 501 ->
  is_finite (d_mul X X) = true /\ 0 <= B2R (d_mul X X) <= bpow radix2 1002 /\ Rabs (B2R (d_mul X X) - w * w) <= 4 * u53 * (w * w) + eta53.
Proof.
  intros F H B. pose proof u_tiny as U.
  assert (Q : Rabs (B2R X * B2R X) <= bpow radix2 1002).
  { rewrite Rabs_mult. change 1002%Z with (501 + 501)%Z. rewrite bpow_plus. apply Rmult_le_compat; auto using Rabs_pos. }
  destruct (dmul_real X X 1002 F F) as [FP EP]; [lia|exact Q|]. split; [exact FP|].
  assert (P0 : 0 <= B2R (d_mul X X)). { rewrite EP. apply round_ge_generic; auto with typeclass_instances; [apply generic_format_0|]. nra. }
  split. { split; [exact P0|]. rewrite <- (Rabs_pos_eq _ P0), EP. apply rnd_le_abs; [lia|exact Q]. }
  pose proof (err53 (B2R X * B2R X)) as E. rewrite <- EP in E.
  assert (S0 : 0 <= B2R X * B2R X) by nra. rewrite (Rabs_pos_eq _ S0) in E.
  assert (S1 : Rabs (B2R X * B2R X - w * w) <= 2.5 * u53 * (w * w)).
  { replace (B2R X * B2R X - w * w) with ((B2R X - w) * (B2R X - w) + 2 * w * (B2R X - w)) by ring.
    eapply Rle_trans; [apply Rabs_triang|]. rewrite !Rabs_mult. rewrite (Rabs_pos_eq 2) by lra.
    assert (A : Rabs w * Rabs w = w * w) by (rewrite <- Rabs_mult; apply Rabs_pos_eq; nra).
    set (dd := Rabs (B2R X - w)) in *. set (ww := Rabs w) in *. rewrite <- A.
    assert (0 <= dd) by apply Rabs_pos. assert (0 <= ww) by apply Rabs_pos.
    assert (dd * dd <= (u53 * ww) * (u53 * ww)) by (apply Rmult_le_compat; lra).
    assert (ww * dd <= ww * (u53 * ww)) by (apply Rmult_le_compat_l; lra).
    assert (u53 * u53 * (ww * ww) <= 0.5 * u53 * (ww * ww)). { apply Rmult_le_compat_r; [nra|]. nra. }
    nra. }
  replace (B2R (d_mul X X) - w * w) with ((B2R (d_mul X X) - B2R X * B2R X) + (B2R X * B2R X - w * w)) by ring.
  eapply Rle_trans; [apply Rabs_triang|]. apply Rabs_le_inv in S1.
  assert (u53 * (B2R X * B2R X) <= 1.5 * u53 * (w * w)).
  { assert (0 <= w * w) by nra. assert (B2R X * B2R X <= 1.5 * (w * w)).
    { assert (2.5 * u53 * (w * w) <= 0.5 * (w * w)) by (apply Rmult_le_compat_r; lra). lra. }
    assert (u53 * (B2R X * B2R X) <= u53 * (1.5 * (w * w))) by (apply Rmult_le_compat_l; lra). lra. }
  assert (Rabs (B2R X * B2R X - w * w) <= 2.5 * u53 * (w * w)) by (apply Rabs_le; lra). lra.
Qed.

Definition tiny : R := bpow radix2 (-535).

Lemma root_close S D h : 0 <= S -> 0 <= D -> 0 < h -> Rabs (S - D * D) <= 6 * u53 * (D * D) + h * h / 2 -> Rabs (sqrt S - D) <= 6 * u53 * D + h.
Proof.
  intros HS HD Hh H. pose proof u_tiny as U. apply Rabs_le_inv in H. assert (HDD : 0 <= D * D) by nra. apply Rabs_le. split.
  - destruct (Rle_dec (D * (1 - 6 * u53)) h) as [L|L]; [pose proof (sqrt_pos S); lra|].
    set (y := D * (1 - 6 * u53)) in *. assert (Y : y - h <= sqrt S); [|unfold y in Y; lra].
    rewrite <- (sqrt_square (y - h)) by lra. apply sqrt_le_1_alt.
    assert (y * y <= D * D * (1 - 6 * u53)).
    { unfold y. replace (D * (1 - 6 * u53) * (D * (1 - 6 * u53))) with (D * D * ((1 - 6 * u53) * (1 - 6 * u53))) by ring. apply Rmult_le_compat_l; [exact HDD|]. nra. }
    nra.
  - set (y := D * (1 + 6 * u53)). assert (Y : sqrt S <= y + h); [|unfold y in Y; lra]. assert (0 <= y) by (unfold y; nra).
    rewrite <- (sqrt_square (y + h)) by lra. apply sqrt_le_1_alt.
    assert (D * D * (1 + 6 * u53) <= y * y).
    { unfold y. replace (D * (1 + 6 * u53) * (D * (1 + 6 * u53))) with (D * D * ((1 + 6 * u53) * (1 + 6 * u53))) by ring. apply Rmult_le_compat_l; [exact HDD|]. nra. }
    nra.
Qed.

Lemma droot_real (x : double) : is_finite x = true -> 0 <= B2R x -> is_finite (d_root x) = true /\ B2R (d_root x) = rnd53 (sqrt (B2R x)).
Proof.
  intros F H. pose proof (Bsqrt_correct 53 1024 prec53 emax1024 mode_NE x) as (E & G & _). split; [|exact E].
  unfold d_root. match type of G with ?a = _ => change (a = true) end. rewrite G. destruct x as [s|s| |s m e B]; cbn in *; try discriminate; auto.
  destruct s; [|reflexivity]. exfalso. apply ge_0_F2R in H. cbn in H. lia.
Qed.

(** The length of a connection. *)
Lemma norm_close a b M : within M a -> within M b -> M <= bpow radix2 500 ->
  let D := distance (place a) (place b) in let len := d_norm (dp_sub b a) in
  is_finite len = true /\ 0 <= B2R len /\ Rabs (B2R len - D) <= 8 * u53 * D + tiny /\ 0 <= D <= bpow radix2 502.
Proof.
  intros (Fa1 & Fa2 & A1 & A2) (Fb1 & Fb2 & B1 & B2) HM D len. pose proof u_tiny as U. pose proof eta53_small as [T0 _].
  destruct (diff_close (fst a) (fst b) M Fa1 Fb1 A1 B1 HM) as (FX & DX & BX). destruct (diff_close (snd a) (snd b) M Fa2 Fb2 A2 B2 HM) as (FY & DY & BY).
  set (X := d_sub (fst b) (fst a)) in *. set (Y := d_sub (snd b) (snd a)) in *.
  set (dx := B2R (fst b) - B2R (fst a)) in *. set (dy := B2R (snd b) - B2R (snd a)) in *.
  destruct (square_close X dx FX DX BX) as (FP & [P0 P1] & DP). destruct (square_close Y dy FY DY BY) as (FQ & [Q0 Q1] & DQ).
  set (P := d_mul X X) in *. set (Q := d_mul Y Y) in *.
  assert (R3 : Rabs (B2R P + B2R Q) <= bpow radix2 1003). { rewrite Rabs_pos_eq by lra. change 1003%Z with (1 + 1002)%Z. rewrite bpow_double. lra. }
  destruct (add_real P Q 1003 FP FQ) as [FS ES]; [lia|exact R3|]. pose proof (plus53 P Q) as DS. rewrite <- ES in DS. set (S := d_add P Q) in *.
  assert (S0 : 0 <= B2R S). { rewrite ES. apply round_ge_generic; auto with typeclass_instances; [apply generic_format_0|lra]. }
  destruct (droot_real S FS S0) as [FL EL]. change (is_finite len = true) in FL. change (B2R len = rnd53 (sqrt (B2R S))) in EL.
  assert (ED : D = sqrt (dx * dx + dy * dy)) by reflexivity.
  assert (D0 : 0 <= D) by (rewrite ED; apply sqrt_pos). assert (DD : D * D = dx * dx + dy * dy) by (rewrite ED; apply sqrt_sqrt; nra).
  assert (W : Rabs (B2R S - D * D) <= 6 * u53 * (D * D) + 3 * eta53).
  { rewrite DD. rewrite (Rabs_pos_eq (B2R P + B2R Q)) in DS by lra. apply Rabs_le_inv in DP, DQ, DS. 
    assert (Z : B2R P + B2R Q <= (1 + 4 * u53) * (dx * dx + dy * dy) + 2 * eta53) by lra.
    assert (Z2 : u53 * (B2R P + B2R Q) <= u53 * (2 * (dx * dx + dy * dy) + 2 * eta53)). { apply Rmult_le_compat_l; [lra|]. assert (0 <= dx * dx + dy * dy) by nra. nra. }
    assert (u53 * eta53 <= 0.25 * eta53) by (apply Rmult_le_compat_r; lra). apply Rabs_le. lra. }
  set (h := bpow radix2 (-536)). assert (Hh : h * h / 2 = 4 * eta53).
  { unfold h, eta53. rewrite <- bpow_plus. change (-536 + -536)%Z with (3 + -1075)%Z. rewrite bpow_plus. change (bpow radix2 3) with 8. field. }
  assert (H0 : 0 < h) by apply bpow_gt_0.
  assert (V : Rabs (sqrt (B2R S) - D) <= 6 * u53 * D + h). { apply root_close; auto; try lra. }
  assert (Et : tiny = 2 * h) by (unfold tiny, h; change (-535)%Z with (1 + -536)%Z; apply bpow_double).
  assert (L0 : 0 <= B2R len). { rewrite EL. apply round_ge_generic; auto with typeclass_instances; [apply generic_format_0|apply sqrt_pos]. }
  assert (Eh : eta53 <= 0.25 * h).
  { unfold eta53, h. apply Rle_trans with (bpow radix2 (-538)); [apply bpow_le; lia|]. change (-536)%Z with (2 + -538)%Z. rewrite bpow_plus. change (bpow radix2 2) with 4. lra. }
  split; [exact FL|]. split; [exact L0|]. split.
  - pose proof (err53 (sqrt (B2R S))) as E. rewrite <- EL in E. rewrite (Rabs_pos_eq _ (sqrt_pos _)) in E.
    replace (B2R len - D) with ((B2R len - sqrt (B2R S)) + (sqrt (B2R S) - D)) by ring. eapply Rle_trans; [apply Rabs_triang|].
    apply Rabs_le_inv in V. assert (VV : Rabs (sqrt (B2R S) - D) <= 6 * u53 * D + h) by (apply Rabs_le; lra).
    assert (u53 * sqrt (B2R S) <= u53 * (2 * D + h)). { apply Rmult_le_compat_l; [lra|]. assert (6 * u53 * D <= 1 * D) by (apply Rmult_le_compat_r; lra). lra. }
    assert (u53 * h <= 0.25 * h) by (apply Rmult_le_compat_r; lra). lra.
  - split; [exact D0|]. assert (X2 : Rabs dx <= bpow radix2 501 /\ Rabs dy <= bpow radix2 501).
    { change 501%Z with (1 + 500)%Z. rewrite bpow_double. unfold dx, dy, Rminus. split; (eapply Rle_trans; [apply Rabs_triang|]; rewrite Rabs_Ropp; lra). }
    destruct X2 as [X2 Y2]. change 502%Z with (1 + 501)%Z. rewrite bpow_double. set (B := bpow radix2 501) in *. assert (0 < B) by apply bpow_gt_0.
    rewrite ED, <- (sqrt_square (2 * B)) by lra. apply sqrt_le_1_alt. apply Rabs_le_inv in X2, Y2. nra.
Qed.

(** The distances of a motion that is cut short, and of one that is not. *)
Lemma cut_real d len D r t : 0 < d -> d < len -> 0 <= D -> 0 <= t -> Rabs (len - D) <= 8 * u53 * D + u53 * d -> Rabs (r - d / len) <= u53 * (d / len) + t ->
  t * D <= u53 * d -> t * len <= u53 * d -> Rabs (r * D - Rmin d D) <= 32 * u53 * d /\ Rabs (len * r - Rmin d D) <= 16 * u53 * d /\ Rabs (len * r) <= 2 * d.
Proof.
  intros Hd Hl HD Ht H Hr T1 T2. pose proof u_tiny as U. apply Rabs_le_inv in H.
  set (u := u53) in *. clearbody u.
  assert (UL : u * d <= u * len) by (apply Rmult_le_compat_l; lra).
  assert (L1 : D <= (1 + 10 * u) * len).
  { apply Rnot_lt_le. intros X. assert (Y : (1 + 10 * u) * len * (1 - 8 * u) < D * (1 - 8 * u)) by (apply Rmult_lt_compat_r; lra).
    assert (Z : 0 <= u * len * (1 - 80 * u)) by (apply Rmult_le_pos; [apply Rmult_le_pos|]; lra). lra. }
  assert (L2 : (1 - 10 * u) * len <= D).
  { apply Rnot_lt_le. intros X. assert (Y : D * (1 + 8 * u) < (1 - 10 * u) * len * (1 + 8 * u)) by (apply Rmult_lt_compat_r; lra).
    assert (Z : 0 <= u * len * (1 + 80 * u)) by (apply Rmult_le_pos; [apply Rmult_le_pos|]; lra). lra. }
  set (q := d / len) in *. assert (Q : q * len = d) by (unfold q; field; lra).
  assert (Q0 : 0 < q) by (unfold q; apply Rdiv_lt_0_compat; lra).
  assert (QD1 : q * D <= (1 + 10 * u) * d). { rewrite <- Q. replace ((1 + 10 * u) * (q * len)) with (q * ((1 + 10 * u) * len)) by ring. apply Rmult_le_compat_l; lra. }
  assert (QD2 : (1 - 10 * u) * d <= q * D). { rewrite <- Q. replace ((1 - 10 * u) * (q * len)) with (q * ((1 - 10 * u) * len)) by ring. apply Rmult_le_compat_l; lra. }
  assert (RD : Rabs (r * D - q * D) <= 3 * u * d).
  { replace (r * D - q * D) with ((r - q) * D) by ring. rewrite Rabs_mult, (Rabs_pos_eq D) by exact HD.
    apply Rle_trans with ((u * q + t) * D); [apply Rmult_le_compat_r; assumption|].
    assert (u * (q * D) <= u * (2 * d)). { apply Rmult_le_compat_l; [lra|]. assert (10 * u * d <= 1 * d) by (apply Rmult_le_compat_r; lra). lra. } lra. }
  assert (RL : Rabs (len * r - d) <= 2 * u * d).
  { rewrite <- Q at 1. replace (len * r - q * len) with ((r - q) * len) by ring. rewrite Rabs_mult, (Rabs_pos_eq len) by lra.
    apply Rle_trans with ((u * q + t) * len); [apply Rmult_le_compat_r; [lra|assumption]|].
    replace ((u * q + t) * len) with (u * (q * len) + t * len) by ring. rewrite Q. lra. }
  assert (UD : 0 < u * d) by (apply Rmult_lt_0_compat; lra). assert (U1 : u * d <= 0.1 * d) by (apply Rmult_le_compat_r; lra).
  apply Rabs_le_inv in RD, RL.
  assert (M0 : Rmin d D <= d /\ d - 10 * u * d <= Rmin d D).
  { split; [apply Rmin_l|]. apply Rmin_glb; [lra|]. assert (0 <= (1 - 10 * u) * (len - d)) by (apply Rmult_le_pos; lra). lra. }
  split; [|split]; apply Rabs_le; lra.
Qed.

Lemma whole_real d len D : 0 < d -> 0 <= len <= d -> 0 <= D -> Rabs (len - D) <= 8 * u53 * D + u53 * d ->
  Rabs (1 * D - Rmin d D) <= 32 * u53 * d /\ Rabs (len - Rmin d D) <= 32 * u53 * d.
Proof.
  intros Hd Hl HD H. pose proof u_tiny as U. apply Rabs_le_inv in H. set (u := u53) in *. clearbody u.
  assert (UD : 0 < u * d) by (apply Rmult_lt_0_compat; lra).
  assert (L1 : D <= (1 + 10 * u) * d).
  { apply Rnot_lt_le. intros X. assert (Y : (1 + 10 * u) * d * (1 - 8 * u) < D * (1 - 8 * u)) by (apply Rmult_lt_compat_r; lra).
    assert (Z : 0 <= u * d * (1 - 80 * u)) by (apply Rmult_le_pos; lra). lra. }
  assert (U8 : 8 * u * D <= 10 * u * d).
  { apply Rle_trans with (8 * u * ((1 + 10 * u) * d)); [apply Rmult_le_compat_l; lra|]. assert (80 * u * (u * d) <= 1 * (u * d)) by (apply Rmult_le_compat_r; lra). lra. }
  assert (M0 : Rmin d D <= D /\ D - 10 * u * d <= Rmin d D). { split; [apply Rmin_r|]. apply Rmin_glb; lra. }
  split; apply Rabs_le; lra.
Qed.

Lemma sign_positive (x : double) : is_finite x = true -> 0 < B2R x -> Bsign x = false.
Proof.
  intros F H. destruct x as [s|s| |s m e B]; try discriminate F; cbn in H; [lra|]. destruct s; [|reflexivity].
  apply gt_0_F2R in H. cbn in H. lia.
Qed.

(** A ratio of at least one is cut to one, even if it overflows. *)
Lemma clamp_big (d len : double) : is_finite d = true -> is_finite len = true -> 0 < B2R len <= B2R d ->
  is_finite (d_clamp (d_div d len) d_zero d_one) = true /\ B2R (d_clamp (d_div d len) d_zero d_one) = 1.
Proof.
  intros Fd Fl [Hl Hd]. destruct one_real as [FI EI].
  pose proof (Bdiv_correct 53 1024 prec53 emax1024 mode_NE d len ltac:(lra)) as C.
  assert (Q : 1 <= rnd53 (B2R d / B2R len)).
  { apply round_ge_generic; auto with typeclass_instances; [rewrite <- EI; apply generic_format_B2R|]. apply Rmult_le_reg_r with (B2R len); [lra|]. unfold Rdiv. rewrite Rmult_assoc, Rinv_l by lra. lra. }
  destruct (Rlt_bool_spec (Rabs (rnd53 (B2R d / B2R len))) (bpow radix2 1024)) as [L|L].
  - destruct C as (C1 & C2 & _). rewrite Fd in C2. change (B2R (d_div d len) = rnd53 (B2R d / B2R len)) in C1. change (is_finite (d_div d len) = true) in C2.
    set (q := d_div d len) in *. unfold d_clamp. destruct (Bltb q d_zero) eqn:E0.
    { apply (dltb q d_zero C2 eq_refl) in E0. change (B2R d_zero) with 0 in E0. lra. }
    destruct (Bltb d_one q) eqn:E1; [auto|]. split; [exact C2|]. apply Rle_antisym; [|lra]. apply Rnot_lt_le. intros X.
    assert (Y : Bltb d_one q = true) by (apply (dltb d_one q FI C2); lra). congruence.
  - rewrite (sign_positive d Fd), (sign_positive len Fl) in C by lra.
    change (B2SF (d_div d len) = SpecFloat.S754_infinity false) in C.
    replace (d_div d len) with (B754_infinity false : double); [exact (conj FI EI)|]. symmetry. apply B2SF_inj. exact C.
Qed.

(** What steering computes. *)
Lemma steer_spec (d : double) a b M : is_finite d = true -> bpow radix2 (-400) <= B2R d <= bpow radix2 400 -> within M a -> within M b -> M <= bpow radix2 500 ->
  let D := distance (place a) (place b) in let p := d_steer d a b in
  exists r, 0 <= r <= 1 /\ is_finite (fst (d2_final p)) = true /\ is_finite (snd (d2_final p)) = true /\
    Rabs (B2R (fst (d2_final p)) - ((1 - r) * B2R (fst a) + r * B2R (fst b))) <= bpow radix2 (-51) * M + bpow radix2 (-1073) /\
    Rabs (B2R (snd (d2_final p)) - ((1 - r) * B2R (snd a) + r * B2R (snd b))) <= bpow radix2 (-51) * M + bpow radix2 (-1073) /\
    Rabs (r * D - Rmin (B2R d) D) <= 32 * u53 * B2R d /\
    is_finite (d2_length p) = true /\ Rabs (B2R (d2_length p) - Rmin (B2R d) D) <= 32 * u53 * B2R d /\
    (B2R (d_norm (dp_sub b a)) <= B2R d -> place (d2_final p) = place b).
Proof.
  intros Fd [Hd1 Hd2] Wa Wb HM D p. destruct (norm_close a b M Wa Wb HM) as (FL & L0 & DL & D0 & D1). fold D in DL, D0, D1.
  set (len := d_norm (dp_sub b a)) in *. pose proof Wa as (Fa1 & Fa2 & A1 & A2). pose proof Wb as (Fb1 & Fb2 & B1 & B2). pose proof u_tiny as U.
  assert (d0 : 0 < B2R d) by (eapply Rlt_le_trans; [apply bpow_gt_0|exact Hd1]).
  assert (M0 : 0 <= M) by (eapply Rle_trans; [apply Rabs_pos|exact A1]).
  assert (Ht : tiny <= u53 * B2R d).
  { apply Rle_trans with (u53 * bpow radix2 (-400)); [|apply Rmult_le_compat_l; lra]. unfold tiny, u53. rewrite <- bpow_plus. apply bpow_le. lia. }
  assert (DL' : Rabs (B2R len - D) <= 8 * u53 * D + u53 * B2R d) by lra.
  assert (E0 : 0 <= bpow radix2 (-51) * M + bpow radix2 (-1073)).
  { pose proof (bpow_gt_0 radix2 (-1073)). pose proof (bpow_gt_0 radix2 (-51)). assert (0 <= bpow radix2 (-51) * M) by (apply Rmult_le_pos; lra). lra. }
  (* The path is not truncated, or truncated by one. *)
  assert (Whole : B2R len <= B2R d -> forall q : d2path, is_finite (fst (d2_final q)) = true -> is_finite (snd (d2_final q)) = true -> place (d2_final q) = place b ->
    is_finite (d2_length q) = true -> B2R (d2_length q) = B2R len ->
    exists r, 0 <= r <= 1 /\ is_finite (fst (d2_final q)) = true /\ is_finite (snd (d2_final q)) = true /\
    Rabs (B2R (fst (d2_final q)) - ((1 - r) * B2R (fst a) + r * B2R (fst b))) <= bpow radix2 (-51) * M + bpow radix2 (-1073) /\
    Rabs (B2R (snd (d2_final q)) - ((1 - r) * B2R (snd a) + r * B2R (snd b))) <= bpow radix2 (-51) * M + bpow radix2 (-1073) /\
    Rabs (r * D - Rmin (B2R d) D) <= 32 * u53 * B2R d /\
    is_finite (d2_length q) = true /\ Rabs (B2R (d2_length q) - Rmin (B2R d) D) <= 32 * u53 * B2R d /\
    (B2R len <= B2R d -> place (d2_final q) = place b)).
  { intros Hl q F1 F2 E F3 E3. destruct (whole_real (B2R d) (B2R len) D d0 (conj L0 Hl) D0 DL') as [G1 G2]. exists 1. injection E as E1 E2. rewrite E1, E2, E3.
    split; [lra|]. split; [exact F1|]. split; [exact F2|]. split; [replace (_ - _) with 0 by ring; rewrite Rabs_R0; exact E0|].
    split; [replace (_ - _) with 0 by ring; rewrite Rabs_R0; exact E0|]. split; [exact G1|]. split; [exact F3|]. split; [exact G2|].
    intros _. unfold place. rewrite E1, E2. reflexivity. }
  destruct one_real as [FI EI].
  unfold p, d_steer. cbn [d2_length d2_connect]. fold len.
  destruct (Bltb d_zero len) eqn:Lz.
  2: { assert (Z : B2R len = 0). { destruct (Rle_lt_dec (B2R len) 0); [lra|]. exfalso. assert (X : Bltb d_zero len = true) by (apply (dltb d_zero len eq_refl FL); exact r). congruence. }
    apply Whole; auto. lra. }
  assert (Lp : 0 < B2R len) by (apply (dltb d_zero len eq_refl FL); exact Lz).
  destruct (Rle_lt_dec (B2R len) (B2R d)) as [Hl|Hl].
  - destruct (clamp_big d len Fd FL (conj Lp Hl)) as [FK EK].
    assert (K : d_clamp (d_div d len) d_zero d_one = d_one).
    { apply B2R_inj; [|reflexivity|rewrite EK, EI; reflexivity]. destruct (d_clamp (d_div d len) d_zero d_one) as [s|s| |s m e B]; try discriminate FK; [cbn in EK; lra|reflexivity]. }
    rewrite K. destruct (interp_end (fst a) (fst b) Fa1 Fb1) as [G1 G2]. destruct (interp_end (snd a) (snd b) Fa2 Fb2) as [G3 G4].
    destruct (dmul_one d_one len EI FI FL) as [_ _].
    assert (LE : is_finite (d_mul len d_one) = true /\ B2R (d_mul len d_one) = B2R len).
    { destruct (dmul_fits len d_one FL FI) as [F E]; rewrite EI, Rmult_1_r, rnd_double in *; [apply abs_B2R_lt_emax|auto]. }
    apply Whole; auto; [|apply LE|apply LE]. unfold place. cbn [d2_truncate d2_at d2_final d2_init d2_connect fst snd]. rewrite G2, G4. reflexivity.
  - (* the sample is too far *)
    assert (Qb : 0 < B2R d / B2R len < 1).
    { split; [apply Rdiv_lt_0_compat; lra|]. apply Rmult_lt_reg_r with (B2R len); [lra|]. unfold Rdiv. rewrite Rmult_assoc, Rinv_l by lra. lra. }
    destruct (div_real d len 0 Fd ltac:(lra)) as [FQ EQ]; [lia|change (bpow radix2 0) with 1; rewrite Rabs_pos_eq by lra; lra|].
    set (q := d_div d len) in *.
    assert (Q1 : 0 <= B2R q <= 1).
    { rewrite EQ. split; [apply round_ge_generic|apply round_le_generic]; auto with typeclass_instances; try apply generic_format_0; try lra. rewrite <- EI. apply generic_format_B2R. }
    assert (K : d_clamp q d_zero d_one = q).
    { unfold d_clamp. destruct (Bltb q d_zero) eqn:X0. { apply (dltb q d_zero FQ eq_refl) in X0. change (B2R d_zero) with 0 in X0. lra. }
      destruct (Bltb d_one q) eqn:X1; [|reflexivity]. apply (dltb d_one q FI FQ) in X1. lra. }
    rewrite K. exists (B2R q). cbn [d2_truncate d2_at d2_final d2_length d2_init d2_connect fst snd]. fold len.
    assert (HM' : M <= bpow radix2 1022) by (eapply Rle_trans; [exact HM|apply bpow_le; lia]).
    destruct (interp_error (fst a) (fst b) q M Fa1 Fb1 FQ Q1 A1 B1 HM') as [G1 G2]. destruct (interp_error (snd a) (snd b) q M Fa2 Fb2 FQ Q1 A2 B2 HM') as [G3 G4].
    pose proof (err53 (B2R d / B2R len)) as Er. rewrite <- EQ, (Rabs_pos_eq (B2R d / B2R len)) in Er by lra.
    assert (TT : eta53 * bpow radix2 503 <= u53 * B2R d).
    { apply Rle_trans with (u53 * bpow radix2 (-400)); [|apply Rmult_le_compat_l; lra]. unfold eta53, u53. rewrite <- !bpow_plus. apply bpow_le. lia. }
    assert (E1 : 0 < eta53) by apply bpow_gt_0.
    assert (B503 : bpow radix2 503 = 2 * bpow radix2 502) by (change 503%Z with (1 + 502)%Z; apply bpow_double).
    assert (LL : B2R len <= bpow radix2 503).
    { apply Rabs_le_inv in DL'. assert (8 * u53 * D <= 0.5 * D) by (apply Rmult_le_compat_r; lra).
      assert (u53 * B2R d <= 0.1 * B2R d) by (apply Rmult_le_compat_r; lra). lra. }
    assert (T1 : eta53 * D <= u53 * B2R d). { apply Rle_trans with (eta53 * bpow radix2 503); [apply Rmult_le_compat_l; lra|exact TT]. }
    assert (T2 : eta53 * B2R len <= u53 * B2R d). { apply Rle_trans with (eta53 * bpow radix2 503); [apply Rmult_le_compat_l; lra|exact TT]. }
    destruct (cut_real (B2R d) (B2R len) D (B2R q) eta53 d0 Hl D0 (Rlt_le _ _ E1) DL' Er T1 T2) as (H1 & H2 & H3).
    destruct (dmul_real len q 503 FL FQ) as [FP EP]; [lia| |].
    { eapply Rle_trans; [exact H3|]. rewrite B503. assert (bpow radix2 400 <= bpow radix2 502) by (apply bpow_le; lia). lra. }
    split; [exact Q1|]. split; [exact G1|]. split; [exact G3|]. split; [exact G2|]. split; [exact G4|]. split; [exact H1|]. split; [exact FP|]. split.
    + pose proof (err53 (B2R len * B2R q)) as Ep. rewrite <- EP in Ep.
      replace (B2R (d_mul len q) - Rmin (B2R d) D) with ((B2R (d_mul len q) - B2R len * B2R q) + (B2R len * B2R q - Rmin (B2R d) D)) by ring.
      eapply Rle_trans; [apply Rabs_triang|].
      assert (u53 * Rabs (B2R len * B2R q) <= u53 * (2 * B2R d)) by (apply Rmult_le_compat_l; lra).
      assert (eta53 <= u53 * B2R d). { assert (eta53 * 1 <= eta53 * bpow radix2 503). { apply Rmult_le_compat_l; [lra|]. change 1 with (bpow radix2 0). apply bpow_le. lia. } lra. }
      assert (0 < u53 * B2R d) by (apply Rmult_lt_0_compat; lra). lra.
    + intros X. lra.
Qed.

(** The point reached, and its distance. *)
Lemma distance_coords p q e : Rabs (fst q - fst p) <= e -> Rabs (snd q - snd p) <= e -> distance p q <= 1.5 * e.
Proof.
  intros H1 H2. assert (0 <= e) by (eapply Rle_trans; [apply Rabs_pos|exact H1]). unfold distance. rewrite <- (sqrt_square (1.5 * e)) by lra. apply sqrt_le_1_alt.
  apply Rabs_le_inv in H1, H2. nra.
Qed.

Definition mix (a b : point) (r : R) : point := ((1 - r) * fst a + r * fst b, (1 - r) * snd a + r * snd b).
Lemma mix_distance a b r s : distance (mix a b r) (mix a b s) = Rabs (r * distance a b - s * distance a b).
Proof.
  replace (r * distance a b - s * distance a b) with ((r - s) * distance a b) by ring. rewrite Rabs_mult, (Rabs_pos_eq (distance a b)) by apply distance_pos.
  rewrite Rabs_minus_sym. unfold distance at 2. rewrite <- sqrt_scale. unfold distance, mix. cbn [fst snd]. f_equal. ring.
Qed.
Lemma mix_0 a b : mix a b 0 = a.
Proof. destruct a, b. unfold mix. cbn. f_equal; ring. Qed.
Lemma towards_mix d a b : 0 < d -> exists s, towards d a b = mix a b s /\ s * distance a b = Rmin d (distance a b).
Proof.
  intros Hd. unfold towards. destruct (Rle_dec (distance a b) d) as [L|L].
  - exists 1. split; [destruct a, b; unfold mix; cbn; f_equal; ring|]. rewrite Rmin_right by lra. ring.
  - exists (d / distance a b). split; [unfold mix; f_equal; ring|]. rewrite Rmin_left by lra. field. lra.
Qed.

Lemma steer_result (d : double) a b M : is_finite d = true -> bpow radix2 (-400) <= B2R d <= bpow radix2 400 -> within M a -> within M b -> M <= bpow radix2 500 ->
  let p := d_steer d a b in let e := bpow radix2 (-47) * B2R d + bpow radix2 (-50) * M in
  (exists N, within N (d2_final p)) /\
  distance (place (d2_final p)) (towards (B2R d) (place a) (place b)) <= e /\
  distance (place a) (place (d2_final p)) <= B2R d + e /\
  is_finite (d2_length p) = true /\ Rabs (B2R (d2_length p) - Rmin (B2R d) (distance (place a) (place b))) <= bpow radix2 (-48) * B2R d /\
  (distance (place a) (place b) <= (1 - bpow radix2 (-48)) * B2R d -> place (d2_final p) = place b).
Proof.
  intros Fd Hd Wa Wb HM p e. destruct (steer_spec d a b M Fd Hd Wa Wb HM) as (r & R1 & F1 & F2 & X & Y & RD & FL & DL & Ex). fold p in F1, F2, X, Y, FL, DL, Ex.
  destruct (norm_close a b M Wa Wb HM) as (_ & _ & DN & D0 & _).
  set (D := distance (place a) (place b)) in *. assert (d0 : 0 < B2R d) by (eapply Rlt_le_trans; [apply bpow_gt_0|apply Hd]). pose proof u_tiny as U.
  assert (M0 : 0 <= M) by (eapply Rle_trans; [apply Rabs_pos|apply Wa]).
  assert (C47 : bpow radix2 (-47) = 64 * u53) by (change (-47)%Z with (6 + -53)%Z; rewrite bpow_plus; reflexivity).
  assert (C48 : bpow radix2 (-48) = 32 * u53) by (change (-48)%Z with (5 + -53)%Z; rewrite bpow_plus; reflexivity).
  assert (C50 : bpow radix2 (-50) = 8 * u53) by (change (-50)%Z with (3 + -53)%Z; rewrite bpow_plus; reflexivity).
  assert (C51 : bpow radix2 (-51) = 4 * u53) by (change (-51)%Z with (2 + -53)%Z; rewrite bpow_plus; reflexivity).
  assert (T : bpow radix2 (-1073) <= u53 * B2R d).
  { apply Rle_trans with (u53 * bpow radix2 (-400)); [|apply Rmult_le_compat_l; lra]. unfold u53. rewrite <- bpow_plus. apply bpow_le. lia. }
  assert (UM : 0 <= u53 * M) by (apply Rmult_le_pos; lra). assert (UD : 0 < u53 * B2R d) by (apply Rmult_lt_0_compat; lra).
  set (m := mix (place a) (place b) r).
  assert (E : distance m (place (d2_final p)) <= 6 * u53 * M + 1.5 * (u53 * B2R d)).
  { eapply Rle_trans; [apply (distance_coords _ _ (4 * u53 * M + u53 * B2R d)); cbn [fst snd m mix place]; rewrite C51 in X, Y; [eapply Rle_trans; [exact X|]|eapply Rle_trans; [exact Y|]]; lra|]. lra. }
  split.
  { exists (Rmax (Rabs (B2R (fst (d2_final p)))) (Rabs (B2R (snd (d2_final p))))). repeat split; auto using Rmax_l, Rmax_r. }
  split; [|split; [|split; [|split]]].
  - destruct (towards_mix (B2R d) (place a) (place b) d0) as (s & Es & Hs). fold D in Hs. rewrite Es.
    eapply Rle_trans; [apply (Validator_proofs.distance_triangle _ m _)|]. unfold m at 2. rewrite mix_distance. fold D. rewrite Hs. rewrite distance_sym. unfold e. rewrite C47, C50. lra.
  - eapply Rle_trans; [apply (Validator_proofs.distance_triangle _ m _)|]. 
    assert (A : distance (place a) m <= B2R d + 32 * u53 * B2R d).
    { rewrite <- (mix_0 (place a) (place b)) at 1. unfold m. rewrite mix_distance. fold D. rewrite Rmult_0_l, Rminus_0_l, Rabs_Ropp. 
      rewrite Rabs_pos_eq by (apply Rmult_le_pos; lra). apply Rabs_le_inv in RD. pose proof (Rmin_l (B2R d) D). lra. }
    unfold e. rewrite C47, C50. lra.
  - exact FL.
  - rewrite C48. exact DL.
  - intros H. apply Ex. apply Rabs_le_inv in DN. rewrite C48 in H.
    assert (8 * u53 * D <= 8 * u53 * B2R d). { apply Rmult_le_compat_l; [lra|]. lra. }
    assert (tiny <= u53 * B2R d).
    { apply Rle_trans with (u53 * bpow radix2 (-400)); [|apply Rmult_le_compat_l; lra]. unfold tiny, u53. rewrite <- bpow_plus. apply bpow_le. lia. }
    lra.
Qed.

(** The test for the goal. *)
Lemma near_goal_spec goal x M : within M goal -> within M x -> M <= bpow radix2 500 -> d_near_goal goal x = true -> distance (place x) (place goal) < 1 + bpow radix2 (-49).
Proof.
  intros Wg Wx HM H. destruct (norm_close goal x M Wg Wx HM) as (F & L0 & DN & D0 & _). rewrite distance_sym. set (D := distance (place goal) (place x)) in *.
  destruct one_real as [FI EI]. apply (dltb _ d_one F FI) in H. rewrite EI in H. pose proof u_tiny as U. apply Rabs_le_inv in DN.
  assert (C49 : bpow radix2 (-49) = 16 * u53) by (change (-49)%Z with (4 + -53)%Z; rewrite bpow_plus; reflexivity).
  assert (T : tiny <= u53) by (apply bpow_le; lia). rewrite C49. apply Rnot_le_lt. intros X.
  assert ((1 - 8 * u53) * (1 + 16 * u53) <= (1 - 8 * u53) * D) by (apply Rmult_le_compat_l; lra). nra.
Qed.

(** RRT in double precision. *)
Lemma equal_place a b M N : within M a -> within N b -> d_point_eqb a b = true -> place a = place b.
Proof.
  intros (Fa1 & Fa2 & _) (Fb1 & Fb2 & _) H. unfold d_point_eqb in H. apply andb_prop in H as [H1 H2]. rewrite Beqb_correct in H1, H2 by assumption.
  unfold place. f_equal; [destruct (Req_bool_spec (B2R (fst a)) (B2R (fst b)))|destruct (Req_bool_spec (B2R (snd a)) (B2R (snd b)))]; congruence.
Qed.

Lemma rrt_doubles (d : double) goal valid sample nearest maxIteration maxNode init M t s n :
  is_finite d = true -> bpow radix2 (-400) <= B2R d <= bpow radix2 400 -> M <= bpow radix2 500 -> within M init -> within M goal ->
  (forall it, within M (sample it)) -> (forall p, valid p = true -> (exists N, within N (d2_final p)) -> within M (d2_final p)) ->
  d_rrt d goal valid sample nearest maxIteration maxNode init = Ok (true, t, s, n) ->
  let e := bpow radix2 (-47) * B2R d + bpow radix2 (-50) * M in
  exists l g, get_path t s = Ok l /\
    path_between (fun a b => (exists q, valid (d_steer d a q) = true /\ d2_final (d_steer d a q) = b) /\ distance (place a) (place b) <= B2R d + e) init g l /\
    distance (place g) (place goal) < 1 + bpow radix2 (-49).
Proof.
  intros Fd Hd HM Wi Wg Ws Hv H e.
  destruct (any_success d_point_eqb d2_final (d_steer d) valid (d_near_goal goal) sample nearest maxIteration maxNode init
    (fun a b => (exists q, valid (d_steer d a q) = true /\ d2_final (d_steer d a q) = b) /\ distance (place a) (place b) <= B2R d + e) (within M)) with (t := t) (s := s) (n := n)
    as (l & g & Hl & Hp & Hg & (v & Wv & Hs & Ev)); auto.
  - intros a it Wa V. destruct (steer_result d a (sample it) M Fd Hd Wa (Ws it) HM) as (Wn & _ & Dn & _). split; [apply Hv; auto|]. split; [eauto|exact Dn].
  - exists l, g. split; [exact Hl|]. split; [exact Hp|]. assert (P : place g = place v) by (destruct Ev as [->|Ev]; [reflexivity|exact (equal_place _ _ _ _ Hg Wv Ev)]).
    rewrite P. exact (near_goal_spec goal v M Wg Wv HM Hs).
Qed.

(** A connection may come out longer than allowed, and the length of a path may be no number. *)
Definition at_25 : dpoint := (d_of 25 0, d_zero).
Definition origin2 : dpoint := (d_zero, d_zero).
Lemma seven_real : is_finite (d_of 7 0) = true /\ B2R (d_of 7 0) = 7.
Proof. split; [reflexivity|]. change (F2R (Float radix2 7881299347898368 (-50)) = 7). unfold F2R. cbn [Fnum Fexp]. change (bpow radix2 (-50)) with (/ 1125899906842624). field. Qed.
Lemma beyond_seven : B2R (fst (d2_final (d_steer (d_of 7 0) origin2 at_25))) = 7881299347898369 / 1125899906842624 /\ B2R (snd (d2_final (d_steer (d_of 7 0) origin2 at_25))) = 0.
Proof.
  split.
  - replace (fst (d2_final (d_steer (d_of 7 0) origin2 at_25))) with (d_of 7881299347898369 (-50)) by (apply B2SF_inj; vm_compute; reflexivity).
    change (F2R (Float radix2 7881299347898369 (-50)) = 7881299347898369 / 1125899906842624). unfold F2R. cbn [Fnum Fexp]. change (bpow radix2 (-50)) with (/ 1125899906842624). field.
  - replace (snd (d2_final (d_steer (d_of 7 0) origin2 at_25))) with (B754_zero false : double) by (apply B2SF_inj; vm_compute; reflexivity). reflexivity.
Qed.
Lemma twenty_five_real : B2R (d_of 25 0) = 25.
Proof. change (F2R (Float radix2 7036874417766400 (-48)) = 25). unfold F2R. cbn [Fnum Fexp]. change (bpow radix2 (-48)) with (/ 281474976710656). field. Qed.
Lemma too_far : 7 < distance (place origin2) (place (d2_final (d_steer (d_of 7 0) origin2 at_25))).
Proof.
  destruct beyond_seven as [E1 E2]. unfold distance, place. cbn [fst snd]. rewrite E1, E2. cbn [origin2 fst snd d_zero B2R].
  rewrite <- (sqrt_square 7) at 1 by lra. apply sqrt_lt_1_alt. lra.
Qed.

(** A finite state equals itself, so that the search ends. *)
Lemma equal_itself a M : within M a -> d_point_eqb a a = true.
Proof.
  intros (F1 & F2 & _). unfold d_point_eqb. rewrite !Beqb_correct by assumption. rewrite !Req_bool_true by reflexivity. reflexivity.
Qed.

Lemma rrt_doubles_end (d : double) goal valid sample nearest maxIteration maxNode init M :
  is_finite d = true -> bpow radix2 (-400) <= B2R d <= bpow radix2 400 -> M <= bpow radix2 500 -> within M init ->
  (forall it, within M (sample it)) -> (forall p, valid p = true -> (exists N, within N (d2_final p)) -> within M (d2_final p)) ->
  answers nearest -> (0 <= maxIteration < 2147483647)%Z -> (0 <= maxNode)%Z ->
  exists b t s n, d_rrt d goal valid sample nearest maxIteration maxNode init = Ok (b, t, s, n) /\ (0 <= n <= maxIteration + 1)%Z /\
    (Z.of_nat (length t) <= maxNode + 1)%Z /\ all_different d_point_eqb (states t).
Proof.
  intros Fd Hd HM Wi Ws Hv An M1 M2.
  destruct (any_terminates d_point_eqb d2_final (d_steer d) valid (d_near_goal goal) sample nearest maxIteration maxNode init (fun _ _ => True) (within M))
    as (b & t & s & n & H & H1 & H2 & H3); auto.
  - intros a it Wa V. destruct (steer_result d a (sample it) M Fd Hd Wa (Ws it) HM) as (Wn & _). split; [apply Hv; auto|exact I].
  - intros a. apply equal_itself.
  - exists b, t, s, n. split; [exact H|]. split; [exact H1|]. split; [exact H2|]. now apply separate_different.
Qed.
