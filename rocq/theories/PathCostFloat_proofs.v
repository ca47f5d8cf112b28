(** The path cost in single precision. *)
From Coq Require Import Reals ZArith Lra Lia.
From Flocq Require Import Core BinarySingleNaN Relative Plus_error.
From Verif Require Import Base RealBase Grid_model Grid_spec Grid_proofs Gvd_model Gvd_spec Gvd_proofs Gvd_api_proofs PathCost_model PathCost_proofs
  CoordsFloat_model CoordsFloat_proofs StraightFloat_model StraightFloat_proofs ValidatorFloat_model ValidatorFloat_proofs
  ObstHeurFloat_model ObstHeurFloat_spec ObstHeurFloat_proofs PathCostFloat_model.
From Verif Require CostFloat_model CostFloat_spec CostEuclid_model CostEuclid_proofs.
Local Open Scope R_scope.
#[local] Existing Instance prec24.
#[local] Existing Instance emax128.
#[local] Existing Instance vexp24.
#[local] Existing Instance prec53.
#[local] Existing Instance emax1024.
#[local] Existing Instance vexp53.
#[local] Existing Instance vrndne.

Lemma r24_between a b x : generic_format radix2 (SpecFloat.fexp 24 128) a -> generic_format radix2 (SpecFloat.fexp 24 128) b -> a <= x <= b -> a <= rnd24 x <= b.
Proof. intros A B H. split; [apply round_ge_generic|apply round_le_generic]; auto with typeclass_instances; lra. Qed.
Lemma r53_between a b x : generic_format radix2 (SpecFloat.fexp 53 1024) a -> generic_format radix2 (SpecFloat.fexp 53 1024) b -> a <= x <= b -> a <= rnd53 x <= b.
Proof. intros A B H. split; [apply round_ge_generic|apply round_le_generic]; auto with typeclass_instances; lra. Qed.
Lemma z24 : generic_format radix2 (SpecFloat.fexp 24 128) 0. Proof. apply generic_format_0. Qed.
Lemma z53 : generic_format radix2 (SpecFloat.fexp 53 1024) 0. Proof. apply generic_format_0. Qed.
Lemma i24 : generic_format radix2 (SpecFloat.fexp 24 128) 1. Proof. change 1 with (bpow radix2 0). apply format24_pow. lia. Qed.
Lemma i53 : generic_format radix2 (SpecFloat.fexp 53 1024) 1. Proof. change 1 with (bpow radix2 0). apply format53_pow. lia. Qed.
Lemma b24 (x : single) : generic_format radix2 (SpecFloat.fexp 24 128) (B2R x). Proof. apply generic_format_B2R. Qed.
Lemma b53 (x : double) : generic_format radix2 (SpecFloat.fexp 53 1024) (B2R x). Proof. apply generic_format_B2R. Qed.
#[local] Hint Resolve z24 z53 i24 i53 b24 b53 : fmt.

Lemma s_add_real (x y : single) e : is_finite x = true -> is_finite y = true -> (-149 <= e < 128)%Z -> Rabs (B2R x + B2R y) <= bpow radix2 e ->
  is_finite (s_add x y) = true /\ B2R (s_add x y) = rnd24 (B2R x + B2R y).
Proof.
  intros Fx Fy He H. pose proof (Bplus_correct 24 128 prec24 emax128 mode_NE x y Fx Fy) as C. rewrite (rnd24_small _ e He H) in C. destruct C as (C1 & C2 & _). split; assumption.
Qed.
Lemma s_div_real (x y : single) e : is_finite x = true -> B2R y <> 0 -> (-149 <= e < 128)%Z -> Rabs (B2R x / B2R y) <= bpow radix2 e ->
  is_finite (s_div x y) = true /\ B2R (s_div x y) = rnd24 (B2R x / B2R y).
Proof.
  intros Fx Hy He H. pose proof (Bdiv_correct 24 128 prec24 emax128 mode_NE x y Hy) as C. rewrite (rnd24_small _ e He H) in C. destruct C as (C1 & C2 & _).
  split; [rewrite <- Fx; exact C2|exact C1].
Qed.

(** ** Distances *)

Lemma float_distance_real (r : single) d : is_finite r = true -> 0 < B2R r <= bpow radix2 30 -> (0 <= d <= inf)%Z ->
  is_finite (float_distance r d) = true /\ 0 <= B2R (float_distance r d) <= bpow radix2 47 /\
  (d = 0%Z -> B2R (float_distance r d) = 0) /\ ((1 <= d)%Z -> B2R r <= B2R (float_distance r d)) /\
  Rabs (B2R (float_distance r d) - reported_distance (B2R r) d) <= 2 * s_unit * reported_distance (B2R r) d + bpow radix2 (-149).
Proof.
  intros Fr Hr Hd. unfold inf in Hd.
  destruct (CostEuclid_proofs.int_exact d ltac:(lia)) as (Fi & Ei & Ci). change (CostFloat_model.d_of d 0) with (d_of d 0) in *.
  pose proof (CostEuclid_proofs.sqrt_finite _ Ci Fi) as Fs. change (is_finite (@Bsqrt 53 1024 (eq_refl _) (eq_refl _) mode_NE (d_of d 0)) = true) in Fs.
  pose proof (CostEuclid_proofs.sqrt_close d ltac:(lia)) as (_ & _ & Ns). 
  pose proof (Bsqrt_correct 53 1024 prec53 emax1024 mode_NE (d_of d 0)) as (Es & _ & _).
  match type of Ei with ?a = _ => change (B2R (d_of d 0) = IZR d) in Ei end. rewrite Ei in Es.
  unfold float_distance. set (s := @Bsqrt 53 1024 (eq_refl _) (eq_refl _) mode_NE (d_of d 0)) in *.
  change (B2R s = rnd53 (sqrt (IZR d))) in Es.
  assert (Ns' : Rabs (B2R s - sqrt (IZR d)) <= bpow radix2 (-53) * sqrt (IZR d)).
  { change (CostFloat_spec.d_value (CostEuclid_model.d_sqrt (CostFloat_model.d_of d 0))) with (B2R s) in Ns. unfold CostFloat_spec.d_unit in Ns.
    apply Rabs_le. change (bpow radix2 (-53)) with (/ 9007199254740992). cbn in Ns. lra. }
  assert (S46 : 0 <= sqrt (IZR d) <= 65536).
  { split; [apply sqrt_pos|]. rewrite <- (sqrt_Rsqr 65536) by lra. apply sqrt_le_1_alt. unfold Rsqr. apply Rle_trans with (IZR 2147483647); [apply IZR_le; lia|lra]. }
  assert (SB : 0 <= B2R s <= bpow radix2 16). { rewrite Es. apply r53_between; auto with fmt; try (apply format53_pow; lia). }
  destruct (constant_near s r (sqrt (IZR d)) Fs ltac:(change (bpow radix2 30) with 1073741824; lra) Ns' Fr ltac:(lra)) as (Fc & Pc & Nc).
  change (bpow radix2 30) with 1073741824 in Hr.
  destruct (widen_real r Fr) as (Fw & Ew).
  assert (PB : 0 <= B2R s * B2R r <= bpow radix2 46).
  { change 46%Z with (16 + 30)%Z. rewrite bpow_plus. change (bpow radix2 30) with 1073741824. split; [apply Rmult_le_pos; lra|apply Rmult_le_compat; lra]. }
  destruct (dmul_real s (widen r) 46 Fs Fw) as (Fm & Em); [lia|rewrite Ew, Rabs_pos_eq by lra; lra|]. rewrite Ew in Em.
  assert (MB : 0 <= B2R (d_mul s (widen r)) <= bpow radix2 46) by (rewrite Em; apply r53_between; auto with fmt; try (apply format53_pow; lia)).
  destruct (narrow_real (d_mul s (widen r)) Fm) as (Fn & En). { rewrite Rabs_pos_eq by lra. apply Rle_trans with (bpow radix2 46); [lra|apply bpow_le; lia]. }
  split; auto. split. { split; [exact Pc|]. rewrite En. apply Rle_trans with (bpow radix2 46); [|apply bpow_le; lia]. apply r24_between with (a := 0); auto with fmt; try (apply format24_pow; lia). }
  split; [|split; [|exact Nc]].
  - intros ->. rewrite En, Em, Es, sqrt_0, round_0 by auto with typeclass_instances. rewrite Rmult_0_l, !round_0 by auto with typeclass_instances. reflexivity.
  - intros H1. assert (1 <= sqrt (IZR d)) by (rewrite <- sqrt_1; apply sqrt_le_1_alt; apply IZR_le; lia).
    assert (1 <= B2R s) by (rewrite Es; apply round_ge_generic; auto with typeclass_instances fmt).
    assert (B2R r <= B2R (d_mul s (widen r))). { rewrite Em. apply round_ge_generic; auto with typeclass_instances; [rewrite <- Ew; apply generic_format_B2R|nra]. }
    rewrite En. apply round_ge_generic; auto with typeclass_instances fmt.
Qed.

(** ** One cell *)

Lemma frac01 a b : 0 <= a <= b -> 0 < b -> 0 <= a / b <= 1.
Proof.
  intros H L. split; [apply Rmult_le_pos; [lra|left; now apply Rinv_0_lt_compat]|].
  apply (Rmult_le_reg_r b); auto. unfold Rdiv. rewrite Rmult_assoc, Rinv_l by lra. lra.
Qed.

(** A fraction of a sum: in [0, 1], and one rounding each for the sum and the fraction. *)
Lemma fraction (x y : single) t : is_finite x = true -> is_finite y = true -> 0 <= B2R x <= bpow radix2 100 -> 0 <= B2R y <= bpow radix2 100 -> 0 < B2R x + B2R y ->
  t = s_add x y \/ t = s_add y x ->
  is_finite (s_div x t) = true /\ 0 <= B2R (s_div x t) <= 1 /\ (B2R x = 0 -> B2R (s_div x t) = 0) /\ (B2R y = 0 -> B2R (s_div x t) = 1) /\
  Rabs (B2R (s_div x t) - B2R x / (B2R x + B2R y)) <= 3 * s_unit * (B2R x / (B2R x + B2R y)) + bpow radix2 (-149).
Proof.
  intros Fx Fy Bx By Hp Ht.
  assert (A : is_finite t = true /\ B2R t = rnd24 (B2R x + B2R y)).
  { assert (B : Rabs (B2R x + B2R y) <= bpow radix2 101). { rewrite Rabs_pos_eq by lra. change 101%Z with (100 + 1)%Z. rewrite bpow_plus. change (bpow radix2 1) with 2. lra. }
    destruct Ht as [->|[= ->]]; [apply (s_add_real _ _ 101); auto; lia|]. rewrite Rplus_comm in B |- *. apply (s_add_real _ _ 101); auto; lia. }
  destruct A as (Ft & Et).
  assert (Tx : B2R x <= B2R t) by (rewrite Et; apply round_ge_generic; auto with typeclass_instances fmt; lra).
  assert (Ty : B2R y <= B2R t) by (rewrite Et; apply round_ge_generic; auto with typeclass_instances fmt; lra).
  assert (Tp : 0 < B2R t) by lra.
  pose proof (frac01 (B2R x) (B2R t) ltac:(lra) Tp) as Q.
  destruct (s_div_real x t 0 Fx) as (Fq & Eq); [lra|lia|rewrite Rabs_pos_eq by lra; change (bpow radix2 0) with 1; lra|].
  split; auto. split; [rewrite Eq; apply r24_between; auto with fmt|]. split; [|split].
  - intros E. rewrite Eq, E. unfold Rdiv. rewrite Rmult_0_l. apply round_0; auto with typeclass_instances.
  - intros E. rewrite Eq, Et, E, Rplus_0_r. rewrite (round_generic radix2 (SpecFloat.fexp 24 128) (round_mode mode_NE) (B2R x)) by auto with typeclass_instances fmt.
    unfold Rdiv. rewrite Rinv_r by lra. apply round_generic; auto with typeclass_instances fmt.
  - assert (Nt : Rabs (B2R t - (B2R x + B2R y)) <= bpow radix2 (-24) * (B2R x + B2R y)).
    { rewrite Et. pose proof (minus24 x (Bopp y)) as M. rewrite B2R_Bopp in M. replace (B2R x - - B2R y) with (B2R x + B2R y) in M by ring. rewrite (Rabs_pos_eq (B2R x + B2R y)) in M by lra. exact M. }
    pose proof (err24 (B2R x / B2R t)) as R1. rewrite <- Eq in R1. rewrite (Rabs_pos_eq (B2R x / B2R t)) in R1 by lra.
    rewrite unit24. change (bpow radix2 (-24)) with (/ 16777216) in *.
    assert (T3 : 0 < bpow radix2 (-150) <= bpow radix2 (-149)) by (split; [apply bpow_gt_0|apply bpow_le; lia]).
    set (S := B2R x + B2R y) in *. set (q := B2R x / S). set (u := / 16777216) in *. apply Rabs_le_inv in Nt, R1.
    assert (Hu : 0 < u < / 1000000) by (unfold u; lra).
    assert (q0 : 0 <= q) by (apply (frac01 (B2R x) S); [unfold S; lra|exact Hp]).
    assert (Xq : B2R x = q * S) by (unfold q; field; lra).
    assert (W : (1 - u) * q <= B2R x / B2R t * 1 /\ B2R x / B2R t <= (1 + u + u * / 1000) * q).
    { rewrite Xq. replace (q * S / B2R t) with (q * (S / B2R t)) by (field; lra).
      pose proof Hp as SP. assert (UU : 0 <= u * u <= u * / 1000000) by (split; [apply Rmult_le_pos; lra|apply Rmult_le_compat_l; lra]).
      assert (U1 : 0 <= u * u * S) by (apply Rmult_le_pos; lra). assert (U2 : u * u * S <= u * / 1000000 * S) by (apply Rmult_le_compat_r; lra).
      assert (U3 : 0 <= u * S) by (apply Rmult_le_pos; lra).
      assert (1 - u <= S / B2R t <= 1 + u + u * / 1000).
      { split; apply (Rmult_le_reg_r (B2R t)); auto; unfold Rdiv; rewrite (Rmult_assoc S), Rinv_l by lra.
        - apply Rle_trans with ((1 - u) * ((1 + u) * S)); [apply Rmult_le_compat_l; lra|]. replace ((1 - u) * ((1 + u) * S)) with (S - u * u * S) by ring. lra.
        - apply Rle_trans with ((1 + u + u * / 1000) * ((1 - u) * S)); [|apply Rmult_le_compat_l; lra]. replace ((1 + u + u * / 1000) * ((1 - u) * S)) with (S + / 1000 * (u * S) - (1 + / 1000) * (u * u * S)) by ring. lra. }
      split; [|rewrite (Rmult_comm _ q); apply Rmult_le_compat_l; lra]. rewrite Rmult_1_r, (Rmult_comm _ q). apply Rmult_le_compat_l; lra. }
    clearbody S q. set (Z := B2R x / B2R t) in *. apply Rabs_le. nra.
Qed.

(** Squares are exact in double precision. *)
Lemma float_square_real (x : single) : is_finite x = true -> Rabs (B2R x) <= bpow radix2 100 -> is_finite (float_square x) = true /\ B2R (float_square x) = B2R x * B2R x.
Proof.
  intros Fx Bx. destruct (widen_real x Fx) as (Fw & Ew).
  assert (B : Rabs (B2R x * B2R x) <= bpow radix2 200). { rewrite Rabs_mult. change 200%Z with (100 + 100)%Z. rewrite bpow_plus. apply Rmult_le_compat; auto using Rabs_pos. }
  destruct (dmul_real (widen x) (widen x) 200 Fw Fw) as (F & E); [lia|now rewrite Ew|]. rewrite Ew in E. split; [exact F|]. unfold float_square. rewrite E.
  apply round_generic; auto with typeclass_instances.
  pose proof (b24 x) as G. rewrite fexp24 in G. apply FLT_format_generic in G; [|reflexivity]. destruct G as [[n e] Ex Hn He]. cbn [Fnum Fexp] in Hn, He. change (Zpower radix2 24) with (2 ^ 24)%Z in Hn.
  rewrite Ex. replace (F2R (Float radix2 n e) * F2R (Float radix2 n e)) with (F2R (Float radix2 (n * n) (e + e))) by (unfold F2R; cbn [Fnum Fexp]; rewrite mult_IZR, bpow_plus; ring).
  apply format53; [lia|]. rewrite Z.abs_mul. clear - Hn. change (2 ^ 53)%Z with 9007199254740992%Z. change (2 ^ 24)%Z with 16777216%Z in Hn. nia.
Qed.

Lemma square_factor (o M : single) : is_finite o = true -> is_finite M = true -> 0 <= B2R o < B2R M -> B2R M <= bpow radix2 100 ->
  let q := d_div (float_square (s_sub o M)) (float_square M) in let f := (B2R o - B2R M) ^ 2 / B2R M ^ 2 in
  is_finite q = true /\ 0 <= B2R q <= 1 /\ (B2R o = 0 -> B2R q = 1) /\ 0 <= f <= 1 /\ Rabs (B2R q - f) <= 3 * s_unit * f + bpow radix2 (-149).
Proof.
  intros Fo FM Ho HM q f.
  assert (L : bpow radix2 100 <= bpow radix2 101) by (apply bpow_le; lia).
  destruct (ssub_real o M Fo FM) as (FD & ED). { rewrite Rabs_left by lra. lra. }
  pose proof (minus24 o M) as N. rewrite <- ED in N. rewrite (Rabs_left (B2R o - B2R M)) in N by lra.
  assert (BD : - B2R M <= B2R (s_sub o M) <= 0).
  { rewrite ED. apply r24_between; auto with fmt; [|lra]. apply generic_format_opp. auto with fmt. }
  assert (E0 : B2R o = 0 -> B2R (s_sub o M) = - B2R M).
  { intros E. rewrite ED, E, Rminus_0_l. apply round_generic; auto with typeclass_instances. apply generic_format_opp. auto with fmt. }
  set (D := s_sub o M) in *.
  destruct (float_square_real D FD) as (F1 & E1). { rewrite Rabs_left1 by lra. lra. }
  destruct (float_square_real M FM) as (F2 & E2). { rewrite Rabs_pos_eq by lra. lra. }
  assert (P2 : 0 < B2R M * B2R M) by (apply Rmult_lt_0_compat; lra).
  pose proof (frac01 (B2R D * B2R D) (B2R M * B2R M) ltac:(split; nra) P2) as Q.
  destruct (div_real (float_square D) (float_square M) 0 F1) as (Fq & Eq); [lra|lia|rewrite E1, E2, Rabs_pos_eq by lra; change (bpow radix2 0) with 1; lra|].
  fold q in Fq, Eq. rewrite E1, E2 in Eq. split; auto. split; [rewrite Eq; apply r53_between; auto with fmt|]. split; [|split].
  - intros E. rewrite Eq, (E0 E). replace (- B2R M * - B2R M / (B2R M * B2R M)) with 1 by (field; lra). apply round_generic; auto with typeclass_instances fmt.
  - unfold f. replace ((B2R o - B2R M) ^ 2 / B2R M ^ 2) with ((B2R o - B2R M) * (B2R o - B2R M) / (B2R M * B2R M)) by (field; lra). apply frac01; auto. split; nra.
  - pose proof (CoordsFloat_proofs.err53 (B2R D * B2R D / (B2R M * B2R M))) as R1. rewrite <- Eq in R1. rewrite (Rabs_pos_eq (B2R D * B2R D / (B2R M * B2R M))) in R1 by lra.
    assert (T : 0 < bpow radix2 (-1075) <= bpow radix2 (-149)) by (split; [apply bpow_gt_0|apply bpow_le; lia]).
    rewrite unit24. change (bpow radix2 (-24)) with (/ 16777216) in *. change (bpow radix2 (-53)) with (/ 9007199254740992) in *. apply Rabs_le_inv in R1, N.
    set (a := (B2R M - B2R o) / B2R M). set (b := - B2R D / B2R M).
    assert (Ef : f = a * a) by (unfold f, a; field; lra). assert (Eb : B2R D * B2R D / (B2R M * B2R M) = b * b) by (unfold b; field; lra). rewrite Eb in R1. rewrite Ef. clear Ef Eb.
    assert (NI : 0 < / B2R M) by (apply Rinv_0_lt_compat; lra).
    assert (A0 : 0 <= a) by (unfold a; apply Rmult_le_pos; lra).
    assert (Nb : (1 - / 16777216) * a <= b <= (1 + / 16777216) * a).
    { unfold a, b, Rdiv. rewrite <- !Rmult_assoc. split; apply Rmult_le_compat_r; lra. }
    assert (S1 : ((1 - / 16777216) * a) * ((1 - / 16777216) * a) <= b * b) by (apply Rmult_le_compat; lra).
    assert (S2 : b * b <= ((1 + / 16777216) * a) * ((1 + / 16777216) * a)) by (apply Rmult_le_compat; lra).
    assert (AA : 0 <= a * a) by (apply Rmult_le_pos; lra). clear - R1 T S1 S2 AA. apply Rabs_le.
    replace (((1 - / 16777216) * a) * ((1 - / 16777216) * a)) with ((1 - / 16777216) * (1 - / 16777216) * (a * a)) in S1 by ring.
    replace (((1 + / 16777216) * a) * ((1 + / 16777216) * a)) with ((1 + / 16777216) * (1 + / 16777216) * (a * a)) in S2 by ring.
    set (w := a * a) in *. set (z := b * b) in *. lra.
Qed.

Lemma prod_near X Y x y a b e f : 0 <= x <= 1 -> 0 <= y <= 1 -> 0 <= a -> 0 <= b <= / 4 -> 0 <= e -> 0 <= f <= / 4 -> 0 <= Y -> a <= 1 ->
  Rabs (X - x) <= a * x + e -> Rabs (Y - y) <= b * y + f -> Rabs (X * Y - x * y) <= (a + b + a * b) * (x * y) + 2 * e + 2 * f.
Proof.
  intros Hx Hy Ha Hb He Hf HY Ha1 HX HYy. replace (X * Y - x * y) with ((X - x) * Y + x * (Y - y)) by ring.
  eapply Rle_trans; [apply Rabs_triang|]. rewrite !Rabs_mult, (Rabs_pos_eq Y), (Rabs_pos_eq x) by lra.
  assert (UY : Y <= (1 + b) * y + f) by (apply Rabs_le_inv in HYy; lra).
  assert (by1 : b * y <= / 4) by (apply Rle_trans with (/ 4 * 1); [apply Rmult_le_compat; lra|lra]).
  assert (b0 : 0 <= b * y) by (apply Rmult_le_pos; lra).
  assert (A1 : Rabs (X - x) * Y <= (a * x + e) * ((1 + b) * y + f)) by (apply Rmult_le_compat; auto using Rabs_pos; lra).
  assert (A2 : x * Rabs (Y - y) <= x * (b * y + f)) by (apply Rmult_le_compat_l; lra).
  assert (A3 : e * ((1 + b) * y + f) <= e * 2) by (apply Rmult_le_compat_l; lra).
  assert (ax : 0 <= a * x <= 1). { split; [apply Rmult_le_pos; lra|]. replace 1 with (1 * 1) by ring. apply Rmult_le_compat; lra. }
  assert (A4 : a * x * f <= 1 * f) by (apply Rmult_le_compat_r; lra).
  assert (A5 : x * f <= 1 * f) by (apply Rmult_le_compat_r; lra).
  replace ((a * x + e) * ((1 + b) * y + f)) with (a * (1 + b) * (x * y) + a * x * f + e * ((1 + b) * y + f)) in A1 by ring.
  replace (x * (b * y + f)) with (b * (x * y) + x * f) in A2 by ring. lra.
Qed.

Section Cell.
Variables alpha dMax o v : single.
Hypothesis Fa : is_finite alpha = true.
Hypothesis FM : is_finite dMax = true.
Hypothesis Fo : is_finite o = true.
Hypothesis Fv : is_finite v = true.
Hypothesis Ha : 0 < B2R alpha <= bpow radix2 100.
Hypothesis HM : 0 < B2R dMax <= bpow radix2 100.
Hypothesis Ho : 0 <= B2R o <= bpow radix2 100.
Hypothesis Hv : 0 <= B2R v <= bpow radix2 100.
Hypothesis Hs : 0 < B2R o + B2R v.

Lemma cell_cost : let x := float_path_cost alpha dMax o v in
  is_finite x = true /\ 0 <= B2R x <= 1 /\ (B2R dMax <= B2R o -> B2R x = 0) /\ (B2R v = 0 -> B2R x = 0) /\ (B2R o = 0 -> B2R x = 1) /\
  (forall y, path_cost (B2R alpha) (B2R dMax) (B2R o) (B2R v) = Some y -> Rabs (B2R x - y) <= 12 * s_unit * y + bpow radix2 (-140)).
Proof.
  intros x. unfold path_cost. pose proof (bpow_gt_0 radix2 (-140)) as T0.
  destruct zero_real as (Fz & Ez).
  assert (NI : is_plus_infinity v = false) by (destruct v; try reflexivity; discriminate).
  unfold x, float_path_cost. clear x. rewrite NI, orb_false_r. destruct (Bleb dMax o) eqn:Le.
  { apply sleb in Le; auto. split; auto. rewrite Ez. split; [lra|]. split; auto. split; auto. split; [lra|]. intros y. destruct (Rleb_spec (B2R dMax) (B2R o)) as [L|L]; [|lra].
    intros [= <-]. rewrite Rminus_0_r, Rabs_R0. lra. }
  assert (Lt : B2R o < B2R dMax). { destruct (Rlt_le_dec (B2R o) (B2R dMax)) as [L|L]; auto. apply (sleb dMax o FM Fo) in L. congruence. }
  destruct (fraction alpha o (s_add alpha o) Fa Fo ltac:(lra) Ho ltac:(lra) (or_introl eq_refl)) as (F1 & B1 & _ & O1 & N1).
  destruct (fraction v o (s_add o v) Fv Fo Hv Ho ltac:(lra) (or_intror eq_refl)) as (F2 & B2 & Z2 & O2 & N2).
  destruct (square_factor o dMax Fo FM ltac:(lra) ltac:(lra)) as (F3 & B3 & O3 & Bf & N3).
  pose proof (frac01 (B2R alpha) (B2R alpha + B2R o) ltac:(lra) ltac:(lra)) as G1. pose proof (frac01 (B2R v) (B2R v + B2R o) ltac:(lra) ltac:(lra)) as G2.
  set (q1 := s_div alpha (s_add alpha o)) in *. set (q2 := s_div v (s_add o v)) in *. set (q3 := d_div (float_square (s_sub o dMax)) (float_square dMax)) in *.
  set (f3 := (B2R o - B2R dMax) ^ 2 / B2R dMax ^ 2) in *. set (f1 := B2R alpha / (B2R alpha + B2R o)) in *. set (f2 := B2R v / (B2R v + B2R o)) in *.
  assert (B12 : 0 <= B2R q1 * B2R q2 <= 1). { split; [apply Rmult_le_pos; lra|]. rewrite <- (Rmult_1_r 1). apply Rmult_le_compat; lra. }
  destruct (mul_real q1 q2 F1 F2) as (Fp & Ep).
  { pose proof (rnd24_small (B2R q1 * B2R q2) 0 ltac:(lia)) as R. rewrite (Rabs_pos_eq (B2R q1 * B2R q2)) in R by lra. specialize (R ltac:(change (bpow radix2 0) with 1; lra)).
    destruct (Rlt_bool_spec (Rabs (rnd24 (B2R q1 * B2R q2))) (bpow radix2 128)); [assumption|discriminate]. }
  set (p := s_mul q1 q2) in *.
  assert (Bp : 0 <= B2R p <= 1) by (rewrite Ep; apply r24_between; auto with fmt).
  destruct (widen_real p Fp) as (Fw & Ew).
  assert (Bg : 0 <= B2R p * B2R q3 <= 1). { split; [apply Rmult_le_pos; lra|]. rewrite <- (Rmult_1_r 1). apply Rmult_le_compat; lra. }
  destruct (dmul_real (widen p) q3 0 Fw F3) as (Fg & Eg); [lia|rewrite Ew, Rabs_pos_eq by lra; change (bpow radix2 0) with 1; lra|]. rewrite Ew in Eg.
  set (g := d_mul (widen p) q3) in *.
  assert (Bg' : 0 <= B2R g <= 1) by (rewrite Eg; apply r53_between; auto with fmt).
  destruct (narrow_real g Fg) as (Fn & En). { rewrite Rabs_pos_eq by lra. apply Rle_trans with (bpow radix2 0); [change (bpow radix2 0) with 1; lra|apply bpow_le; lia]. }
  split; auto. split; [rewrite En; apply r24_between; auto with fmt|]. split; [lra|]. split; [|split].
  - intros E. rewrite En, Eg, Ep, (Z2 E), Rmult_0_r, round_0, Rmult_0_l, !round_0 by auto with typeclass_instances. reflexivity.
  - intros E. rewrite En, Eg, Ep, (O1 E), (O2 E), (O3 E), !Rmult_1_r.
    rewrite (round_generic radix2 (SpecFloat.fexp 24 128) (round_mode mode_NE) 1) by auto with typeclass_instances fmt.
    rewrite (round_generic radix2 (SpecFloat.fexp 53 1024) (round_mode mode_NE) 1) by auto with typeclass_instances fmt.
    apply round_generic; auto with typeclass_instances fmt.
  - intros y. destruct (Rleb_spec (B2R dMax) (B2R o)) as [L|L]; [lra|]. destruct (Reqb_spec (B2R o + B2R v) 0) as [E|_]; [lra|].
    intros [= <-]. replace (B2R v / (B2R o + B2R v)) with f2 by (unfold f2; f_equal; ring). fold f1 f3.
    assert (Tt : 0 < bpow radix2 (-149) /\ bpow radix2 (-150) <= bpow radix2 (-149) /\ bpow radix2 (-1075) <= bpow radix2 (-149) /\ bpow radix2 (-149) * 512 = bpow radix2 (-140)).
    { split; [apply bpow_gt_0|]. split; [apply bpow_le; lia|]. split; [apply bpow_le; lia|]. change 512 with (bpow radix2 9). rewrite <- bpow_plus. reflexivity. }
    destruct Tt as (t0 & t1 & t2 & t3). assert (t4 : bpow radix2 (-149) <= / 4) by (change (/ 4) with (bpow radix2 (-2)); apply bpow_le; lia).
    rewrite unit24 in *. 
    pose proof (err24 (B2R q1 * B2R q2)) as R1. rewrite <- Ep, (Rabs_pos_eq (B2R q1 * B2R q2)) in R1 by lra.
    pose proof (CoordsFloat_proofs.err53 (B2R p * B2R q3)) as R2. rewrite <- Eg, (Rabs_pos_eq (B2R p * B2R q3)) in R2 by lra.
    pose proof (err24 (B2R g)) as R3. rewrite <- En, (Rabs_pos_eq (B2R g)) in R3 by lra.
    change (bpow radix2 (-24)) with (/ 16777216) in *. change (bpow radix2 (-53)) with (/ 9007199254740992) in *.
    set (h := bpow radix2 (-149)) in *. rewrite <- t3 in *. set (u := / 16777216) in *.
    assert (Hu : 0 < u < / 1000000) by (unfold u; lra).
    assert (Hu53 : / 9007199254740992 <= u * / 1000) by (unfold u; lra). 
    assert (u3 : 0 <= 3 * u <= / 4) by lra.
    pose proof (prod_near (B2R q1) (B2R q2) f1 f2 (3 * u) (3 * u) h h G1 G2 ltac:(lra) u3 ltac:(lra) ltac:(lra) ltac:(lra) ltac:(lra) N1 N2) as P1.
    assert (G12 : 0 <= f1 * f2 <= 1). { split; [apply Rmult_le_pos; lra|]. rewrite <- (Rmult_1_r 1). apply Rmult_le_compat; lra. }
    assert (UU : 0 <= u * u <= u * / 1000000) by (split; [apply Rmult_le_pos; lra|apply Rmult_le_compat_l; lra]).
    assert (Pp : Rabs (B2R p - f1 * f2) <= (7 + / 100) * u * (f1 * f2) + 6 * h).
    { set (m := B2R q1 * B2R q2) in *. set (w := f1 * f2) in *. apply Rabs_le_inv in R1, P1.
      assert (K1 : (3 * u + 3 * u + 3 * u * (3 * u)) * w <= (6 + / 1000) * u * w) by (apply Rmult_le_compat_r; lra).
      assert (K2 : u * m <= u * (w + (6 + / 1000) * u * w + 4 * h)) by (apply Rmult_le_compat_l; lra).
      assert (K3 : u * u * w <= u * / 1000000 * w) by (apply Rmult_le_compat_r; lra).
      assert (K4 : u * h <= 1 * h) by (apply Rmult_le_compat_r; lra). assert (K5 : 0 <= u * w) by (apply Rmult_le_pos; lra).
      assert (K4' : u * h <= / 1000 * h) by (apply Rmult_le_compat_r; lra).
      apply Rabs_le. replace (u * (w + (6 + / 1000) * u * w + 4 * h)) with (u * w + (6 + / 1000) * (u * u * w) + 4 * (u * h)) in K2 by ring. lra. }
    pose proof (prod_near (B2R p) (B2R q3) (f1 * f2) f3 ((7 + / 100) * u) (3 * u) (6 * h) h G12 Bf ltac:(lra) u3 ltac:(lra) ltac:(lra) ltac:(lra) ltac:(lra) Pp N3) as P2.
    set (m := B2R p * B2R q3) in *. set (w := f1 * f2 * f3) in *.
    assert (W0 : 0 <= w) by (apply Rmult_le_pos; lra).
    assert (Uw : 0 <= u * w) by (apply Rmult_le_pos; lra).
    assert (K1 : ((7 + / 100) * u + 3 * u + (7 + / 100) * u * (3 * u)) * w <= (10 + / 50) * u * w) by (apply Rmult_le_compat_r; lra).
    apply Rabs_le_inv in R2, R3, P2.
    assert (Pg : Rabs (B2R g - w) <= (10 + / 25) * u * w + 20 * h).
    { assert (K2 : / 9007199254740992 * m <= u * / 1000 * m) by (apply Rmult_le_compat_r; lra).
      assert (K6 : u * m <= u * ((1 + 1) * w + 14 * h)).
      { apply Rmult_le_compat_l; [lra|]. assert ((10 + / 50) * u * w <= 1 * w) by (apply Rmult_le_compat_r; lra). lra. }
      assert (K4' : u * h <= / 1000 * h) by (apply Rmult_le_compat_r; lra).
      apply Rabs_le. replace (u * / 1000 * m) with (/ 1000 * (u * m)) in K2 by ring. replace (u * ((1 + 1) * w + 14 * h)) with (2 * (u * w) + 14 * (u * h)) in K6 by ring. lra. }
    apply Rabs_le_inv in Pg.
    assert (K6 : u * B2R g <= u * (w + / 1000 * w + 20 * h)).
    { apply Rmult_le_compat_l; [lra|]. assert ((10 + / 25) * u * w <= / 1000 * w) by (apply Rmult_le_compat_r; lra). lra. }
    assert (K4' : u * h <= / 1000 * h) by (apply Rmult_le_compat_r; lra).
    replace (u * (w + / 1000 * w + 20 * h)) with ((1 + / 1000) * (u * w) + 20 * (u * h)) in K6 by ring.
    apply Rabs_le. lra.
Qed.
End Cell.

(** ** The cells of a map *)

Section Map.
Variables rowsN colsN : Z.
Hypothesis Hsize : representable rowsN colsN.
Notation ins := (inside rowsN colsN).
Variables alpha dMax resolution : single.
Hypothesis Fa : is_finite alpha = true.
Hypothesis FM : is_finite dMax = true.
Hypothesis Fr : is_finite resolution = true.
Hypothesis Ha : 0 < B2R alpha <= bpow radix2 100.
Hypothesis HM : 0 < B2R dMax <= bpow radix2 100.
Hypothesis Hr : 0 < B2R resolution <= bpow radix2 30.

Lemma float_costs st f w fv c : ins c ->
  holds rowsN colsN (g_obs st) f [] -> J rowsN colsN f [] -> g_vor st = Some w -> holds rowsN colsN w fv [] -> J rowsN colsN fv [] ->
  apart rowsN colsN f [] (Some w) ->
  exists x, get_float_cost alpha dMax resolution st c = Ok x /\ is_finite x = true /\ 0 <= B2R x <= 1 /\
    (forall d, squared_distance_to_obstacle (g_obs st) c = Ok d -> B2R dMax <= B2R (float_distance resolution d) -> B2R x = 0) /\
    (nearest_obstacle w c = Ok c -> B2R x = 0) /\ (is_obst f c -> B2R x = 1) /\
    (forall d v y, squared_distance_to_obstacle (g_obs st) c = Ok d -> squared_distance_to_obstacle w c = Ok v ->
      path_cost (B2R alpha) (B2R dMax) (B2R (float_distance resolution d)) (B2R (float_distance resolution v)) = Some y ->
      Rabs (B2R x - y) <= 12 * s_unit * y + bpow radix2 (-140)).
Proof.
  intros Hi (_ & _ & _ & Hf & _) HJ Ew (_ & _ & _ & Hfv & _) HJv Hap. unfold get_float_cost, squared_distance_to_obstacle, nearest_obstacle.
  rewrite Ew, (Hf c Hi), (Hfv c Hi). cbn [rmap bind].
  pose proof (cons_dist rowsN colsN Hsize c (f c) Hi (j_cons _ _ _ _ HJ c Hi)) as D1.
  pose proof (cons_dist rowsN colsN Hsize c (fv c) Hi (j_cons _ _ _ _ HJv c Hi)) as D2.
  pose proof (zero_dist rowsN colsN f c (j_cons _ _ _ _ HJ) Hi) as Z1. pose proof (zero_dist rowsN colsN fv c (j_cons _ _ _ _ HJv) Hi) as Z2.
  assert (Hnb : ~ (i_dist (f c) = 0%Z /\ i_dist (fv c) = 0%Z)).
  { intros [A B]. apply Z1 in A. apply Z2 in B. destruct (Hap c Hi A) as [[_ []]|K]. apply K. exists (fv c). split; auto. }
  destruct (float_distance_real resolution (i_dist (f c)) Fr Hr D1) as (F1 & B1 & E1 & P1 & _).
  destruct (float_distance_real resolution (i_dist (fv c)) Fr Hr D2) as (F2 & B2 & E2 & P2 & _).
  assert (L : bpow radix2 47 <= bpow radix2 100) by (apply bpow_le; lia).
  destruct (cell_cost alpha dMax (float_distance resolution (i_dist (f c))) (float_distance resolution (i_dist (fv c))) Fa FM F1 F2 Ha HM ltac:(lra) ltac:(lra)) as (Q1 & Q2 & Q3 & Q4 & Q5 & Q6).
  { destruct (Z.eq_dec (i_dist (f c)) 0) as [E|E].
    - assert (1 <= i_dist (fv c))%Z as K by (destruct (Z.eq_dec (i_dist (fv c)) 0); [exfalso; auto|lia]). specialize (P2 K). lra.
    - specialize (P1 ltac:(lia)). lra. }
  eexists. split; [reflexivity|]. split; [exact Q1|]. split; [exact Q2|]. split; [|split; [|split]].
  - intros d [= <-]. exact Q3.
  - intros [= En]. apply Q4, E2, Z2. exact En.
  - intros Ob. apply Q5, E1. now apply Z1.
  - intros d v y [= <-] [= <-]. apply Q6.
Qed.

Variables top topv : nat -> list (cell * Z) -> nat.
Hypothesis Htop : priority top.
Hypothesis Htopv : priority topv.
Variable occ : grid Z.
Hypothesis Ho : sized rowsN colsN occ.

Lemma float_api_costs ops :
  well_used rowsN colsN false (ops ++ [GUpdateObstacles; GUpdateVoronoi]) -> existsb is_edge ops = false ->
  reaches top topv occ (ops ++ [GUpdateObstacles; GUpdateVoronoi]) (fun st => forall c, ins c ->
    exists x, get_float_cost alpha dMax resolution st c = Ok x /\ is_finite x = true /\ 0 <= B2R x <= 1 /\
      (forall d, squared_distance_to_obstacle (g_obs st) c = Ok d -> B2R dMax <= B2R (float_distance resolution d) -> B2R x = 0) /\
      (forall w, g_vor st = Some w -> nearest_obstacle w c = Ok c -> B2R x = 0) /\
      (obstacle ops c -> B2R x = 1) /\
      (forall w d v y, g_vor st = Some w -> squared_distance_to_obstacle (g_obs st) c = Ok d -> squared_distance_to_obstacle w c = Ok v ->
        path_cost (B2R alpha) (B2R dMax) (B2R (float_distance resolution d)) (B2R (float_distance resolution v)) = Some y ->
        Rabs (B2R x - y) <= 12 * s_unit * y + bpow radix2 (-140))).
Proof.
  intros Hu He.
  destruct (history_diagram rowsN colsN Hsize top topv (priority_lt _ Htop) (priority_lt _ Htopv) occ ops (occ_mk rowsN colsN Hsize occ Ho) Hu) as (k & st0 & st & f & w & fv & E0 & E & A & B & D & F & G & K & M).
  exists k, st0, st. split; auto. split; auto. intros c Hc.
  destruct (float_costs st f w fv c) as (x & X1 & X2 & X3 & X4 & X5 & X6 & X7); auto.
  exists x. do 4 (split; [now auto|]). split; [|split].
  - intros w' Ew. assert (w' = w) as -> by congruence. exact X5.
  - intros Oc. apply X6. now apply M.
  - intros w' d v y Ew. assert (w' = w) as -> by congruence. apply X7.
Qed.
End Map.
