(** The conversions between rows and positions with the roundings of the code. *)
From Coq Require Import Reals ZArith Lra Lia.
From Flocq Require Import Core BinarySingleNaN Relative.
From Verif Require Import Base CoordsFloat_model.
Local Open Scope R_scope.

Notation rnd24 := (round radix2 (SpecFloat.fexp 24 128) (round_mode mode_NE)).
Notation rnd53 := (round radix2 (SpecFloat.fexp 53 1024) (round_mode mode_NE)).
#[local] Instance prec24 : Prec_gt_0 24 := eq_refl.
#[local] Instance emax128 : Prec_lt_emax 24 128 := eq_refl.
#[local] Instance vexp24 : Valid_exp (SpecFloat.fexp 24 128) := fexp_correct 24 128 prec24.
#[local] Instance prec53 : Prec_gt_0 53 := eq_refl.
#[local] Instance emax1024 : Prec_lt_emax 53 1024 := eq_refl.
#[local] Instance vexp53 : Valid_exp (SpecFloat.fexp 53 1024) := fexp_correct 53 1024 prec53.
#[local] Instance vrndne : Valid_rnd (round_mode mode_NE) := valid_rnd_round_mode mode_NE.

Lemma fexp24 : SpecFloat.fexp 24 128 = FLT_exp (-149) 24.
Proof. reflexivity. Qed.
Lemma fexp53 : SpecFloat.fexp 53 1024 = FLT_exp (-1074) 53.
Proof. reflexivity. Qed.

Lemma format24 n e : (-149 <= e)%Z -> (Z.abs n < 2 ^ 24)%Z -> generic_format radix2 (SpecFloat.fexp 24 128) (F2R (Float radix2 n e)).
Proof. intros He Hn. rewrite fexp24. apply generic_format_FLT. exists (Float radix2 n e); auto. Qed.
Lemma format53 n e : (-1074 <= e)%Z -> (Z.abs n < 2 ^ 53)%Z -> generic_format radix2 (SpecFloat.fexp 53 1024) (F2R (Float radix2 n e)).
Proof. intros He Hn. rewrite fexp53. apply generic_format_FLT. exists (Float radix2 n e); auto. Qed.
Lemma format53_pow e : (-1074 <= e)%Z -> generic_format radix2 (SpecFloat.fexp 53 1024) (bpow radix2 e).
Proof. intros He. replace (bpow radix2 e) with (F2R (Float radix2 1 e)) by (unfold F2R; cbn [Fnum Fexp]; ring). apply format53; [exact He|reflexivity]. Qed.
Lemma format24_pow e : (-149 <= e)%Z -> generic_format radix2 (SpecFloat.fexp 24 128) (bpow radix2 e).
Proof. intros He. replace (bpow radix2 e) with (F2R (Float radix2 1 e)) by (unfold F2R; cbn [Fnum Fexp]; ring). apply format24; [exact He|reflexivity]. Qed.

(** No overflow. *)
Lemma rnd53_small x e : (-1074 <= e < 1024)%Z -> Rabs x <= bpow radix2 e -> Rlt_bool (Rabs (rnd53 x)) (bpow radix2 1024) = true.
Proof.
  intros He Hx. apply Rlt_bool_true. apply Rle_lt_trans with (bpow radix2 e); [|apply bpow_lt; lia].
  apply abs_round_le_generic; auto with typeclass_instances. apply format53_pow. lia.
Qed.
Lemma rnd24_small x e : (-149 <= e < 128)%Z -> Rabs x <= bpow radix2 e -> Rlt_bool (Rabs (rnd24 x)) (bpow radix2 128) = true.
Proof.
  intros He Hx. apply Rlt_bool_true. apply Rle_lt_trans with (bpow radix2 e); [|apply bpow_lt; lia].
  apply abs_round_le_generic; auto with typeclass_instances. apply format24_pow. lia.
Qed.

(** The operations, where they do not overflow. *)
Lemma add_real x y e : is_finite x = true -> is_finite y = true -> (-1074 <= e < 1024)%Z -> Rabs (B2R x + B2R y) <= bpow radix2 e ->
  is_finite (d_add x y) = true /\ B2R (d_add x y) = rnd53 (B2R x + B2R y).
Proof.
  intros Fx Fy He H. pose proof (Bplus_correct 53 1024 prec53 emax1024 mode_NE x y Fx Fy) as C. rewrite (rnd53_small _ e He H) in C. destruct C as (C1 & C2 & _). split; assumption.
Qed.
Lemma sub_real x y e : is_finite x = true -> is_finite y = true -> (-1074 <= e < 1024)%Z -> Rabs (B2R x - B2R y) <= bpow radix2 e ->
  is_finite (d_sub x y) = true /\ B2R (d_sub x y) = rnd53 (B2R x - B2R y).
Proof.
  intros Fx Fy He H. pose proof (Bminus_correct 53 1024 prec53 emax1024 mode_NE x y Fx Fy) as C. rewrite (rnd53_small _ e He H) in C. destruct C as (C1 & C2 & _). split; assumption.
Qed.
Lemma div_real x y e : is_finite x = true -> B2R y <> 0 -> (-1074 <= e < 1024)%Z -> Rabs (B2R x / B2R y) <= bpow radix2 e ->
  is_finite (d_div x y) = true /\ B2R (d_div x y) = rnd53 (B2R x / B2R y).
Proof.
  intros Fx Hy He H. pose proof (Bdiv_correct 53 1024 prec53 emax1024 mode_NE x y Hy) as C. rewrite (rnd53_small _ e He H) in C. destruct C as (C1 & C2 & _).
  split; [rewrite <- Fx; exact C2|exact C1].
Qed.
Lemma mul_real x y : is_finite x = true -> is_finite y = true -> Rabs (rnd24 (B2R x * B2R y)) < bpow radix2 128 ->
  is_finite (s_mul x y) = true /\ B2R (s_mul x y) = rnd24 (B2R x * B2R y).
Proof.
  intros Fx Fy H. pose proof (Bmult_correct 24 128 prec24 emax128 mode_NE x y) as C. rewrite (Rlt_bool_true _ _ H) in C. destruct C as (C1 & C2 & _).
  rewrite Fx, Fy in C2. split; assumption.
Qed.
Lemma of_int_real z : (Z.abs z < 2 ^ 24)%Z -> is_finite (s_of z 0) = true /\ B2R (s_of z 0) = IZR z.
Proof.
  intros H. assert (E : F2R (Float radix2 z 0) = IZR z) by (unfold F2R; cbn [Fnum Fexp bpow]; ring).
  assert (G : rnd24 (IZR z) = IZR z). { apply round_generic; auto with typeclass_instances. rewrite <- E. apply format24; [lia|exact H]. }
  pose proof (binary_normalize_correct 24 128 prec24 emax128 mode_NE z 0 false) as C. cbv zeta in C. rewrite E in C.
  rewrite (rnd24_small _ 24) in C; [|lia|]. { destruct C as (C1 & C2 & _). rewrite G in C1. split; assumption. }
  rewrite <- abs_IZR. rewrite <- IZR_Zpower by lia. apply IZR_le. change (radix2 ^ 24)%Z with (2 ^ 24)%Z. lia.
Qed.
Lemma widen_real x : is_finite x = true -> is_finite (widen x) = true /\ B2R (widen x) = B2R x.
Proof.
  destruct x as [s|s| |s m e H]; intros F; try discriminate; cbn [widen].
  { split; reflexivity. }
  pose proof H as Hb. unfold SpecFloat.bounded in Hb. apply Bool.andb_true_iff in Hb as [Hc He].
  pose proof (canonical_bounded 24 128 s m e H) as Hcan.
  assert (G : generic_format radix2 (SpecFloat.fexp 24 128) (F2R (Float radix2 (SpecFloat.cond_Zopp s (Zpos m)) e))) by (apply generic_format_canonical; exact Hcan).
  rewrite fexp24 in G. apply FLT_format_generic in G; [|apply prec24]. destruct G as [[n e'] G1 G2 G3]. cbn [Fnum Fexp] in *.
  pose proof (binary_normalize_correct 53 1024 prec53 emax1024 mode_NE (SpecFloat.cond_Zopp s (Zpos m)) e s) as C. cbv zeta in C.
  pose proof (abs_B2R_lt_emax 24 128 (B754_finite s m e H)) as L. change (B2R (B754_finite s m e H)) with (F2R (Float radix2 (SpecFloat.cond_Zopp s (Zpos m)) e)) in *.
  rewrite (rnd53_small _ 128) in C; [|lia|lra]. destruct C as (C1 & C2 & _). split; [exact C2|].
  etransitivity; [exact C1|]. apply round_generic; auto with typeclass_instances. rewrite G1. apply format53; [lia|]. cbn in G2. lia.
Qed.

(** Errors of the roundings. *)
Lemma err53 x : Rabs (rnd53 x - x) <= bpow radix2 (-53) * Rabs x + bpow radix2 (-1075).
Proof.
  destruct (error_N_FLT radix2 (-1074) 53 eq_refl (fun z => negb (Z.even z)) x) as (eps & eta & H1 & H2 & _ & E).
  change (Rabs (rnd53 x - x) <= bpow radix2 (-53) * Rabs x + bpow radix2 (-1075)). change (rnd53 x) with (round radix2 (FLT_exp (-1074) 53) (Znearest (fun z => negb (Z.even z))) x).
  rewrite E. replace (x * (1 + eps) + eta - x) with (x * eps + eta) by ring. apply Rle_trans with (Rabs (x * eps) + Rabs eta); [apply Rabs_triang|].
  rewrite Rabs_mult. replace (bpow radix2 (-53)) with (/ 2 * bpow radix2 (-53 + 1)) by (rewrite bpow_plus; change (bpow radix2 1) with 2; field).
  replace (bpow radix2 (-1075)) with (/ 2 * bpow radix2 (-1074)) by (change (-1074)%Z with (-1075 + 1)%Z; rewrite bpow_plus; change (bpow radix2 1) with 2; field).
  pose proof (Rabs_pos x). rewrite (Rmult_comm (Rabs x)). apply Rplus_le_compat; [|exact H2]. apply Rmult_le_compat_r; auto.
Qed.
Lemma err24 x : Rabs (rnd24 x - x) <= bpow radix2 (-24) * Rabs x + bpow radix2 (-150).
Proof.
  destruct (error_N_FLT radix2 (-149) 24 eq_refl (fun z => negb (Z.even z)) x) as (eps & eta & H1 & H2 & _ & E).
  change (rnd24 x) with (round radix2 (FLT_exp (-149) 24) (Znearest (fun z => negb (Z.even z))) x).
  rewrite E. replace (x * (1 + eps) + eta - x) with (x * eps + eta) by ring. apply Rle_trans with (Rabs (x * eps) + Rabs eta); [apply Rabs_triang|].
  rewrite Rabs_mult. replace (bpow radix2 (-24)) with (/ 2 * bpow radix2 (-24 + 1)) by (rewrite bpow_plus; change (bpow radix2 1) with 2; field).
  replace (bpow radix2 (-150)) with (/ 2 * bpow radix2 (-149)) by (change (-149)%Z with (-150 + 1)%Z; rewrite bpow_plus; change (bpow radix2 1) with 2; field).
  pose proof (Rabs_pos x). rewrite (Rmult_comm (Rabs x)). apply Rplus_le_compat; [|exact H2]. apply Rmult_le_compat_r; auto.
Qed.

(** [static_cast<int>]. *)
Lemma trunc_real (x : double) n : is_finite x = true -> (0 <= n < 2 ^ 31)%Z -> IZR n <= B2R x < IZR n + 1 -> d_trunc x = Ok n.
Proof.
  intros F Hn Hx. unfold d_trunc. rewrite F. pose proof (Btrunc_correct 53 1024 emax1024 x) as T.
  assert (E : Btrunc x = n).
  { apply eq_IZR. rewrite T. unfold round, F2R, scaled_mantissa, cexp, FIX_exp. cbn [Fnum Fexp Z.opp bpow]. rewrite !Rmult_1_r. f_equal.
    rewrite Ztrunc_floor by (pose proof (IZR_le 0 n (proj1 Hn)); lra). apply Zfloor_imp. rewrite plus_IZR. exact Hx. }
  rewrite E. unfold to_int. replace ((- 2 ^ 31 <=? n) && (n <? 2 ^ 31))%Z with true by lia. reflexivity.
Qed.

Lemma u53 : bpow radix2 (-53) = / 9007199254740992.
Proof. reflexivity. Qed.
Lemma u24 : bpow radix2 (-24) = / 16777216.
Proof. reflexivity. Qed.
Lemma p50 : bpow radix2 50 = 1125899906842624.
Proof. reflexivity. Qed.
Lemma p30 : bpow radix2 30 = 1073741824.
Proof. reflexivity. Qed.

Section RoundTrip.
Variables (o : double) (r : single) (i : Z).
Hypothesis Fo : is_finite o = true.
Hypothesis Fr : is_finite r = true.
Hypothesis Hr : bpow radix2 (-126) <= B2R r.
Hypothesis Ho : Rabs (B2R o) <= bpow radix2 50 * B2R r.
Hypothesis Hi : (0 <= i < 2 ^ 23)%Z.
Hypothesis Hp : rnd24 (IZR i * B2R r) < bpow radix2 128.

Lemma r_pos : 0 < B2R r.
Proof using Hr. clear - Hr. pose proof (bpow_gt_0 radix2 (-126)). lra. Qed.
Lemma tiny : bpow radix2 (-150) <= bpow radix2 (-24) * B2R r /\ bpow radix2 (-1075) <= bpow radix2 (-53) * B2R r.
Proof using Hr.
  clear - Hr. split.
  - change (-150)%Z with (-24 + -126)%Z. rewrite bpow_plus. apply Rmult_le_compat_l; [apply bpow_ge_0|exact Hr].
  - apply Rle_trans with (bpow radix2 (-53 + -126)); [apply bpow_le; lia|]. rewrite bpow_plus. apply Rmult_le_compat_l; [apply bpow_ge_0|exact Hr].
Qed.
Lemma r_big : B2R r < bpow radix2 128.
Proof using Fr. pose proof (abs_B2R_lt_emax 24 128 r) as H. pose proof (Rle_abs (B2R r)). lra. Qed.

(** The offset of the row. *)
Lemma offset_ok : let p := widen (s_mul (s_of i 0) r) in is_finite p = true /\ B2R p = rnd24 (IZR i * B2R r) /\
  Rabs (B2R p - IZR i * B2R r) <= bpow radix2 (-24) * (IZR i * B2R r) + bpow radix2 (-24) * B2R r.
Proof using Fr Hr Hi Hp.
  clear Fo Ho. destruct (of_int_real i) as [F1 E1]; [lia|]. pose proof (IZR_le 0 i (proj1 Hi)) as Pi. pose proof r_pos as Pr. pose proof (Rmult_le_pos _ _ Pi (Rlt_le _ _ Pr)) as Pp.
  destruct (mul_real (s_of i 0) r F1 Fr) as [F2 E2].
  { rewrite E1, Rabs_pos_eq; auto. apply round_ge_generic; auto with typeclass_instances. apply generic_format_0. }
   destruct (widen_real _ F2) as [F3 E3]. rewrite E1 in E2. cbv zeta. rewrite E3, E2.
  split; [exact F3|]. split; [reflexivity|]. pose proof (err24 (IZR i * B2R r)) as E. rewrite (Rabs_pos_eq _ Pp) in E. destruct tiny as [T _]. lra.
Qed.

Lemma round_trip_near : exists n, position_to_row o r (row_to_position o r i) = Ok n /\ (n = i \/ n = i - 1)%Z /\ (i = 0 -> n = 0)%Z.
Proof using Fo Fr Hr Ho Hi Hp.
  destruct offset_ok as (Fp & Ep & Bp). set (p := widen (s_mul (s_of i 0) r)) in *. pose proof (IZR_le 0 i (proj1 Hi)) as Pi. pose proof r_pos as Pr.
  pose proof (Rmult_le_pos _ _ Pi (Rlt_le _ _ Pr)) as Pp. destruct tiny as [_ Ty]. pose proof r_big as Hb.
  assert (Hi' : IZR i <= 8388607) by (apply IZR_le; lia). assert (Hir : IZR i * B2R r <= 8388607 * B2R r) by (apply Rmult_le_compat_r; lra).
  destruct (widen_real r Fr) as [Fw Ew]. unfold position_to_row, row_to_position. fold p.
  rewrite u53 in *. rewrite u24, p50 in *. apply Rabs_le_inv in Bp. apply Rabs_le_inv in Ho.
  set (y := IZR i * B2R r) in *. set (q := B2R r) in *. set (O := B2R o) in *. set (P := B2R p) in *.
  assert (BP : 0 <= P).
  { rewrite Ep. apply round_ge_generic; auto with typeclass_instances. apply generic_format_0. }
  assert (BQ : 8388610 * q + 1125899906842624 * q <= bpow radix2 200).
  { apply Rle_trans with (bpow radix2 51 * bpow radix2 128); [|rewrite <- bpow_plus; apply bpow_le; lia].
    apply Rle_trans with (bpow radix2 51 * q). { change (bpow radix2 51) with 2251799813685248. lra. } apply Rmult_le_compat_l; [apply bpow_ge_0|lra]. }
  destruct (add_real o p 200 Fo Fp) as [Fx Ex]; [lia|apply Rabs_le; fold O P; lra|]. set (x := d_add o p) in *. fold O P in Ex.
  pose proof (err53 (O + P)) as Bx. rewrite <- Ex in Bx. rewrite u53 in Bx.
  assert (AO : Rabs (O + P) <= 1125899906842624 * q + 8388610 * q) by (apply Rabs_le; lra).
  assert (Bx' : Rabs (B2R x - (O + P)) <= q / 7) by lra. apply Rabs_le_inv in Bx'.
  destruct (sub_real x o 200 Fx Fo) as [Fd Ed]; [lia|apply Rabs_le; fold O; lra|]. set (d := d_sub x o) in *. fold O in Ed.
  pose proof (err53 (B2R x - O)) as Bd. rewrite <- Ed in Bd. rewrite u53 in Bd.
  assert (AD : Rabs (B2R x - O) <= 8388611 * q) by (apply Rabs_le; lra).
  assert (Bd' : Rabs (B2R d - (B2R x - O)) <= q / 100) by lra. apply Rabs_le_inv in Bd'.
  assert (Q1 : Rabs (B2R d / q - IZR i) <= 7 / 10).
  { replace (B2R d / q - IZR i) with ((B2R d - y) / q) by (unfold y; fold q; field; lra). apply Rabs_le.
    split; [apply Rmult_le_reg_r with q; [lra|]|apply Rmult_le_reg_r with q; [lra|]]; unfold Rdiv; rewrite Rmult_assoc, ?(Rinv_l q) by lra; lra. }
  apply Rabs_le_inv in Q1.
  destruct (div_real d (widen r) 30 Fd) as [Fq Eq]; [rewrite Ew; fold q; lra|lia|rewrite Ew; fold q; apply Rabs_le; rewrite p30; lra|]. rewrite Ew in Eq. fold q in Eq.
  pose proof (err53 (B2R d / q)) as Bq. rewrite <- Eq in Bq. rewrite u53 in Bq. assert (AQ : Rabs (B2R d / q) <= 8388612) by (apply Rabs_le; lra).
  assert (T : bpow radix2 (-1075) <= / 1000). { apply Rle_trans with (bpow radix2 (-53)); [apply bpow_le; lia|]. rewrite u53. lra. }
  assert (Bq' : Rabs (B2R (d_div d (widen r)) - B2R d / q) <= / 100) by lra. apply Rabs_le_inv in Bq'.
  assert (Z0 : i = 0%Z -> B2R (d_div d (widen r)) = 0).
  { intros E0. assert (y0 : y = 0) by (unfold y; rewrite E0; ring). assert (P0 : P = 0) by (rewrite Ep, y0; apply round_0; auto with typeclass_instances).
    assert (X0 : B2R x = O). { rewrite Ex, P0, Rplus_0_r. apply round_generic; auto with typeclass_instances. apply generic_format_B2R. }
    assert (D0 : B2R d = 0). { rewrite Ed, X0. replace (O - O) with 0 by ring. apply round_0; auto with typeclass_instances. }
    rewrite Eq, D0. unfold Rdiv. rewrite Rmult_0_l. apply round_0; auto with typeclass_instances. }
  destruct (Rle_lt_dec (IZR i) (B2R (d_div d (widen r)))) as [L|L].
  - exists i. split; [apply trunc_real; auto; [lia|lra]|]. split; auto.
  - exists (i - 1)%Z. destruct (Z.eq_dec i 0) as [E0|N0]; [specialize (Z0 E0); rewrite E0 in L; lra|]. split; [apply trunc_real; auto; [lia|rewrite minus_IZR; lra]|]. split; [auto|lia].
Qed.
End RoundTrip.

(** [ceil]. *)
Lemma ceil_real (x : single) n : s_ceil x = Ok n -> is_finite x = true /\ IZR n - 1 < B2R x <= IZR n.
Proof.
  destruct x as [s|s| |s m e H]; cbn [s_ceil is_finite]; try discriminate.
  { intros E. injection E as <-. cbn. split; [reflexivity|lra]. }
  change (B2R (B754_finite s m e H)) with (F2R (Float radix2 (SpecFloat.cond_Zopp s (Zpos m)) e)). set (z := SpecFloat.cond_Zopp s (Zpos m)). unfold to_int.
  destruct (Z.leb_spec 0 e) as [He|He]; destruct (_ && _)%bool; try discriminate; intros E; assert (En := f_equal (fun r => match r with Ok a => a | _ => 0%Z end) E); cbn in En; split; auto; unfold F2R; cbn [Fnum Fexp].
  - subst n. rewrite mult_IZR. rewrite (IZR_Zpower radix2) by lia. lra.
  - subst n. pose proof (Z.div_mod (- z) (2 ^ (- e)) ltac:(lia)) as D. pose proof (Z.mod_pos_bound (- z) (2 ^ (- e)) ltac:(lia)) as M.
    set (k := ((- z) / 2 ^ (- e))%Z) in *. set (t := ((- z) mod 2 ^ (- e))%Z) in *.
    assert (Hk : IZR z = (- IZR k - IZR t * bpow radix2 e) * bpow radix2 (- e)).
    { replace z with (- (2 ^ (- e) * k + t))%Z by lia. rewrite opp_IZR, plus_IZR, mult_IZR. change (2 ^ (- e))%Z with (radix2 ^ (- e))%Z. rewrite IZR_Zpower by lia.
      replace (IZR t) with (IZR t * (bpow radix2 e * bpow radix2 (- e))) at 1; [ring|]. rewrite <- bpow_plus, Z.add_opp_diag_r. cbn. ring. }
    assert (Hone : bpow radix2 (- e) * bpow radix2 e = 1) by (rewrite <- bpow_plus, Z.add_opp_diag_l; reflexivity).
    rewrite Hk, Rmult_assoc, Hone, Rmult_1_r, opp_IZR. pose proof (bpow_gt_0 radix2 e) as Pe.
    assert (Ht : 0 <= IZR t * bpow radix2 e < 1).
    { split; [apply Rmult_le_pos; [apply IZR_le; lia|lra]|]. rewrite <- Hone. apply Rmult_lt_compat_r; [exact Pe|]. rewrite <- IZR_Zpower by lia. apply IZR_lt. change (radix2 ^ (- e))%Z with (2 ^ (- e))%Z. lia. }
    lra.
Qed.

(** A map of a given width. *)
Section Map.
Variables (width r : single) (rows : Z).
Hypothesis Fw : is_finite width = true.
Hypothesis Fr : is_finite r = true.
Hypothesis Hr : bpow radix2 (-126) <= B2R r.
Hypothesis Hn : num_rows width r = Ok rows.
Hypothesis Hrows : (1 <= rows <= 2 ^ 23)%Z.

Lemma quotient_real : B2R (s_div width r) = rnd24 (B2R width / B2R r) /\ IZR rows - 1 < rnd24 (B2R width / B2R r) <= IZR rows.
Proof using Hn Hr.
  unfold num_rows in Hn. apply ceil_real in Hn as [F B]. pose proof (r_pos r Hr) as Pr.
  pose proof (Bdiv_correct 24 128 prec24 emax128 mode_NE width r ltac:(lra)) as C.
  destruct (Rlt_bool (Rabs (rnd24 (B2R width / B2R r))) (bpow radix2 128)).
  - destruct C as (C & _). change (Bdiv mode_NE width r) with (s_div width r) in C. rewrite <- C. auto.
  - exfalso. apply (f_equal is_finite_SF) in C. rewrite is_finite_SF_B2SF in C. change (Bdiv mode_NE width r) with (s_div width r) in C. rewrite F in C. discriminate.
Qed.

Lemma width_bounds : 0 < B2R width <= 16777217 * B2R r.
Proof using Hn Hr Hrows.
  destruct quotient_real as (_ & B1 & B2). pose proof (r_pos r Hr) as Pr. pose proof (IZR_le 1 rows (proj1 Hrows)) as R1. pose proof (IZR_le _ _ (proj2 Hrows)) as R2.
  change (IZR (2 ^ 23)) with 8388608 in R2. split.
  - destruct (Rle_lt_dec (B2R width) 0) as [L|L]; auto. exfalso. assert (rnd24 (B2R width / B2R r) <= 0); [|lra].
    apply round_le_generic; auto with typeclass_instances; [apply generic_format_0|]. unfold Rdiv. pose proof (Rinv_0_lt_compat _ Pr). nra.
  - assert (Q : B2R width / B2R r <= 16777217).
    { pose proof (err24 (B2R width / B2R r)) as E. set (q := B2R width / B2R r) in *. rewrite u24 in E. assert (T : bpow radix2 (-150) <= / 1000).
      { apply Rle_trans with (bpow radix2 (-24)); [apply bpow_le; lia|]. rewrite u24. lra. }
      apply Rabs_le_inv in E. destruct (Rle_lt_dec q 0) as [L|L]; [lra|]. rewrite Rabs_pos_eq in E by lra. lra. }
    apply Rmult_le_reg_r with (/ B2R r); [now apply Rinv_0_lt_compat|]. rewrite Rmult_assoc, Rinv_r by lra. lra.
Qed.

Lemma row_below i : (0 <= i < rows)%Z -> (i < 2 ^ 23)%Z /\ rnd24 (IZR i * B2R r) < bpow radix2 128 /\ IZR i * B2R r < B2R width.
Proof using Hn Hr Hrows.
  intros Hi. destruct quotient_real as (_ & B1 & B2). pose proof (r_pos r Hr) as Pr. assert (Li : (i < 2 ^ 23)%Z) by lia.
  assert (W : IZR i < B2R width / B2R r).
  { destruct (Rle_lt_dec (B2R width / B2R r) (IZR i)) as [L|L]; auto. exfalso. assert (rnd24 (B2R width / B2R r) <= IZR i).
    - apply round_le_generic; auto with typeclass_instances. replace (IZR i) with (F2R (Float radix2 i 0)) by (unfold F2R; cbn [Fnum Fexp bpow]; ring). apply format24; lia.
    - pose proof (IZR_le i (rows - 1) ltac:(lia)) as L'. rewrite minus_IZR in L'. lra. }
  assert (W' : IZR i * B2R r < B2R width).
  { apply Rmult_lt_reg_r with (/ B2R r); [now apply Rinv_0_lt_compat|]. rewrite Rmult_assoc, Rinv_r by lra. unfold Rdiv in W. lra. }
  split; [exact Li|]. split; [|exact W']. apply Rle_lt_trans with (B2R width).
  - apply round_le_generic; auto with typeclass_instances; [apply generic_format_B2R|lra].
  - pose proof (abs_B2R_lt_emax 24 128 width). pose proof (Rle_abs (B2R width)). lra.
Qed.

Lemma two_real : B2R (d_of 2 0) = 2.
Proof using.
  clear. pose proof (binary_normalize_correct 53 1024 prec53 emax1024 mode_NE 2 0 false) as C. cbv zeta in C.
  assert (E : F2R (Float radix2 2 0) = 2) by (unfold F2R; cbn [Fnum Fexp bpow]; ring).
  assert (G : rnd53 (F2R (Float radix2 2 0)) = 2). { transitivity (F2R (Float radix2 2 0)); [|exact E]. apply round_generic; auto with typeclass_instances. apply format53; [lia|reflexivity]. }
  rewrite (rnd53_small _ 1) in C; [|lia|rewrite E, Rabs_pos_eq by lra; change (bpow radix2 1) with 2; lra]. destruct C as (C & _). rewrite <- G. exact C.
Qed.

(** Half of a single is a double. *)
Lemma origin_real : is_finite (local_origin width) = true /\ B2R (local_origin width) = - (B2R width / 2).
Proof using Fw.
  clear - Fw. assert (Fo : is_finite (Bopp width) = true) by (rewrite is_finite_Bopp; exact Fw). destruct (widen_real _ Fo) as [F1 E1]. rewrite B2R_Bopp in E1.
  pose proof (abs_B2R_lt_emax 24 128 width) as L. assert (A : Rabs (- B2R width / 2) <= bpow radix2 128).
  { unfold Rdiv. rewrite Rabs_mult, Rabs_Ropp, (Rabs_pos_eq (/ 2)) by lra. pose proof (Rabs_pos (B2R width)). lra. }
  destruct (div_real (widen (Bopp width)) (d_of 2 0) 128 F1) as [F2 E2]; [rewrite two_real; lra|lia|rewrite E1, two_real; exact A|]. split; [exact F2|].
  unfold local_origin. rewrite E2, E1, two_real. replace (- B2R width / 2) with (- (B2R width / 2)) by lra. apply round_generic; auto with typeclass_instances.
  apply generic_format_opp. pose proof (generic_format_B2R 24 128 width) as G. rewrite fexp24 in G. apply FLT_format_generic in G; [|apply prec24].
  destruct G as [[n e] G1 G2 G3]. cbn [Fnum Fexp] in *. rewrite G1. replace (F2R (Float radix2 n e) / 2) with (F2R (Float radix2 n (e - 1))).
  - apply format53; [lia|]. cbn in G2. lia.
  - unfold F2R. cbn [Fnum Fexp]. replace (bpow radix2 e) with (bpow radix2 (e - 1 + 1)) by (f_equal; lia). rewrite (bpow_plus radix2 (e - 1) 1). change (bpow radix2 1) with 2. field.
Qed.

Lemma local_near i : (0 <= i < rows)%Z -> let o := local_origin width in
  exists n, position_to_row o r (row_to_position o r i) = Ok n /\ (n = i \/ n = i - 1)%Z /\ (i = 0 -> n = 0)%Z.
Proof using Fw Fr Hr Hn Hrows.
  intros Hi o. destruct origin_real as [Fo Eo]. destruct (row_below i Hi) as (L & P & _). pose proof width_bounds as [W1 W2]. pose proof (r_pos r Hr).
  apply round_trip_near; auto; [|lia]. unfold o. rewrite Eo, Rabs_Ropp, Rabs_pos_eq by lra. rewrite p50. lra.
Qed.

Lemma world_near pos i : is_finite pos = true -> Rabs (B2R pos) <= bpow radix2 49 * B2R r -> (0 <= i < rows)%Z -> let o := world_origin pos width in
  exists n, position_to_row o r (row_to_position o r i) = Ok n /\ (n = i \/ n = i - 1)%Z /\ (i = 0 -> n = 0)%Z.
Proof using Fw Fr Hr Hn Hrows.
  intros Fp Hp Hi o. destruct origin_real as [Fo Eo]. destruct (row_below i Hi) as (L & P & _). pose proof width_bounds as [W1 W2]. pose proof (r_pos r Hr) as Pr. pose proof (r_big r Fr) as Hb.
  change (bpow radix2 49) with 562949953421312 in Hp. assert (A : Rabs (B2R pos + B2R (local_origin width)) <= 562949970198529 * B2R r).
  { rewrite Eo. apply Rabs_le_inv in Hp. apply Rabs_le. lra. }
  destruct (add_real pos (local_origin width) 200 Fp Fo) as [F E]; [lia| |].
  { apply Rle_trans with (1 := A). apply Rle_trans with (bpow radix2 50 * B2R r); [rewrite p50; lra|]. apply Rle_trans with (bpow radix2 50 * bpow radix2 128); [apply Rmult_le_compat_l; [apply bpow_ge_0|lra]|].
    rewrite <- bpow_plus. apply bpow_le. lia. }
  apply round_trip_near; auto; [|lia]. unfold o, world_origin. rewrite E. set (x := B2R pos + B2R (local_origin width)) in *. pose proof (err53 x) as Ex. destruct (tiny r Hr) as [_ T]. rewrite u53 in Ex, T.
  apply Rle_trans with (Rabs (rnd53 x - x) + Rabs x); [|rewrite p50; lra]. replace (rnd53 x) with ((rnd53 x - x) + x) at 1 by ring. apply Rabs_triang.
Qed.

(** With a power of two for the resolution nothing is rounded. *)
Lemma local_exact k i : B2R r = bpow radix2 k -> (0 <= i < rows)%Z -> let o := local_origin width in position_to_row o r (row_to_position o r i) = Ok i.
Proof using Fw Fr Hr Hn Hrows.
  intros Hk Hi o. destruct (Z.eq_dec i 0) as [->|Ni].
  { destruct (local_near 0 Hi) as (n & E & _ & H0). fold o in E. rewrite E. f_equal. auto. }
  assert (Kk : (-126 <= k < 128)%Z).
  { split. - rewrite Hk in Hr. apply le_bpow in Hr. exact Hr. - pose proof (r_big r Fr) as L. rewrite Hk in L. apply lt_bpow in L. exact L. }
  destruct origin_real as [Fo Eo]. destruct (row_below i Hi) as (L & P & Lw). pose proof width_bounds as [W1 W2]. pose proof (r_pos r Hr) as Pr. pose proof (r_big r Fr) as Hb.
  assert (Pi : 0 <= IZR i) by (apply IZR_le; lia).
  destruct (offset_ok r i Fr Hr ltac:(lia) P) as (Fp & Ep & _). set (p := widen (s_mul (s_of i 0) r)) in *.
  assert (Ei : IZR i * B2R r = F2R (Float radix2 i k)) by (rewrite Hk; reflexivity).
  assert (Ep' : B2R p = IZR i * B2R r). { rewrite Ep, Ei. apply round_generic; auto with typeclass_instances. apply format24; lia. }
  (* the width is a multiple of a small power of two *)
  assert (Hw : exists z, B2R width = F2R (Float radix2 z (k - 24)) /\ (0 <= z <= 2 ^ 24 * 16777217)%Z).
  { assert (W3 : bpow radix2 k <= B2R width). { rewrite <- Hk. apply Rle_trans with (IZR i * B2R r); [|lra]. assert (1 <= IZR i) by (apply IZR_le; lia). nra. }
    pose proof (generic_format_B2R 24 128 width) as G. unfold generic_format in G. set (c := cexp radix2 (SpecFloat.fexp 24 128) (B2R width)) in *. set (n := Ztrunc _) in *.
    assert (Hc : (k - 24 <= c)%Z).
    { unfold c, cexp. rewrite fexp24. unfold FLT_exp. assert (k + 1 <= mag radix2 (B2R width))%Z; [|lia]. apply mag_ge_bpow. replace (k + 1 - 1)%Z with k by lia. rewrite Rabs_pos_eq by lra. exact W3. }
    exists (n * 2 ^ (c - (k - 24)))%Z. assert (E : B2R width = F2R (Float radix2 (n * 2 ^ (c - (k - 24))) (k - 24))).
    { rewrite G. unfold F2R. cbn [Fnum Fexp]. rewrite mult_IZR. change (2 ^ (c - (k - 24)))%Z with (radix2 ^ (c - (k - 24)))%Z. rewrite IZR_Zpower by lia.
      rewrite Rmult_assoc, <- bpow_plus. do 2 f_equal. lia. }
    split; [exact E|]. rewrite E in W1, W2. set (z := (n * 2 ^ (c - (k - 24)))%Z) in *. unfold F2R in W1, W2. cbn [Fnum Fexp] in W1, W2. pose proof (bpow_gt_0 radix2 (k - 24)) as Pk. rewrite Hk in W2.
    split; [apply le_IZR; nra|]. apply le_IZR. rewrite mult_IZR. change (IZR (2 ^ 24)) with (IZR (radix2 ^ 24)). rewrite (IZR_Zpower radix2 24) by lia.
    apply Rmult_le_reg_r with (bpow radix2 (k - 24)); [exact Pk|]. replace (bpow radix2 24 * 16777217 * bpow radix2 (k - 24)) with (16777217 * (bpow radix2 24 * bpow radix2 (k - 24))) by ring.
    rewrite <- bpow_plus. replace (24 + (k - 24))%Z with k by lia. exact W2. }
  destruct Hw as (z & Ez & Hz).
  assert (Sum : B2R (local_origin width) + B2R p = F2R (Float radix2 (i * 2 ^ 25 - z) (k - 25))).
  { rewrite Eo, Ep', Ez, Hk. unfold F2R. cbn [Fnum Fexp]. rewrite minus_IZR, mult_IZR. change (IZR (2 ^ 25)) with (IZR (radix2 ^ 25)). rewrite (IZR_Zpower radix2 25) by lia.
    replace (bpow radix2 k) with (bpow radix2 25 * bpow radix2 (k - 25)) by (rewrite <- bpow_plus; f_equal; lia).
    replace (bpow radix2 (k - 24)) with (bpow radix2 1 * bpow radix2 (k - 25)) by (rewrite <- bpow_plus; f_equal; lia). change (bpow radix2 1) with 2. field. }
  assert (Big : bpow radix2 128 <= bpow radix2 200) by (apply bpow_le; lia).
  destruct (add_real (local_origin width) p 200 Fo Fp) as [Fx Ex]; [lia| |].
  { rewrite Eo, Ep'. apply Rabs_le. pose proof (abs_B2R_lt_emax 24 128 width) as LW. rewrite Rabs_pos_eq in LW by lra. assert (0 <= IZR i * B2R r) by (apply Rmult_le_pos; lra). lra. }
  assert (X : B2R (d_add (local_origin width) p) = B2R (local_origin width) + B2R p).
  { rewrite Ex. apply round_generic; auto with typeclass_instances. rewrite Sum. apply format53; lia. }
  unfold position_to_row, row_to_position. fold p o. fold o in X, Fx, Ex, Fo. set (x := d_add o p) in *.
  assert (D0 : B2R x - B2R o = IZR i * B2R r) by (rewrite X, Ep'; ring).
  assert (Pp : 0 <= IZR i * B2R r) by (apply Rmult_le_pos; lra). pose proof (abs_B2R_lt_emax 24 128 width) as LW. rewrite Rabs_pos_eq in LW by lra.
  destruct (sub_real x o 200 Fx Fo) as [Fd Ed]; [lia|rewrite D0, Rabs_pos_eq by auto; lra|]. rewrite D0 in Ed.
  assert (D1 : B2R (d_sub x o) = IZR i * B2R r). { rewrite Ed, Ei. apply round_generic; auto with typeclass_instances. apply format53; lia. }
  destruct (widen_real r Fr) as [Fw' Ew]. assert (Q0 : B2R (d_sub x o) / B2R (widen r) = IZR i) by (rewrite D1, Ew; field; lra).
  assert (Hi' : IZR i <= 8388607) by (apply IZR_le; lia).
  destruct (div_real (d_sub x o) (widen r) 30 Fd) as [Fq Eq]; [rewrite Ew; lra|lia|rewrite Q0, Rabs_pos_eq by auto; rewrite p30; lra|]. rewrite Q0 in Eq.
  assert (Q1 : B2R (d_div (d_sub x o) (widen r)) = IZR i).
  { rewrite Eq. apply round_generic; auto with typeclass_instances. replace (IZR i) with (F2R (Float radix2 i 0)) by (unfold F2R; cbn [Fnum Fexp bpow]; ring). apply format53; lia. }
  apply trunc_real; auto; [lia|]. rewrite Q1. lra.
Qed.
End Map.
