(** Search cells in double precision. *)
From Coq Require Import Reals ZArith Lra Lia Psatz.
From Flocq Require Import Core BinarySingleNaN.
From Verif Require Import Base RealBase CoordsFloat_model CoordsFloat_proofs StraightFloat_model StraightFloat_proofs ValidatorFloat_proofs AngleFloat_model AngleFloat_proofs
  StateValidFloat_model Hybrid_model HybridCell_proofs SteeringFloat_spec CellFloat_model CellFloat_spec.
From Coq Require Import ZifyBool.
Local Open Scope R_scope.
#[local] Existing Instance prec53.
#[local] Existing Instance emax1024.
#[local] Existing Instance vexp53.
#[local] Existing Instance vrndne.

(** ** Truncation *)

Lemma trunc_same x : Ztrunc x = Rtrunc x.
Proof.
  destruct (Rtrunc_spec x) as [(H & B & _)|(H & B & _)].
  - rewrite Ztrunc_floor by exact H. apply Zfloor_imp. rewrite plus_IZR. exact B.
  - rewrite Ztrunc_ceil by lra. apply Zceil_imp. rewrite minus_IZR. exact B.
Qed.
Lemma d_trunc_cast (x : double) : is_finite x = true -> d_trunc x = cast_int (B2R x).
Proof.
  intros F. unfold d_trunc. rewrite F. pose proof (Btrunc_correct 53 1024 emax1024 x) as T.
  assert (E : Btrunc x = Rtrunc (B2R x)).
  { apply eq_IZR. rewrite T. unfold round, F2R, scaled_mantissa, cexp, FIX_exp. cbn [Fnum Fexp Z.opp bpow]. rewrite !Rmult_1_r. now rewrite trunc_same. }
  rewrite E. unfold to_int, cast_int, int_min, int_max.
  replace (Rtrunc (B2R x) <? 2 ^ 31)%Z with (Rtrunc (B2R x) <=? 2 ^ 31 - 1)%Z; [reflexivity|].
  destruct (Z.ltb_spec (Rtrunc (B2R x)) (2 ^ 31)), (Z.leb_spec (Rtrunc (B2R x)) (2 ^ 31 - 1)); auto; lia.
Qed.
Lemma d_trunc_nan (x : double) : is_finite x = false -> d_trunc x = UB.
Proof. intros F. unfold d_trunc. now rewrite F. Qed.

Lemma rtrunc_abs x : Rabs (IZR (Rtrunc x)) <= Rabs x.
Proof.
  destruct (Rtrunc_spec x) as [(H & B & N)|(H & B & N)]; apply IZR_le in N.
  - rewrite !Rabs_pos_eq by lra. lra.
  - rewrite !Rabs_left1 by lra. lra.
Qed.

(** A coordinate of a cell. *)
Lemma quotient_units (x r : double) n : 0 < B2R r -> d_trunc (d_div x r) = Ok n -> is_finite x = true -> Rabs (B2R x) <= bpow radix2 900 * B2R r -> units_of n (B2R r) (B2R x).
Proof.
  intros Hr H Fx B. destruct (div_real x r 900 Fx) as [F E]; [lra|lia| |].
  { unfold Rdiv. rewrite Rabs_mult, Rabs_inv by lra. rewrite (Rabs_pos_eq (B2R r)) by lra. apply Rmult_le_reg_r with (B2R r); [exact Hr|]. rewrite Rmult_assoc, Rinv_l by lra. lra. }
  rewrite (d_trunc_cast _ F) in H. apply cast_int_ok in H as [-> _]. exists (B2R r * B2R (d_div x r)). split.
  - rewrite E. pose proof (err53 (B2R x / B2R r)) as Q. replace (B2R r * rnd53 (B2R x / B2R r) - B2R x) with (B2R r * (rnd53 (B2R x / B2R r) - B2R x / B2R r)) by (field; lra).
    rewrite Rabs_mult, (Rabs_pos_eq (B2R r)) by lra. apply Rle_trans with (B2R r * (u53 * Rabs (B2R x / B2R r) + eta53)); [apply Rmult_le_compat_l; lra|].
    assert (A : B2R r * Rabs (B2R x / B2R r) = Rabs (B2R x)). { unfold Rdiv. rewrite Rabs_mult, Rabs_inv by lra. rewrite (Rabs_pos_eq (B2R r)) by lra. field. lra. }
    rewrite Rmult_plus_distr_l. rewrite <- Rmult_assoc, (Rmult_comm (B2R r) u53), Rmult_assoc, A. unfold u53, eta53. lra.
  - f_equal. field. lra.
Qed.
Lemma quotient_exists (x r : double) : 0 < B2R r -> is_finite x = true -> Rabs (B2R x) <= bpow radix2 30 * B2R r -> exists n, d_trunc (d_div x r) = Ok n /\ (Z.abs n <= 2 ^ 30)%Z.
Proof.
  intros Hr Fx B. 
  assert (Q : Rabs (B2R x / B2R r) <= bpow radix2 30).
  { unfold Rdiv. rewrite Rabs_mult, Rabs_inv by lra. rewrite (Rabs_pos_eq (B2R r)) by lra. apply Rmult_le_reg_r with (B2R r); [exact Hr|]. rewrite Rmult_assoc, Rinv_l by lra. lra. }
  destruct (div_real x r 30 Fx) as [F E]; [lra|lia|exact Q|]. rewrite (d_trunc_cast _ F). exists (Rtrunc (B2R (d_div x r))).
  assert (L : (Z.abs (Rtrunc (B2R (d_div x r))) <= 2 ^ 30)%Z).
  { apply le_IZR. rewrite abs_IZR. eapply Rle_trans; [apply rtrunc_abs|]. rewrite E. change (IZR (2 ^ 30)) with (bpow radix2 30). apply rnd_le_abs; [lia|exact Q]. }
  split; [|exact L]. apply cast_int_ok. split; [reflexivity|]. unfold is_int, int_min, int_max. lia.
Qed.

(** ** The index of the heading *)

Lemma int_double t : (Z.abs t <= 2 ^ 31)%Z -> is_finite (d_of t 0) = true /\ B2R (d_of t 0) = IZR t.
Proof.
  intros H. pose proof (binary_normalize_correct 53 1024 prec53 emax1024 mode_NE t 0 false) as C.
  assert (EF : F2R (Float radix2 t 0) = IZR t) by (unfold F2R; cbn [Fnum Fexp bpow]; ring). cbv zeta in C. rewrite EF in C.
  assert (G : generic_format radix2 (SpecFloat.fexp 53 1024) (IZR t)) by (rewrite <- EF; apply format53; [lia|cbn [Fnum]; lia]).
  rewrite (round_generic radix2 (SpecFloat.fexp 53 1024) (round_mode mode_NE) (IZR t) G) in C.
  rewrite Rlt_bool_true in C.
  - destruct C as (C1 & C2 & _). split; [exact C2|exact C1].
  - rewrite <- abs_IZR. apply Rle_lt_trans with (IZR (2 ^ 31)); [apply IZR_le; exact H|]. change (IZR (2 ^ 31)) with (bpow radix2 31). apply bpow_lt. lia.
Qed.
Lemma d_above_test t : (Z.abs t <= 2 ^ 31)%Z -> Bltb d_pi (d_of t 0) = (4 <=? t)%Z.
Proof.
  intros H. destruct (int_double t H) as [F E]. pose proof pi_bounds as P. pose proof (ltb_real d_pi (d_of t 0) pi_finite F) as L. rewrite E in L. fold pi_ in L.
  destruct (Z.leb_spec 4 t) as [K|K].
  - apply L. apply IZR_le in K. lra.
  - destruct (Bltb d_pi (d_of t 0)); [|reflexivity]. pose proof (proj1 L eq_refl). assert (t <= 3)%Z as K' by lia. apply IZR_le in K'. lra.
Qed.
Lemma d_below_test t : (Z.abs t <= 2 ^ 31)%Z -> Bltb (d_of t 0) (Bopp d_pi) = (t <=? -4)%Z.
Proof.
  intros H. destruct (int_double t H) as [F E]. pose proof pi_bounds as P. destruct neg_pi as [Fn En]. pose proof (ltb_real (d_of t 0) (Bopp d_pi) F Fn) as L. rewrite E, En in L.
  destruct (Z.leb_spec t (-4)) as [K|K].
  - apply L. apply IZR_le in K. lra.
  - destruct (Bltb (d_of t 0) (Bopp d_pi)); [|reflexivity]. pose proof (proj1 L eq_refl). assert (-3 <= t)%Z as K' by lia. apply IZR_le in K'. lra.
Qed.
Lemma near_int x a : Rabs (x - a) <= u53 * Rabs a -> Rabs a <= bpow radix2 32 -> Rabs (x - a) <= / 1000.
Proof.
  intros H B. eapply Rle_trans; [exact H|]. apply Rle_trans with (u53 * bpow radix2 32); [apply Rmult_le_compat_l; [apply bpow_ge_0|exact B]|].
  unfold u53. rewrite <- bpow_plus. change (bpow radix2 (-53 + 32)) with (/ 2097152). lra.
Qed.
Lemma d_above_step t : (4 <= t <= 2 ^ 31)%Z -> d_trunc (d_sub (d_of t 0) d_two_pi) = Ok (if t <? 7 then t - 6 else t - 7)%Z.
Proof.
  intros H. destruct (int_double t ltac:(lia)) as [F E]. pose proof pi_bounds as P. pose proof two_pi_value as E2. pose proof two_pi_finite as F2. pose proof pi_value as PV.
  assert (B0 : 4 <= IZR t) by (apply IZR_le; lia). assert (B1 : IZR t <= bpow radix2 31) by (change (bpow radix2 31) with (IZR (2 ^ 31)); apply IZR_le; lia).
  assert (P32 : bpow radix2 32 = 2 * bpow radix2 31) by (change 32%Z with (1 + 31)%Z; rewrite bpow_plus; reflexivity).
  assert (P31 : 8 <= bpow radix2 31) by (change 8 with (bpow radix2 3); apply bpow_le; lia).
  assert (A : Rabs (IZR t - 2 * pi_) <= bpow radix2 32) by (apply Rabs_le; lra).
  destruct (sub_real (d_of t 0) d_two_pi 32 F F2) as [Fs Es]; [lia|rewrite E, E2; exact A|]. rewrite E, E2 in Es.
  pose proof (plus53 (d_of t 0) (Bopp d_two_pi)) as Q. rewrite B2R_Bopp, E, E2 in Q. change (IZR t + - (2 * pi_)) with (IZR t - 2 * pi_) in Q. rewrite <- Es in Q.
  apply near_int in Q; [|exact A]. apply Rabs_le_inv in Q. rewrite (d_trunc_cast _ Fs). apply cast_int_ok.
  assert (P2 : 6.28 < 2 * pi_ < 6.29) by (rewrite PV; lra).
  split; [|unfold is_int, int_min, int_max; destruct (t <? 7)%Z; lia]. symmetry. destruct (Z.ltb_spec t 7) as [L|L].
  - assert (t <= 6)%Z as K by lia. apply IZR_le in K. apply trunc_up; [lra|]. rewrite minus_IZR. lra.
  - apply IZR_le in L. apply trunc_down; [lra|]. rewrite minus_IZR. lra.
Qed.
Lemma d_below_step t : (- 2 ^ 31 <= t <= -4)%Z -> d_trunc (d_add (d_of t 0) d_two_pi) = Ok (if -7 <? t then t + 6 else t + 7)%Z.
Proof.
  intros H. destruct (int_double t ltac:(lia)) as [F E]. pose proof pi_bounds as P. pose proof two_pi_value as E2. pose proof two_pi_finite as F2. pose proof pi_value as PV.
  assert (B0 : IZR t <= -4) by (apply IZR_le; lia). assert (B1 : - bpow radix2 31 <= IZR t) by (change (bpow radix2 31) with (IZR (2 ^ 31)); rewrite <- opp_IZR; apply IZR_le; lia).
  assert (P32 : bpow radix2 32 = 2 * bpow radix2 31) by (change 32%Z with (1 + 31)%Z; rewrite bpow_plus; reflexivity).
  assert (P31 : 8 <= bpow radix2 31) by (change 8 with (bpow radix2 3); apply bpow_le; lia).
  assert (A : Rabs (IZR t + 2 * pi_) <= bpow radix2 32) by (apply Rabs_le; lra).
  destruct (add_real (d_of t 0) d_two_pi 32 F F2) as [Fs Es]; [lia|rewrite E, E2; exact A|]. rewrite E, E2 in Es.
  pose proof (plus53 (d_of t 0) d_two_pi) as Q. rewrite E, E2 in Q. rewrite <- Es in Q.
  apply near_int in Q; [|exact A]. apply Rabs_le_inv in Q. rewrite (d_trunc_cast _ Fs). apply cast_int_ok.
  assert (P2 : 6.28 < 2 * pi_ < 6.29) by (rewrite PV; lra).
  split; [|unfold is_int, int_min, int_max; destruct (-7 <? t)%Z; lia]. symmetry. destruct (Z.ltb_spec (-7) t) as [L|L].
  - assert (-6 <= t)%Z as K by lia. apply IZR_le in K. apply trunc_down; [lra|]. rewrite plus_IZR. lra.
  - apply IZR_le in L. apply trunc_up; [lra|]. rewrite plus_IZR. lra.
Qed.

Lemma d_int_above_spec n : forall fuel t, (Z.abs t <= Z.of_nat n)%Z -> (Z.abs t < Z.of_nat fuel)%Z -> (Z.abs t <= 2 ^ 31)%Z -> d_int_above fuel t = Ok (int_above n t).
Proof.
  induction n as [|k IH]; intros fuel t H1 H2 H3; destruct fuel as [|fuel]; try lia; cbn [d_int_above int_above]; rewrite (d_above_test t H3).
  - replace (4 <=? t)%Z with false by lia. reflexivity.
  - rewrite above_test. destruct (Z.leb_spec 4 t) as [L|L]; [|reflexivity]. rewrite d_above_step, above_step by lia. cbn [bind]. apply IH; destruct (Z.ltb_spec t 7); lia.
Qed.
Lemma d_int_below_spec n : forall fuel t, (Z.abs t <= Z.of_nat n)%Z -> (Z.abs t < Z.of_nat fuel)%Z -> (Z.abs t <= 2 ^ 31)%Z -> d_int_below fuel t = Ok (int_below n t).
Proof.
  induction n as [|k IH]; intros fuel t H1 H2 H3; destruct fuel as [|fuel]; try lia; cbn [d_int_below int_below]; rewrite (d_below_test t H3).
  - replace (t <=? -4)%Z with false by lia. reflexivity.
  - rewrite below_test. destruct (Z.leb_spec t (-4)) as [L|L]; [|reflexivity]. rewrite d_below_step, below_step by lia. cbn [bind]. apply IH; destruct (Z.ltb_spec (-7) t); lia.
Qed.
Lemma int_above_abs n t : (Z.abs (int_above n t) <= Z.abs t)%Z.
Proof.
  revert t. induction n as [|k IH]; intros t; cbn [int_above]; [lia|]. rewrite above_test. destruct (Z.leb_spec 4 t) as [L|L]; [|lia].
  rewrite above_step by lia. pose proof (IH (if t <? 7 then t - 6 else t - 7)%Z). destruct (Z.ltb_spec t 7); lia.
Qed.
Lemma d_int_wrap_spec fuel t : (Z.abs t < Z.of_nat fuel)%Z -> (Z.abs t <= 2 ^ 31)%Z -> d_int_wrap fuel t = Ok (int_wrap t).
Proof.
  intros H1 H2. unfold d_int_wrap, int_wrap. rewrite (d_int_above_spec (Z.to_nat (Z.abs t)) fuel t) by lia. cbn [bind].
  pose proof (int_above_abs (Z.to_nat (Z.abs t)) t). apply d_int_below_spec; lia.
Qed.

(** ** The cell of a pose *)

Lemma cell_spec fuel (spatial angular : double) p : 0 < B2R spatial -> 0 < B2R angular -> numbers p ->
  Rabs (B2R (d_x p)) <= bpow radix2 30 * B2R spatial -> Rabs (B2R (d_y p)) <= bpow radix2 30 * B2R spatial ->
  Rabs (B2R (d_theta p)) <= 3 * B2R d_pi -> B2R d_pi <= bpow radix2 30 * B2R angular -> (2 ^ 30 < Z.of_nat fuel)%Z ->
  exists i j k w t, d_cell fuel spatial angular p = Ok (IPose i j (int_wrap t)) /\ units_of i (B2R spatial) (B2R (d_x p)) /\ units_of j (B2R spatial) (B2R (d_y p)) /\
    (Z.abs k <= 1)%Z /\ w = B2R (d_theta p) - IZR k * (2 * B2R d_pi) /\ - B2R d_pi <= w <= B2R d_pi /\ units_of t (B2R angular) w.
Proof.
  intros Hs Ha (Fx & Fy & Ft) Bx By Bt Bp Hf.
  assert (P900 : bpow radix2 30 <= bpow radix2 900) by (apply bpow_le; lia).
  assert (up : forall x r, 0 < r -> x <= bpow radix2 30 * r -> x <= bpow radix2 900 * r).
  { intros x r Hr H. eapply Rle_trans; [exact H|]. apply Rmult_le_compat_r; lra. }
  destruct (quotient_exists (d_x p) spatial Hs Fx Bx) as (i & Ei & _). destruct (quotient_exists (d_y p) spatial Hs Fy By) as (j & Ej & _).
  pose proof pi_bounds as P. fold pi_ in Bt, Bp.
  destruct (wrap_ends fuel (d_theta p) (3 * pi_) Ft Bt) as (w & k & Ew & Fw & Bw & _ & Ck).
  { fold pi_. lra. } { assert (bpow radix2 4 <= bpow radix2 53) by (apply bpow_le; lia). change (bpow radix2 4) with 16 in *. lra. }
  { rewrite INR_IZR_INZ. assert (16 <= IZR (Z.of_nat fuel)) by (apply IZR_le; lia). lra. }
  destruct (Ck Bt) as [Hk Ek]. fold pi_ in Bw, Ek.
  assert (Bq : Rabs (B2R w) <= bpow radix2 30 * B2R angular) by (eapply Rle_trans; [apply Rabs_le; exact Bw|]; exact Bp).
  destruct (quotient_exists w angular Ha Fw Bq) as (t & Et & Lt).
  exists i, j, k, (B2R w), t. unfold d_cell. rewrite Ei, Ej. cbn [bind]. rewrite Ew. cbn [bind]. rewrite Et. cbn [bind]. rewrite d_int_wrap_spec by lia. cbn [bind].
  split; [reflexivity|]. split; [apply quotient_units; auto|]. split; [apply quotient_units; auto|]. split; [exact Hk|]. split; [exact Ek|]. split; [exact Bw|].
  apply quotient_units; auto.
Qed.

(** ** What two poses in one cell have in common *)

Lemma units_close n r x y : 0 < r -> units_of n r x -> units_of n r y ->
  let e := bpow radix2 (-53) * (Rabs x + Rabs y) + bpow radix2 (-1074) * r in
  Rabs (x - y) <= 2 * r + e /\ (0 <= x * y -> Rabs (x - y) <= r + e).
Proof.
  intros Hr (x' & Hx & Nx) (y' & Hy & Ny) e.
  assert (E2 : bpow radix2 (-1074) = 2 * bpow radix2 (-1075)) by (change (-1074)%Z with (1 + -1075)%Z; rewrite bpow_plus; reflexivity).
  assert (Dx : Rabs (x' - y') <= 2 * r /\ (n <> 0%Z -> Rabs (x' - y') <= r)).
  { assert (X : x' = r * (x' / r)) by (field; lra). assert (Y : y' = r * (y' / r)) by (field; lra). set (p := x' / r) in *. set (q := y' / r) in *.
    assert (S : Rabs (x' - y') = r * Rabs (p - q)) by (rewrite X, Y, <- Rmult_minus_distr_l, Rabs_mult, (Rabs_pos_eq r) by lra; reflexivity).
    assert (T : Rabs (p - q) <= 2 /\ (n <> 0%Z -> Rabs (p - q) <= 1)).
    { destruct (Rtrunc_spec p) as [(A1 & A2 & A3)|(A1 & A2 & A3)], (Rtrunc_spec q) as [(B1 & B2 & B3)|(B1 & B2 & B3)]; rewrite <- Nx in *; rewrite <- Ny in *;
        (split; [apply Rabs_le; assert (n = 0%Z \/ n <> 0%Z) as [K|K] by lia; [rewrite K in *; lra|]|intros K; apply Rabs_le]); try lra; try (exfalso; lia). }
    rewrite S. destruct T as [T1 T2]. split.
    - rewrite (Rmult_comm 2 r). apply Rmult_le_compat_l; lra.
    - intros K. rewrite <- (Rmult_1_r r) at 2. apply Rmult_le_compat_l; [lra|auto]. }
  assert (M : Rabs (x - y) <= Rabs (x' - y') + e).
  { replace (x - y) with ((x' - y') + ((y' - y) - (x' - x))) by ring. eapply Rle_trans; [apply Rabs_triang|]. apply Rplus_le_compat_l.
    unfold Rminus at 1. eapply Rle_trans; [apply Rabs_triang|]. rewrite Rabs_Ropp. unfold e. rewrite E2. lra. }
  destruct Dx as [D1 D2]. split; [lra|]. intros Hsg. assert (n = 0%Z \/ n <> 0%Z) as [K|K] by lia; [|specialize (D2 K); lra].
  (* the cell at zero: both are below one unit, up to rounding, and on one side *)
  assert (Bz : forall z z', Rabs (z' - z) <= bpow radix2 (-53) * Rabs z + bpow radix2 (-1075) * r -> n = Rtrunc (z' / r) -> Rabs z <= r + (bpow radix2 (-53) * Rabs z + bpow radix2 (-1075) * r)).
  { intros z z' Hz Nz. assert (Z : z' = r * (z' / r)) by (field; lra). assert (Q : Rabs (z' / r) <= 1).
    { destruct (Rtrunc_spec (z' / r)) as [(A1 & A2 & A3)|(A1 & A2 & A3)]; rewrite <- Nz, K in *; apply Rabs_le; lra. }
    assert (Rabs z' <= r). { rewrite Z, Rabs_mult, (Rabs_pos_eq r) by lra. apply Rle_trans with (r * 1); [apply Rmult_le_compat_l; lra|lra]. }
    replace z with (z' - (z' - z)) by ring. unfold Rminus at 1. eapply Rle_trans; [apply Rabs_triang|]. rewrite Rabs_Ropp. replace (z' - (z' - z)) with z by ring. lra. }
  pose proof (Bz x x' Hx Nx) as Bx. pose proof (Bz y y' Hy Ny) as By.
  assert (0 <= bpow radix2 (-53) * Rabs x) by (apply Rmult_le_pos; [apply bpow_ge_0|apply Rabs_pos]).
  assert (0 <= bpow radix2 (-53) * Rabs y) by (apply Rmult_le_pos; [apply bpow_ge_0|apply Rabs_pos]).
  assert (0 <= bpow radix2 (-1075) * r) by (apply Rmult_le_pos; [apply bpow_ge_0|lra]).
  assert (L : Rabs (x - y) <= Rmax (Rabs x) (Rabs y)).
  { assert (Sg : (0 <= x /\ 0 <= y) \/ (x <= 0 /\ y <= 0)).
    { destruct (Rle_lt_dec x 0) as [X|X], (Rle_lt_dec y 0) as [Y|Y]; try (right; lra); try (left; lra).
      - left. assert (x < 0 \/ x = 0) as [X'|X'] by lra; [|lra]. pose proof (Rmult_lt_0_compat (- x) y ltac:(lra) Y). lra.
      - left. assert (y < 0 \/ y = 0) as [Y'|Y'] by lra; [|lra]. pose proof (Rmult_lt_0_compat x (- y) X ltac:(lra)). lra. }
    apply Rabs_le. destruct Sg as [[S1 S2]|[S1 S2]].
    - rewrite (Rabs_pos_eq x), (Rabs_pos_eq y) by lra. pose proof (Rmax_l x y). pose proof (Rmax_r x y). lra.
    - rewrite (Rabs_left1 x), (Rabs_left1 y) by lra. pose proof (Rmax_l (- x) (- y)). pose proof (Rmax_r (- x) (- y)). lra. }
  unfold Rmax in L. unfold e. rewrite E2. destruct (Rle_dec (Rabs x) (Rabs y)); lra.
Qed.

Lemma same_cell fuel (spatial angular : double) a b c : 0 < B2R spatial -> d_cell fuel spatial angular a = Ok c -> d_cell fuel spatial angular b = Ok c ->
  numbers a -> numbers b ->
  Rabs (B2R (d_x a)) <= bpow radix2 900 * B2R spatial -> Rabs (B2R (d_y a)) <= bpow radix2 900 * B2R spatial ->
  Rabs (B2R (d_x b)) <= bpow radix2 900 * B2R spatial -> Rabs (B2R (d_y b)) <= bpow radix2 900 * B2R spatial ->
  forall f, f = d_x \/ f = d_y -> let x := B2R (f a) in let y := B2R (f b) in
  let e := bpow radix2 (-53) * (Rabs x + Rabs y) + bpow radix2 (-1074) * B2R spatial in
  Rabs (x - y) <= 2 * B2R spatial + e /\ (0 <= x * y -> Rabs (x - y) <= B2R spatial + e).
Proof.
  intros Hs Ha Hb (Fxa & Fya & _) (Fxb & Fyb & _) B1 B2 B3 B4 f Hf x y.
  assert (inv : forall p q, d_cell fuel spatial angular p = Ok q -> d_trunc (d_div (d_x p) spatial) = Ok (ix q) /\ d_trunc (d_div (d_y p) spatial) = Ok (iy q)).
  { intros p q H. unfold d_cell in H. destruct (d_trunc (d_div (d_x p) spatial)) as [i| | |]; try discriminate. cbn [bind] in H.
    destruct (d_trunc (d_div (d_y p) spatial)) as [j| | |]; try discriminate. cbn [bind] in H.
    destruct (d_wrap fuel (d_theta p)) as [w| | |]; try discriminate. cbn [bind] in H. destruct (d_trunc (d_div w angular)) as [t| | |]; try discriminate. cbn [bind] in H.
    destruct (d_int_wrap fuel t) as [h| | |]; try discriminate. cbn [bind] in H. injection H as <-. auto. }
  destruct (inv a c Ha) as [A1 A2]. destruct (inv b c Hb) as [C1 C2].
  destruct Hf as [-> | ->]; subst x y; [apply (units_close (ix c))|apply (units_close (iy c))]; auto; apply quotient_units; assumption.
Qed.
