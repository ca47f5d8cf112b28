(** The table of the non-holonomic heuristic in double precision. *)
From Coq Require Import Reals ZArith Lra Lia ZifyBool.
From Flocq Require Import Core BinarySingleNaN.
From Verif Require Import Base RealBase CoordsFloat_model CoordsFloat_proofs StraightFloat_model StraightFloat_proofs AngleFloat_model AngleFloat_proofs StateValidFloat_model
  CellFloat_proofs NonHol_proofs NonHolFloat_model NonHolFloat_spec.
Local Open Scope R_scope.
#[local] Existing Instance prec53.
#[local] Existing Instance emax1024.
#[local] Existing Instance vexp53.
#[local] Existing Instance vrndne.

(** ** Rounding to integers *)

Lemma floor_half (m e : Z) : (e < 0)%Z -> Rfloor (F2R (Float radix2 m e) + / 2) = ((2 * m + 2 ^ (- e)) / (2 * 2 ^ (- e)))%Z.
Proof.
  intros He. set (P := (2 ^ (- e))%Z). assert (HP : (0 < P)%Z) by (apply Z.pow_pos_nonneg; lia).
  pose proof (Z.div_mod (2 * m + P) (2 * P) ltac:(lia)) as D. pose proof (Z.mod_pos_bound (2 * m + P) (2 * P) ltac:(lia)) as M.
  set (q := ((2 * m + P) / (2 * P))%Z) in *. set (t := ((2 * m + P) mod (2 * P))%Z) in *.
  assert (EP : IZR P = bpow radix2 (- e)) by (unfold P; change (2 ^ (- e))%Z with (radix2 ^ (- e))%Z; rewrite IZR_Zpower by lia; reflexivity).
  assert (One : IZR P * bpow radix2 e = 1) by (rewrite EP, <- bpow_plus, Z.add_opp_diag_l; reflexivity). pose proof (bpow_gt_0 radix2 e) as Pe.
  apply Rfloor_unique. unfold F2R. cbn [Fnum Fexp]. set (x := bpow radix2 e) in *.
  assert (Hm : 2 * IZR m + IZR P = 2 * IZR P * IZR q + IZR t) by (apply (f_equal IZR) in D; rewrite !plus_IZR, !mult_IZR in D; exact D).
  assert (T : 0 <= IZR t < 2 * IZR P) by (split; [apply IZR_le|rewrite <- mult_IZR; apply IZR_lt]; lia).
  assert (V : IZR m * x + / 2 = IZR q + IZR t * x / 2). { replace (IZR m) with ((2 * IZR P * IZR q + IZR t - IZR P) / 2) by lra. replace (_ / 2 * x) with (IZR P * x * IZR q + IZR t * x / 2 - IZR P * x / 2) by field. rewrite One. lra. }
  rewrite V. assert (B : 0 <= IZR t * x < 2). { split; [apply Rmult_le_pos; lra|]. replace 2 with (2 * IZR P * x) by (rewrite Rmult_assoc, One; ring). apply Rmult_lt_compat_r; lra. }
  lra.
Qed.
Lemma whole (m e : Z) : (0 <= e)%Z -> F2R (Float radix2 m e) = IZR (m * 2 ^ e).
Proof. intros H. unfold F2R. cbn [Fnum Fexp]. rewrite mult_IZR. change (2 ^ e)%Z with (radix2 ^ e)%Z. now rewrite IZR_Zpower. Qed.
Lemma Rround_opp x : Rround (- x) = (- Rround x)%Z.
Proof.
  unfold Rround. destruct (Rle_dec 0 (- x)), (Rle_dec 0 x); try lra.
  - replace x with 0 by lra. rewrite Ropp_0, Rplus_0_l. rewrite (Rfloor_unique (/ 2) 0) by lra. reflexivity.
  - unfold Rceil. rewrite Z.opp_involutive. f_equal. lra.
  - unfold Rceil. f_equal. f_equal. lra.
Qed.
Lemma d_round_spec (x : double) : is_finite x = true -> d_round x = to_int (Rround (B2R x)).
Proof.
  destruct x as [s|s| |s m e H]; intros F; try discriminate; cbn [d_round].
  { change (B2R (B754_zero s)) with 0. rewrite (Rround_IZR 0). reflexivity. }
  change (B2R (B754_finite s m e H)) with (F2R (Float radix2 (SpecFloat.cond_Zopp s (Zpos m)) e)).
  assert (P : 0 <= F2R (Float radix2 (Zpos m) e)) by (apply F2R_ge_0; cbn; lia).
  assert (K : Rround (F2R (Float radix2 (Zpos m) e)) = (if 0 <=? e then Zpos m * 2 ^ e else (2 * Zpos m + 2 ^ (- e)) / (2 * 2 ^ (- e)))%Z).
  { destruct (Z.leb_spec 0 e) as [He|He].
    - rewrite whole by exact He. apply Rround_IZR.
    - unfold Rround. destruct (Rle_dec 0 _); [|lra]. now apply floor_half. }
  destruct s; cbn [SpecFloat.cond_Zopp].
  - change (Z.neg m) with (- Z.pos m)%Z. rewrite F2R_Zopp, Rround_opp, K. reflexivity.
  - rewrite K. reflexivity.
Qed.
Lemma d_round_nan (x : double) : is_finite x = false -> d_round x = UB.
Proof. destruct x; cbn; congruence. Qed.
Lemma d_ceil_spec (x : double) n : d_ceil x = Ok n -> is_finite x = true /\ IZR n - 1 < B2R x <= IZR n /\ (0 <= n < 2 ^ 32)%Z.
Proof.
  destruct x as [s|s| |s m e H]; cbn [d_ceil is_finite]; try discriminate.
  { intros E. injection E as <-. change (B2R (B754_zero s)) with 0. repeat split; try lia; lra. }
  change (B2R (B754_finite s m e H)) with (F2R (Float radix2 (SpecFloat.cond_Zopp s (Zpos m)) e)). set (z := SpecFloat.cond_Zopp s (Zpos m)). unfold to_uint.
  intros E. split; [reflexivity|]. destruct (_ && _)%bool eqn:B in E; [|discriminate]. injection E as <-. split; [|lia]. clear B. destruct (Z.leb_spec 0 e) as [He|He].
  - rewrite whole by exact He. lra.
  - assert (HP : (0 < 2 ^ (- e))%Z) by (apply Z.pow_pos_nonneg; lia). pose proof (Z.div_mod (- z) (2 ^ (- e)) ltac:(lia)) as D. pose proof (Z.mod_pos_bound (- z) (2 ^ (- e)) HP) as M.
    set (k := ((- z) / 2 ^ (- e))%Z) in *. set (t := ((- z) mod 2 ^ (- e))%Z) in *. set (P := (2 ^ (- e))%Z) in *.
    assert (EP : IZR P = bpow radix2 (- e)) by (unfold P; change (2 ^ (- e))%Z with (radix2 ^ (- e))%Z; rewrite IZR_Zpower by lia; reflexivity).
    assert (One : IZR P * bpow radix2 e = 1) by (rewrite EP, <- bpow_plus, Z.add_opp_diag_l; reflexivity). pose proof (bpow_gt_0 radix2 e) as Pe.
    unfold F2R. cbn [Fnum Fexp]. set (x := bpow radix2 e) in *. apply (f_equal IZR) in D. rewrite plus_IZR, mult_IZR, opp_IZR in D. rewrite opp_IZR.
    assert (V : IZR z * x = - IZR k - IZR t * x). { replace (IZR z) with (- (IZR P * IZR k + IZR t)) by lra. replace (- (IZR P * IZR k + IZR t) * x) with (- (IZR P * x * IZR k) - IZR t * x) by ring. rewrite One. ring. }
    assert (T : 0 <= IZR t < IZR P) by (split; [apply IZR_le|apply IZR_lt]; lia).
    assert (B : 0 <= IZR t * x < 1). { split; [apply Rmult_le_pos; lra|]. rewrite <- One. apply Rmult_lt_compat_r; lra. }
    lra.
Qed.

(** ** The size of the table *)

Lemma nodes_half size r n : d_nodes size r = Ok n -> exists h, n = (2 * h + 1)%Z /\ (0 <= h < 2 ^ 31)%Z.
Proof.
  unfold d_nodes. destruct (d_ceil _) as [c| | |] eqn:E; cbn [bind]; try discriminate. intros H. injection H as <-. apply d_ceil_spec in E as (_ & _ & B).
  destruct (Z.even c) eqn:Ec.
  - apply Z.even_spec in Ec as [h ->]. exists h. rewrite Z.mod_small by lia. lia.
  - assert (O : Z.odd c = true) by (rewrite <- Z.negb_even, Ec; reflexivity). apply Z.odd_spec in O as [h ->]. exists h. lia.
Qed.

(** A quotient that is finite. *)
Lemma quotient_finite (x y : double) : B2R y <> 0 -> is_finite (d_div x y) = true -> B2R (d_div x y) = rnd53 (B2R x / B2R y).
Proof.
  intros Hy F. pose proof (Bdiv_correct 53 1024 prec53 emax1024 mode_NE x y Hy) as C.
  destruct (Rlt_bool _ _) in C.
  - destruct C as (C & _). exact C.
  - exfalso. apply (f_equal is_finite_SF) in C. rewrite is_finite_SF_B2SF in C. change (Bdiv mode_NE x y) with (d_div x y) in C. rewrite F in C. discriminate.
Qed.

Lemma mult_inv_abs x r : 0 < r -> Rabs (x / r) * r = Rabs x.
Proof. intros H. unfold Rdiv. rewrite Rabs_mult, (Rabs_pos_eq (/ r)), Rmult_assoc, Rinv_l by (try (apply Rlt_le, Rinv_0_lt_compat; lra); lra). ring. Qed.
Lemma unit_eta r : bpow radix2 (-900) <= r -> eta53 <= bpow radix2 (-175) * r.
Proof. intros H. unfold eta53. change (-1075)%Z with (-175 + -900)%Z. rewrite bpow_plus. apply Rmult_le_compat_l; [apply bpow_ge_0|exact H]. Qed.
Lemma small_units : 0 < bpow radix2 (-175) <= bpow radix2 (-100) * / 1000000 /\ 0 < bpow radix2 (-100) <= / 1000000000 /\ 0 < eta53 <= bpow radix2 (-175) /\ bpow radix2 (-50) = 8 * u53 /\ 0 < u53 <= / 1000000000.
Proof.
  assert (E : bpow radix2 (-175) = bpow radix2 (-100) * bpow radix2 (-75)) by (rewrite <- bpow_plus; reflexivity). pose proof (bpow_gt_0 radix2 (-175)). pose proof (bpow_gt_0 radix2 (-100)).
  assert (bpow radix2 (-75) <= / 1000000). { apply Rle_trans with (bpow radix2 (-20)); [apply bpow_le; lia|]. change (bpow radix2 (-20)) with (/ 1048576). lra. }
  assert (B30 : bpow radix2 (-30) <= / 1000000000) by (change (bpow radix2 (-30)) with (/ 1073741824); lra).
  repeat split; try assumption; try apply bpow_gt_0.
  - rewrite E. apply Rmult_le_compat_l; lra.
  - apply Rle_trans with (bpow radix2 (-30)); [apply bpow_le; lia|exact B30].
  - apply bpow_le. lia.
  - unfold u53. change (-50)%Z with (3 + -53)%Z. rewrite bpow_plus. reflexivity.
  - unfold u53. apply Rle_trans with (bpow radix2 (-30)); [apply bpow_le; lia|exact B30].
Qed.

(** The offset of an axis. *)
Lemma offset_near h r : (0 <= h < 2 ^ 31)%Z -> is_finite r = true -> bpow radix2 (-900) <= B2R r <= bpow radix2 900 ->
  let off := d_offset (2 * h + 1) r in is_finite off = true /\ 0 <= B2R off /\ Rabs (B2R off - IZR h * B2R r) <= u53 * (IZR h * B2R r) + bpow radix2 (-175) * B2R r.
Proof.
  intros Hh Fr Br. pose proof (bpow_gt_0 radix2 (-900)) as P0. unfold d_offset. replace ((2 * h + 1) / 2)%Z with h by lia.
  destruct (int_double h ltac:(lia)) as [F E]. pose proof (IZR_le 0 h ltac:(lia)) as Ph. assert (Ph2 : IZR h <= bpow radix2 31) by (change (bpow radix2 31) with (IZR (2 ^ 31)); apply IZR_le; lia).
  assert (Pr0 : 0 <= B2R r) by lra. pose proof (Rmult_le_pos _ _ Ph Pr0) as Pm.
  destruct (dmul_real (d_of h 0) r 931 F Fr ltac:(lia)) as [F2 E2].
  { rewrite E, Rabs_pos_eq by exact Pm. change 931%Z with (31 + 900)%Z. rewrite bpow_plus. apply Rmult_le_compat; lra. }
  cbv zeta. split; [exact F2|]. rewrite E2, E. split.
  - apply round_ge_generic; auto with typeclass_instances. apply generic_format_0.
  - eapply Rle_trans; [apply StraightFloat_proofs.err53|]. rewrite Rabs_pos_eq by exact Pm. pose proof (unit_eta _ (proj1 Br)). lra.
Qed.

(** ** One axis *)

Section Axis.
Variables (h : Z) (r x : double).
Hypothesis Hh : (0 <= h < 2 ^ 31)%Z.
Hypothesis Fr : is_finite r = true.
Hypothesis Br : bpow radix2 (-900) <= B2R r <= bpow radix2 900.
Hypothesis Fx : is_finite x = true.
Let off := d_offset (2 * h + 1) r.
Hypothesis Bx : Rabs (B2R x) + B2R off <= bpow radix2 30 * B2R r.

Lemma r_positive : 0 < B2R r.
Proof using Br. pose proof (bpow_gt_0 radix2 (-900)). lra. Qed.

Lemma axis_quotient : let q := d_div (d_add x off) r in
  is_finite q = true /\ Rabs (B2R q * B2R r - (B2R x + B2R off)) <= 3 * u53 * (Rabs (B2R x) + B2R off) + bpow radix2 (-175) * B2R r.
Proof using All.
  pose proof r_positive as Pr. destruct (offset_near h r Hh Fr Br) as (Fo & Po & _). fold off in Fo, Po. pose proof (Rabs_pos (B2R x)) as Px. destruct small_units as (U1 & U2 & U3 & _ & U5).
  assert (A : Rabs (B2R x + B2R off) <= Rabs (B2R x) + B2R off). { eapply Rle_trans; [apply Rabs_triang|]. rewrite (Rabs_pos_eq (B2R off)) by exact Po. lra. }
  set (m := Rabs (B2R x) + B2R off) in *.
  destruct (add_real x off 930 Fx Fo ltac:(lia)) as [F1 E1].
  { eapply Rle_trans; [exact A|]. eapply Rle_trans; [exact Bx|]. change 930%Z with (30 + 900)%Z. rewrite bpow_plus. apply Rmult_le_compat_l; [apply bpow_ge_0|lra]. }
  pose proof (plus53 x off) as R1. rewrite <- E1 in R1. set (s := B2R (d_add x off)) in *.
  assert (B1 : Rabs (s - (B2R x + B2R off)) <= u53 * m) by (eapply Rle_trans; [exact R1|]; apply Rmult_le_compat_l; lra).
  assert (Pm : 0 <= m) by (unfold m; lra). assert (Um : u53 * m <= m). { rewrite <- (Rmult_1_l m) at 2. apply Rmult_le_compat_r; lra. }
  assert (Bs : Rabs s <= 2 * m). { replace s with (s - (B2R x + B2R off) + (B2R x + B2R off)) by ring. eapply Rle_trans; [apply Rabs_triang|]. lra. }
  pose proof (mult_inv_abs s _ Pr) as Q1.
  assert (Q : Rabs (s / B2R r) <= bpow radix2 31). { apply Rmult_le_reg_r with (B2R r); [exact Pr|]. rewrite Q1. change 31%Z with (1 + 30)%Z. rewrite bpow_plus. change (bpow radix2 1) with 2. lra. }
  destruct (div_real (d_add x off) r 31 F1 ltac:(lra) ltac:(lia) Q) as [F2 E2]. fold s in E2. cbv zeta. split; [exact F2|]. rewrite E2.
  pose proof (StraightFloat_proofs.err53 (s / B2R r)) as R2. set (q := rnd53 (s / B2R r)) in *.
  assert (S : s / B2R r * B2R r = s) by (field; lra).
  assert (R3 : Rabs (q * B2R r - s) <= u53 * Rabs s + eta53 * B2R r).
  { rewrite <- S at 1. replace (q * B2R r - s / B2R r * B2R r) with ((q - s / B2R r) * B2R r) by ring. rewrite Rabs_mult, (Rabs_pos_eq (B2R r)) by lra. rewrite <- Q1.
    replace (u53 * (Rabs (s / B2R r) * B2R r) + eta53 * B2R r) with ((u53 * Rabs (s / B2R r) + eta53) * B2R r) by ring. apply Rmult_le_compat_r; lra. }
  replace (q * B2R r - (B2R x + B2R off)) with ((q * B2R r - s) + (s - (B2R x + B2R off))) by ring. eapply Rle_trans; [apply Rabs_triang|].
  assert (u53 * Rabs s <= u53 * (2 * m)) by (apply Rmult_le_compat_l; lra). assert (eta53 * B2R r <= bpow radix2 (-175) * B2R r) by (apply Rmult_le_compat_r; lra). lra.
Qed.

(** The index of the axis. *)
Lemma axis_index : exists i, d_round (d_div (d_add x off) r) = Ok i /\ (- 2 ^ 31 <= i < 2 ^ 31)%Z /\
  Rabs (IZR i * B2R r - B2R off - B2R x) <= B2R r / 2 + (3 * u53 * (Rabs (B2R x) + B2R off) + bpow radix2 (-175) * B2R r).
Proof using All.
  pose proof r_positive as Pr. destruct axis_quotient as [F E]. cbv zeta in F, E. pose proof (d_round_spec _ F) as D. set (q := B2R (d_div (d_add x off) r)) in *.
  pose proof (Rround_spec q) as N. destruct (offset_near h r Hh Fr Br) as (Fo & Po & _). fold off in Fo, Po. pose proof (Rabs_pos (B2R x)) as Px. destruct small_units as (U1 & U2 & U3 & _ & U5).
  set (i := Rround q) in *. exists i.
  assert (K : Rabs (IZR i * B2R r - B2R off - B2R x) <= B2R r / 2 + (3 * u53 * (Rabs (B2R x) + B2R off) + bpow radix2 (-175) * B2R r)).
  { replace (IZR i * B2R r - B2R off - B2R x) with ((IZR i - q) * B2R r + (q * B2R r - (B2R x + B2R off))) by ring. eapply Rle_trans; [apply Rabs_triang|]. apply Rplus_le_compat; [|exact E].
    rewrite Rabs_mult, (Rabs_pos_eq (B2R r)) by lra. unfold Rdiv. rewrite (Rmult_comm (B2R r)). apply Rmult_le_compat_r; lra. }
  assert (I : Rabs (IZR i) <= bpow radix2 31 - 1).
  { apply Rmult_le_reg_r with (B2R r); [exact Pr|]. rewrite <- (Rabs_pos_eq (B2R r)) at 1 by lra. rewrite <- Rabs_mult.
    replace (IZR i * B2R r) with ((IZR i * B2R r - B2R off - B2R x) + (B2R x + B2R off)) by ring. eapply Rle_trans; [apply Rabs_triang|].
    assert (A : Rabs (B2R x + B2R off) <= Rabs (B2R x) + B2R off). { eapply Rle_trans; [apply Rabs_triang|]. rewrite (Rabs_pos_eq (B2R off)) by exact Po. lra. }
    set (m := Rabs (B2R x) + B2R off) in *. assert (Pm : 0 <= m) by (unfold m; lra). assert (Um : u53 * m <= / 1000000000 * m) by (apply Rmult_le_compat_r; lra).
    assert (bpow radix2 (-175) * B2R r <= / 1000 * B2R r) by (apply Rmult_le_compat_r; lra). change (bpow radix2 31) with 2147483648. change (bpow radix2 30) with 1073741824 in Bx. lra. }
  change (bpow radix2 31) with 2147483648 in I. apply Rabs_between in I.
  assert (Z1 : (- 2 ^ 31 <= i)%Z) by (apply le_IZR; change (IZR (- 2 ^ 31)) with (- 2147483648); lra). assert (Z2 : (i < 2 ^ 31)%Z) by (apply lt_IZR; change (IZR (2 ^ 31)) with 2147483648; lra).
  split; [|split; [lia|exact K]]. rewrite D. unfold to_int. replace ((- 2 ^ 31 <=? i) && (i <? 2 ^ 31))%Z with true by lia. reflexivity.
Qed.

(** The index is near, past the table only where the coordinate is, and in the table only where the coordinate is not far beyond. *)
Lemma axis : exists i, d_round (d_div (d_add x off) r) = Ok i /\ (- 2 ^ 31 <= i < 2 ^ 31)%Z /\ next_to i (B2R off) (B2R r) (B2R x) /\
  ((i < 0 \/ 2 * h + 1 <= i)%Z -> past (B2R off) (B2R r) (B2R x)) /\
  (B2R off + B2R r / 2 + slack (B2R r) (Rabs (B2R x) + B2R off) < Rabs (B2R x) -> (i < 0 \/ 2 * h + 1 <= i)%Z).
Proof using All.
  pose proof r_positive as Pr. destruct axis_index as (i & D & I & K). exists i. split; [exact D|]. split; [exact I|].
  destruct (offset_near h r Hh Fr Br) as (Fo & Po & Ho). fold off in Fo, Po, Ho. pose proof (Rabs_pos (B2R x)) as Px. destruct small_units as (U1 & U2 & U3 & U4 & U5).
  unfold next_to, past, slack. rewrite U4. set (m := Rabs (B2R x) + B2R off) in *. assert (Om : B2R off <= m) by (unfold m; lra). 
  assert (Uo : 0 <= u53 * B2R off <= u53 * m) by (split; [apply Rmult_le_pos; lra|apply Rmult_le_compat_l; lra]).
  assert (Tr : 0 <= bpow radix2 (-175) * B2R r <= / 1000000 * (bpow radix2 (-100) * B2R r)).
  { split; [apply Rmult_le_pos; lra|]. rewrite <- Rmult_assoc. apply Rmult_le_compat_r; lra. }
  pose proof (IZR_le 0 h ltac:(lia)) as Ph. pose proof (Rmult_le_pos _ _ Ph (Rlt_le _ _ Pr)) as Pm. set (hr := IZR h * B2R r) in *.
  assert (Uh : u53 * hr <= / 2 * hr) by (apply Rmult_le_compat_r; lra). apply Rabs_between in Ho. assert (Hhr : hr <= 2 * B2R off + 2 * (bpow radix2 (-175) * B2R r)) by lra.
  assert (Uh2 : u53 * hr <= 2 * (u53 * B2R off) + bpow radix2 (-175) * B2R r).
  { eapply Rle_trans; [apply Rmult_le_compat_l; [lra|exact Hhr]|]. assert (u53 * (bpow radix2 (-175) * B2R r) <= / 1000000 * (bpow radix2 (-175) * B2R r)) by (apply Rmult_le_compat_r; lra). lra. }
  apply Rabs_between in K. split; [apply Rabs_between; lra|]. split.
  - intros [Hi|Hi].
    + assert (N : IZR i * B2R r <= - B2R r). { apply Rle_trans with (IZR (-1) * B2R r); [|lra]. apply Rmult_le_compat_r; [lra|]. apply IZR_le. lia. }
      assert (- B2R x <= Rabs (B2R x)) by (rewrite <- Rabs_Ropp; apply Rle_abs). lra.
    + assert (N : 2 * hr + B2R r <= IZR i * B2R r). { replace (2 * hr + B2R r) with (IZR (2 * h + 1) * B2R r) by (unfold hr; rewrite plus_IZR, mult_IZR; ring). apply Rmult_le_compat_r; [lra|]. apply IZR_le. lia. }
      assert (B2R x <= Rabs (B2R x)) by apply Rle_abs. lra.
  - intros Hx. destruct (Z_lt_le_dec i 0) as [L|L]; [left; exact L|]. destruct (Z_lt_le_dec i (2 * h + 1)) as [L2|L2]; [exfalso|right; exact L2].
    assert (N1 : 0 <= IZR i * B2R r) by (apply Rmult_le_pos; [apply IZR_le; lia|lra]).
    assert (N2 : IZR i * B2R r <= 2 * hr). { replace (2 * hr) with (IZR (2 * h) * B2R r) by (unfold hr; rewrite mult_IZR; ring). apply Rmult_le_compat_r; [lra|]. apply IZR_le. lia. }
    assert (O1 : - B2R off <= IZR i * B2R r - B2R off <= B2R off + 2 * (u53 * hr) + 2 * (bpow radix2 (-175) * B2R r)) by lra. clear N1 N2 Hhr.
    set (E8 := u53 * m) in *. replace (3 * u53 * m) with (3 * E8) in K by (unfold E8; ring). replace (8 * u53 * m) with (8 * E8) in Hx by (unfold E8; ring).
    destruct (Rle_dec 0 (B2R x)) as [P|P]; [rewrite (Rabs_pos_eq (B2R x)) in Hx by exact P|rewrite (Rabs_left (B2R x)) in Hx by lra]; lra.
Qed.
End Axis.

(** ** The heading *)

Section Heading.
Variables (a th : double) (n : Z).
Hypothesis Pa : 0 < B2R a.
Hypothesis Hn : d_ceil (d_div d_two_pi a) = Ok n.
Hypothesis Ln : (n < 2 ^ 31)%Z.
Hypothesis Fth : is_finite th = true.
Hypothesis Bth : - pi_ <= B2R th <= pi_.

Lemma heading_quotient : let q := d_div th a in is_finite q = true /\ B2R q = rnd53 (B2R th / B2R a) /\ B2R q <= IZR n /\ - IZR n <= B2R q /\ (1 <= n)%Z /\
  Rabs (B2R q * B2R a - B2R th) <= u53 * Rabs (B2R th) + eta53 * B2R a.
Proof using All.
  clear Ln. pose proof pi_bounds as Bp. pose proof Hn as C. apply d_ceil_spec in C as (F & B & Z0).
  assert (Ln : IZR n <= bpow radix2 32) by (change (bpow radix2 32) with (IZR (2 ^ 32)); apply IZR_le; lia).
  pose proof (quotient_finite d_two_pi a ltac:(lra) F) as E. rewrite two_pi_value in E. rewrite E in B. set (w := 2 * pi_ / B2R a) in *.
  assert (W : 0 < w) by (unfold w; apply Rdiv_lt_0_compat; lra).
  assert (Wa : w * B2R a = 2 * pi_) by (unfold w; field; lra).
  assert (W33 : w <= bpow radix2 33).
  { destruct (Rle_dec w (bpow radix2 33)) as [L|L]; auto. exfalso. assert (G : bpow radix2 33 <= rnd53 w) by (apply round_ge_generic; auto with typeclass_instances; [apply format53_pow; lia|lra]).
    assert (bpow radix2 32 < bpow radix2 33) by (apply bpow_lt; lia). lra. }
  set (v := B2R th / B2R a). assert (Va : v * B2R a = B2R th) by (unfold v; field; lra).
  assert (V : - w <= v <= w). { split; apply Rmult_le_reg_r with (B2R a); try exact Pa; rewrite ?Ropp_mult_distr_l_reverse, Va, Wa; lra. }
  destruct (div_real th a 33 Fth ltac:(lra) ltac:(lia)) as [F1 E1]. { apply Rabs_between. fold v. lra. }
  fold v in E1. cbv zeta. rewrite E1. split; [exact F1|]. split; [reflexivity|].
  assert (M1 : rnd53 v <= rnd53 w) by (apply round_le; auto with typeclass_instances; lra).
  assert (M2 : - rnd53 w <= rnd53 v) by (change (rnd53 w) with (round radix2 (SpecFloat.fexp 53 1024) ZnearestE w); rewrite <- round_NE_opp; apply round_le; auto with typeclass_instances; lra).
  split; [lra|]. split; [lra|]. split.
  - assert (Wp : bpow radix2 (-1074) <= rnd53 w).
    { apply round_ge_generic; auto with typeclass_instances; [apply format53_pow; lia|]. pose proof (abs_B2R_lt_emax 53 1024 a) as La. rewrite Rabs_pos_eq in La by lra.
      apply Rmult_le_reg_r with (B2R a); [exact Pa|]. rewrite Wa. apply Rle_trans with (bpow radix2 (-1074) * bpow radix2 1024); [apply Rmult_le_compat_l; [apply bpow_ge_0|lra]|].
      rewrite <- bpow_plus. apply Rle_trans with (bpow radix2 0); [apply bpow_le; lia|]. change (bpow radix2 0) with 1. lra. }
    pose proof (bpow_gt_0 radix2 (-1074)). assert (0 < IZR n) by lra. apply lt_IZR in H0. lia.
  - pose proof (StraightFloat_proofs.err53 v) as Er. rewrite <- Va at 1. replace (rnd53 v * B2R a - v * B2R a) with ((rnd53 v - v) * B2R a) by ring. rewrite Rabs_mult, (Rabs_pos_eq (B2R a)) by lra.
    pose proof (mult_inv_abs (B2R th) _ Pa) as Q. fold v in Q. rewrite <- Q. replace (u53 * (Rabs v * B2R a) + eta53 * B2R a) with ((u53 * Rabs v + eta53) * B2R a) by ring. apply Rmult_le_compat_r; lra.
Qed.

Lemma heading_index : exists k, d_round (d_div th a) = Ok k /\ (- n <= k <= n)%Z /\ (1 <= n)%Z /\ Rabs (IZR k * B2R a - B2R th) <= B2R a / 2 + slack (B2R a) (Rabs (B2R th)) /\
  (- (1 - bpow radix2 (-52)) * (B2R a / 2) <= B2R th -> (0 <= k)%Z) /\ (B2R th <= - (B2R a / 2) -> (k < 0)%Z).
Proof using All.
  destruct heading_quotient as (F & E & B1 & B2 & N1 & K). cbv zeta in *. pose proof (d_round_spec _ F) as D. set (q := B2R (d_div th a)) in *. set (k := Rround q) in *. exists k.
  pose proof (Rround_spec q) as Nr. fold k in Nr. apply Rabs_between in Nr.
  assert (Kn : (- n <= k <= n)%Z).
  { split; apply Z.lt_succ_r; apply lt_IZR; rewrite succ_IZR; [rewrite opp_IZR|]; lra. }
  destruct small_units as (U1 & U2 & U3 & U4 & U5).
  split; [rewrite D; unfold to_int; replace ((- 2 ^ 31 <=? k) && (k <? 2 ^ 31))%Z with true by lia; reflexivity|].
  split; [exact Kn|]. split; [exact N1|]. split; [|split].
  - unfold slack. rewrite U4. pose proof (Rabs_pos (B2R th)) as P. assert (0 <= u53 * Rabs (B2R th)) by (apply Rmult_le_pos; lra). assert (eta53 * B2R a <= bpow radix2 (-100) * B2R a) by (apply Rmult_le_compat_r; lra).
    apply Rabs_between in K. assert (X : - (B2R a / 2) <= (IZR k - q) * B2R a <= B2R a / 2).
    { split; [replace (- (B2R a / 2)) with (- / 2 * B2R a) by field|replace (B2R a / 2) with (/ 2 * B2R a) by field]; apply Rmult_le_compat_r; lra. }
    apply Rabs_between. lra.
  - intros H. apply Rround_nonneg. fold q. set (c := (1 - bpow radix2 (-52)) / 2). apply Rlt_le_trans with (- c).
    { unfold c. pose proof (bpow_gt_0 radix2 (-52)). lra. }
    rewrite E. apply round_ge_generic; auto with typeclass_instances.
    + apply generic_format_opp. replace c with (F2R (Float radix2 (2 ^ 52 - 1) (-53))); [apply format53; [lia|reflexivity]|]. unfold F2R, c. cbn [Fnum Fexp]. change (-53)%Z with (-52 + -1)%Z. rewrite bpow_plus, minus_IZR.
      change (IZR (2 ^ 52)) with (bpow radix2 52). assert (X : bpow radix2 52 * bpow radix2 (-52) = 1) by (rewrite <- bpow_plus; reflexivity). change (bpow radix2 (-1)) with (/ 2).
      replace ((bpow radix2 52 - 1) * (bpow radix2 (-52) * / 2)) with ((bpow radix2 52 * bpow radix2 (-52) - bpow radix2 (-52)) / 2) by field. rewrite X. reflexivity.
    + apply Rmult_le_reg_r with (B2R a); [exact Pa|]. replace (B2R th / B2R a * B2R a) with (B2R th) by (field; lra). replace (- c * B2R a) with (- (1 - bpow radix2 (-52)) * (B2R a / 2)) by (unfold c; field). exact H.
  - intros H. apply Z.lt_nge. intros L. apply Rround_nonneg in L. fold q in L.
    assert (q <= - / 2); [|lra]. rewrite E. apply round_le_generic; auto with typeclass_instances.
    + apply generic_format_opp. change (/ 2) with (bpow radix2 (-1)). apply format53_pow. lia.
    + apply Rmult_le_reg_r with (B2R a); [exact Pa|]. replace (B2R th / B2R a * B2R a) with (B2R th) by (field; lra). lra.
Qed.
End Heading.

(** ** The entry *)

Section Entry.
Variables (t : d_table) (delta : d_pose).
Hypothesis S : sensible t.
Hypothesis D : difference t delta.

Lemma parts : exists hx hy, (0 <= hx < 2 ^ 31)%Z /\ (0 <= hy < 2 ^ 31)%Z /\ dt_numx t = (2 * hx + 1)%Z /\ dt_numy t = (2 * hy + 1)%Z /\
  dt_offx t = d_offset (2 * hx + 1) (dt_res t) /\ dt_offy t = d_offset (2 * hy + 1) (dt_res t) /\ d_ceil (d_div d_two_pi (dt_ang t)) = Ok (dt_numang t).
Proof using S.
  destruct (s_built t S) as (lower & upper & H). unfold d_build in H.
  destruct (d_nodes (d_sub (d_x upper) (d_x lower)) (dt_res t)) as [nx| | |] eqn:Ex; cbn [bind] in H; try discriminate.
  destruct (d_nodes (d_sub (d_y upper) (d_y lower)) (dt_res t)) as [ny| | |] eqn:Ey; cbn [bind] in H; try discriminate.
  destruct (d_ceil _) as [na| | |] eqn:Ea in H; cbn [bind] in H; try discriminate.
  apply nodes_half in Ex as (hx & -> & Hx). apply nodes_half in Ey as (hy & -> & Hy).
  exists hx, hy. assert (E : DTable (dt_res t) (dt_ang t) (2 * hx + 1) (2 * hy + 1) na (d_offset (2 * hx + 1) (dt_res t)) (d_offset (2 * hy + 1) (dt_res t)) = t) by congruence.
  pose proof (f_equal dt_numx E) as E1. pose proof (f_equal dt_numy E) as E2. pose proof (f_equal dt_numang E) as E3. pose proof (f_equal dt_offx E) as E4. pose proof (f_equal dt_offy E) as E5.
  cbn [dt_numx dt_numy dt_numang dt_offx dt_offy] in *. rewrite <- E3. repeat split; auto; lia.
Qed.

(** The three indices. *)
Lemma indices : exists i j k, 
  d_entry t delta = (let k := if k mod 2 ^ 32 =? dt_numang t then 0 else k in
    if (i <? 0) || (dt_numx t <=? i) || (j <? 0) || (dt_numy t <=? j) then Ok None
    else if (0 <=? k) && (k <? dt_numang t) then Ok (Some (i, j, k)) else UB)%Z /\
  (next_to i (B2R (dt_offx t)) (B2R (dt_res t)) (B2R (d_x delta)) /\
  ((i < 0 \/ dt_numx t <= i)%Z -> past (B2R (dt_offx t)) (B2R (dt_res t)) (B2R (d_x delta))) /\
  (B2R (dt_offx t) + B2R (dt_res t) / 2 + slack (B2R (dt_res t)) (Rabs (B2R (d_x delta)) + B2R (dt_offx t)) < Rabs (B2R (d_x delta)) -> (i < 0 \/ dt_numx t <= i)%Z)) /\
  (next_to j (B2R (dt_offy t)) (B2R (dt_res t)) (B2R (d_y delta)) /\
  ((j < 0 \/ dt_numy t <= j)%Z -> past (B2R (dt_offy t)) (B2R (dt_res t)) (B2R (d_y delta))) /\
  (B2R (dt_offy t) + B2R (dt_res t) / 2 + slack (B2R (dt_res t)) (Rabs (B2R (d_y delta)) + B2R (dt_offy t)) < Rabs (B2R (d_y delta)) -> (j < 0 \/ dt_numy t <= j)%Z)) /\
  (- dt_numang t <= k <= dt_numang t)%Z /\ (1 <= dt_numang t < 2 ^ 31)%Z /\
  Rabs (IZR k * B2R (dt_ang t) - B2R (d_theta delta)) <= B2R (dt_ang t) / 2 + slack (B2R (dt_ang t)) (Rabs (B2R (d_theta delta))) /\
  (- (1 - bpow radix2 (-52)) * (B2R (dt_ang t) / 2) <= B2R (d_theta delta) -> (0 <= k)%Z) /\ (B2R (d_theta delta) <= - (B2R (dt_ang t) / 2) -> (k < 0)%Z).
Proof using S D.
  destruct parts as (hx & hy & Hx & Hy & Nx & Ny & Ox & Oy & Na). destruct (s_res t S) as [Fr Br]. destruct (s_ang t S) as [Fa Pa].
  destruct (f_x t delta D) as [Fx Bx]. destruct (f_y t delta D) as [Fy By]. destruct (f_th t delta D) as [Ft Bt]. rewrite Ox in Bx. rewrite Oy in By.
  destruct (axis hx _ _ Hx Fr Br Fx Bx) as (i & Ei & Ii & Ni). destruct (axis hy _ _ Hy Fr Br Fy By) as (j & Ej & Ij & Nj). rewrite <- Ox in Ei, Ni. rewrite <- Oy in Ej, Nj.
  rewrite <- Nx in Ni. rewrite <- Ny in Nj.
  destruct (heading_index _ _ _ Pa Na (s_numang t S) Ft Bt) as (k & Ek & Ik & N1 & Nk). pose proof (s_numang t S) as Sn. exists i, j, k.
  split; [|split; [exact Ni|split; [exact Nj|split; [exact Ik|split; [lia|exact Nk]]]]].
  unfold d_entry. rewrite Ei, Ej, Ek. cbn [bind]. cbv zeta. set (k' := if (_ =? _)%Z then _ else _).
  clear - Nx Ny Hx Hy Ii Ij. destruct (Z.ltb_spec i 0) as [L|L]; [reflexivity|]. rewrite (Z.mod_small i) by lia. cbn [orb]. rewrite Z.geb_leb.
  destruct (Z.leb_spec (dt_numx t) i) as [L2|L2]; [reflexivity|]. cbn [orb].
  destruct (Z.ltb_spec j 0) as [L3|L3]; [reflexivity|]. rewrite (Z.mod_small j) by lia. cbn [orb]. rewrite Z.geb_leb.
  destruct (Z.leb_spec (dt_numy t) j) as [L4|L4]; [reflexivity|].
  replace (0 <=? i)%Z with true by lia. replace (i <? dt_numx t)%Z with true by lia. replace (0 <=? j)%Z with true by lia. replace (j <? dt_numy t)%Z with true by lia. reflexivity.
Qed.

Theorem entry_in_bounds : - (1 - bpow radix2 (-52)) * (B2R (dt_ang t) / 2) <= B2R (d_theta delta) ->
  exists v, d_entry t delta = Ok v /\
    match v with
    | None => past (B2R (dt_offx t)) (B2R (dt_res t)) (B2R (d_x delta)) \/ past (B2R (dt_offy t)) (B2R (dt_res t)) (B2R (d_y delta))
    | Some (i, j, k) => (0 <= i < dt_numx t)%Z /\ (0 <= j < dt_numy t)%Z /\ (0 <= k < dt_numang t)%Z /\
        next_to i (B2R (dt_offx t)) (B2R (dt_res t)) (B2R (d_x delta)) /\ next_to j (B2R (dt_offy t)) (B2R (dt_res t)) (B2R (d_y delta)) /\
        exists k', (k' = k \/ k = 0%Z /\ k' = dt_numang t) /\ Rabs (IZR k' * B2R (dt_ang t) - B2R (d_theta delta)) <= B2R (dt_ang t) / 2 + slack (B2R (dt_ang t)) (Rabs (B2R (d_theta delta)))
    end.
Proof using S D.
  intros H. destruct indices as (i & j & k & -> & (Ni & Pi & _) & (Nj & Pj & _) & Ik & In & Nk & K0 & _). specialize (K0 H). cbv zeta. rewrite (Z.mod_small k) by lia.
  destruct (Z.ltb_spec i 0) as [L|L]; [eexists; split; [reflexivity|]; left; apply Pi; lia|]. destruct (Z.leb_spec (dt_numx t) i) as [L2|L2]; [eexists; split; [reflexivity|]; left; apply Pi; lia|].
  destruct (Z.ltb_spec j 0) as [L3|L3]; [eexists; split; [reflexivity|]; right; apply Pj; lia|]. destruct (Z.leb_spec (dt_numy t) j) as [L4|L4]; [eexists; split; [reflexivity|]; right; apply Pj; lia|].
  cbn [orb]. destruct (Z.eqb_spec k (dt_numang t)) as [Ek|Ek].
  - replace ((0 <=? 0) && (0 <? dt_numang t))%Z with true by lia. eexists. split; [reflexivity|]. cbv beta iota. repeat (split; [lia || assumption|]). exists k. split; [right; lia|exact Nk].
  - replace ((0 <=? k) && (k <? dt_numang t))%Z with true by lia. eexists. split; [reflexivity|]. cbv beta iota. repeat (split; [lia || assumption|]). exists k. split; [left; reflexivity|exact Nk].
Qed.

Theorem entry_out_of_bounds : B2R (d_theta delta) <= - (B2R (dt_ang t) / 2) ->
  ~ past (B2R (dt_offx t)) (B2R (dt_res t)) (B2R (d_x delta)) -> ~ past (B2R (dt_offy t)) (B2R (dt_res t)) (B2R (d_y delta)) -> d_entry t delta = UB.
Proof using S D.
  intros H Px Py. destruct indices as (i & j & k & -> & (Ni & Pi & _) & (Nj & Pj & _) & Ik & In & Nk & _ & K0). specialize (K0 H). cbv zeta.
  destruct (Z.ltb_spec i 0) as [L|L]; [exfalso; apply Px, Pi; lia|]. destruct (Z.leb_spec (dt_numx t) i) as [L2|L2]; [exfalso; apply Px, Pi; lia|].
  destruct (Z.ltb_spec j 0) as [L3|L3]; [exfalso; apply Py, Pj; lia|]. destruct (Z.leb_spec (dt_numy t) j) as [L4|L4]; [exfalso; apply Py, Pj; lia|]. cbn [orb].
  assert (M : (k mod 2 ^ 32 = k + 2 ^ 32)%Z). { replace k with (k + 2 ^ 32 + (-1) * 2 ^ 32)%Z at 1 by ring. rewrite Z.mod_add by lia. apply Z.mod_small. lia. }
  rewrite M. replace (k + 2 ^ 32 =? dt_numang t)%Z with false by lia. replace (0 <=? k)%Z with false by lia. reflexivity.
Qed.

Theorem entry_beyond :
  B2R (dt_offx t) + B2R (dt_res t) / 2 + slack (B2R (dt_res t)) (Rabs (B2R (d_x delta)) + B2R (dt_offx t)) < Rabs (B2R (d_x delta)) \/
  B2R (dt_offy t) + B2R (dt_res t) / 2 + slack (B2R (dt_res t)) (Rabs (B2R (d_y delta)) + B2R (dt_offy t)) < Rabs (B2R (d_y delta)) -> d_entry t delta = Ok None.
Proof using S D.
  intros H. destruct indices as (i & j & k & -> & (_ & _ & Qi) & (_ & _ & Qj) & _). cbv zeta.
  destruct H as [H|H]; [specialize (Qi H)|specialize (Qj H)]; [replace ((i <? 0) || (dt_numx t <=? i))%Z with true by lia|replace ((i <? 0) || (dt_numx t <=? i) || (j <? 0) || (dt_numy t <=? j))%Z with true by lia]; reflexivity.
Qed.
End Entry.

(** ** The difference of two poses *)

Lemma rotated_term (c d : double) C Dd L : is_finite c = true -> is_finite d = true -> Rabs C <= 1 -> Rabs (B2R c - C) <= 2 * u53 -> 0 <= L <= bpow radix2 900 ->
  Rabs Dd <= 2 * L -> Rabs (B2R d - Dd) <= 2 * (u53 * L) ->
  is_finite (d_mul c d) = true /\ Rabs (B2R (d_mul c d) - C * Dd) <= 11 * (u53 * L) + eta53 /\ Rabs (B2R (d_mul c d)) <= 3 * L + eta53.
Proof.
  intros Fc Fd HC Hc HL HD Hd. destruct small_units as (_ & _ & U3 & _ & U5). assert (UL : 0 <= u53 * L <= / 1000 * L) by (split; [apply Rmult_le_pos; lra|apply Rmult_le_compat_r; lra]).
  assert (Bd : Rabs (B2R d) <= 3 * L). { replace (B2R d) with (B2R d - Dd + Dd) by ring. eapply Rle_trans; [apply Rabs_triang|]. lra. }
  assert (X : Rabs (B2R c * B2R d - C * Dd) <= 8 * (u53 * L)).
  { replace (B2R c * B2R d - C * Dd) with ((B2R c - C) * B2R d + C * (B2R d - Dd)) by ring. eapply Rle_trans; [apply Rabs_triang|]. rewrite !Rabs_mult.
    assert (Rabs (B2R c - C) * Rabs (B2R d) <= 2 * u53 * (3 * L)) by (apply Rmult_le_compat; auto using Rabs_pos).
    assert (Rabs C * Rabs (B2R d - Dd) <= 1 * (2 * (u53 * L))) by (apply Rmult_le_compat; auto using Rabs_pos). lra. }
  assert (CD : Rabs (C * Dd) <= 2 * L). { rewrite Rabs_mult. apply Rle_trans with (1 * (2 * L)); [apply Rmult_le_compat; auto using Rabs_pos|lra]. }
  assert (Y : Rabs (B2R c * B2R d) <= 3 * L - L / 2). { replace (B2R c * B2R d) with (B2R c * B2R d - C * Dd + C * Dd) by ring. eapply Rle_trans; [apply Rabs_triang|]. lra. }
  destruct (dmul_real c d 902 Fc Fd ltac:(lia)) as [F E].
  { eapply Rle_trans; [exact Y|]. change 902%Z with (2 + 900)%Z. rewrite bpow_plus. change (bpow radix2 2) with 4. pose proof (bpow_ge_0 radix2 900). lra. }
  pose proof (StraightFloat_proofs.err53 (B2R c * B2R d)) as R1. rewrite <- E in R1.
  assert (u53 * Rabs (B2R c * B2R d) <= u53 * (3 * L)) by (apply Rmult_le_compat_l; lra). split; [exact F|]. split.
  - replace (B2R (d_mul c d) - C * Dd) with ((B2R (d_mul c d) - B2R c * B2R d) + (B2R c * B2R d - C * Dd)) by ring. eapply Rle_trans; [apply Rabs_triang|]. lra.
  - replace (B2R (d_mul c d)) with ((B2R (d_mul c d) - B2R c * B2R d) + B2R c * B2R d) by ring. eapply Rle_trans; [apply Rabs_triang|]. lra.
Qed.
Lemma rotated_sum (p q : double) P Q L : is_finite p = true -> is_finite q = true -> 0 <= L <= bpow radix2 900 ->
  Rabs (B2R p - P) <= 11 * (u53 * L) + eta53 -> Rabs (B2R p) <= 3 * L + eta53 -> Rabs (B2R q - Q) <= 11 * (u53 * L) + eta53 -> Rabs (B2R q) <= 3 * L + eta53 ->
  is_finite (d_add p q) = true /\ Rabs (B2R (d_add p q) - (P + Q)) <= bpow radix2 (-48) * L + bpow radix2 (-1070).
Proof.
  intros Fp Fq HL Hp Bp Hq Bq. destruct small_units as (_ & _ & U3 & _ & U5). assert (UL : 0 <= u53 * L) by (apply Rmult_le_pos; lra).
  assert (A : Rabs (B2R p + B2R q) <= 6 * L + 2 * eta53) by (eapply Rle_trans; [apply Rabs_triang|]; lra).
  destruct (add_real p q 904 Fp Fq ltac:(lia)) as [F E].
  { eapply Rle_trans; [exact A|]. change 904%Z with (4 + 900)%Z. rewrite bpow_plus. change (bpow radix2 4) with 16. assert (eta53 <= bpow radix2 900) by (apply bpow_le; lia). lra. }
  pose proof (plus53 p q) as R1. rewrite <- E in R1. split; [exact F|].
  assert (u53 * Rabs (B2R p + B2R q) <= u53 * (6 * L + 2 * eta53)) by (apply Rmult_le_compat_l; lra).
  assert (u53 * eta53 <= / 2 * eta53) by (apply Rmult_le_compat_r; lra).
  assert (E48 : bpow radix2 (-48) = 32 * u53) by (change (-48)%Z with (5 + -53)%Z; rewrite bpow_plus; reflexivity). assert (E1070 : bpow radix2 (-1070) = 32 * eta53) by (change (-1070)%Z with (5 + -1075)%Z; rewrite bpow_plus; reflexivity).
  rewrite E48, E1070. replace (B2R (d_add p q) - (P + Q)) with ((B2R (d_add p q) - (B2R p + B2R q)) + ((B2R p - P) + (B2R q - Q))) by ring. eapply Rle_trans; [apply Rabs_triang|].
  eapply Rle_trans; [apply Rplus_le_compat_l, Rabs_triang|]. lra.
Qed.

Theorem pose_difference fuel dsin dcos goal state size : (3 <= fuel)%nat -> good_rotations dsin dcos -> size <= bpow radix2 900 -> pose_within size goal -> pose_within size state ->
  exists delta, d_pose_sub fuel dsin dcos goal state = Ok delta /\ is_finite (d_x delta) = true /\ is_finite (d_y delta) = true /\ is_finite (d_theta delta) = true /\
    - B2R d_pi <= B2R (d_theta delta) <= B2R d_pi /\ seen_from (bpow radix2 (-48) * size + bpow radix2 (-1070)) goal state delta.
Proof.
  intros Hf G Hs ((Fgx & Bgx) & (Fgy & Bgy) & (Fgt & Bgt)) ((Fsx & Bsx) & (Fsy & Bsy) & (Fst & Bst)). fold pi_ in *. pose proof pi_bounds as Bp. destruct small_units as (_ & _ & U3 & _ & U5).
  pose proof (Rabs_pos (B2R (d_x goal))) as P0. assert (L : 0 <= size <= bpow radix2 900) by lra.
  (* the coordinates *)
  assert (SUB : forall x y : double, is_finite x = true -> is_finite y = true -> Rabs (B2R x) <= size -> Rabs (B2R y) <= size ->
    is_finite (d_sub x y) = true /\ Rabs (B2R x - B2R y) <= 2 * size /\ Rabs (B2R (d_sub x y) - (B2R x - B2R y)) <= 2 * (u53 * size)).
  { intros x y Fx Fy Bx By. assert (A : Rabs (B2R x - B2R y) <= 2 * size). { unfold Rminus. eapply Rle_trans; [apply Rabs_triang|]. rewrite Rabs_Ropp. lra. }
    destruct (sub_real x y 901 Fx Fy ltac:(lia)) as [F E]. { eapply Rle_trans; [exact A|]. change 901%Z with (1 + 900)%Z. rewrite bpow_plus. change (bpow radix2 1) with 2. lra. }
    split; [exact F|]. split; [exact A|]. rewrite E. pose proof (plus53 x (Bopp y)) as R1. rewrite B2R_Bopp in R1. change (B2R x + - B2R y) with (B2R x - B2R y) in R1.
    eapply Rle_trans; [exact R1|]. apply Rle_trans with (u53 * (2 * size)); [apply Rmult_le_compat_l; lra|lra]. }
  destruct (SUB (d_x goal) (d_x state) Fgx Fsx Bgx Bsx) as (Fdx & Adx & Edx). destruct (SUB (d_y goal) (d_y state) Fgy Fsy Bgy Bsy) as (Fdy & Ady & Edy).
  (* the rotation *)
  destruct (G (Bopp (d_theta state))) as [[Fsn Esn] [Fcs Ecs]]; [rewrite is_finite_Bopp; exact Fst|rewrite B2R_Bopp, Rabs_Ropp; apply Rabs_between; lra|]. rewrite B2R_Bopp in Esn, Ecs. rewrite sin_neg in Esn. rewrite cos_neg in Ecs.
  assert (U52 : bpow radix2 (-52) = 2 * u53) by (change (-52)%Z with (1 + -53)%Z; rewrite bpow_plus; reflexivity). rewrite U52 in Esn, Ecs.
  set (th := B2R (d_theta state)) in *. set (sn := dsin (Bopp (d_theta state))) in *. set (cs := dcos (Bopp (d_theta state))) in *.
  assert (C1 : Rabs (cos th) <= 1) by (apply Rabs_between; pose proof (COS_bound th); lra). assert (S1 : Rabs (sin th) <= 1) by (apply Rabs_between; pose proof (SIN_bound th); lra).
  assert (Fos : is_finite (Bopp sn) = true) by (rewrite is_finite_Bopp; exact Fsn).
  assert (Eos : Rabs (B2R (Bopp sn) - sin th) <= 2 * u53). { rewrite B2R_Bopp. replace (- B2R sn - sin th) with (- (B2R sn - - sin th)) by ring. rewrite Rabs_Ropp. exact Esn. }
  assert (S1' : Rabs (- sin th) <= 1) by (rewrite Rabs_Ropp; exact S1).
  destruct (rotated_term _ _ _ _ _ Fcs Fdx C1 Ecs L Adx Edx) as (T1 & T2 & T3). destruct (rotated_term _ _ _ _ _ Fos Fdy S1 Eos L Ady Edy) as (T4 & T5 & T6).
  destruct (rotated_term _ _ _ _ _ Fsn Fdx S1' Esn L Adx Edx) as (T7 & T8 & T9). destruct (rotated_term _ _ _ _ _ Fcs Fdy C1 Ecs L Ady Edy) as (T10 & T11 & T12).
  destruct (rotated_sum _ _ _ _ _ T1 T4 L T2 T3 T5 T6) as [Fx Ex]. destruct (rotated_sum _ _ _ _ _ T7 T10 L T8 T9 T11 T12) as [Fy Ey].
  (* the heading *)
  assert (At : Rabs (B2R (d_theta goal) - th) <= 2 * pi_) by (apply Rabs_between; lra).
  destruct (sub_real (d_theta goal) (d_theta state) 3 Fgt Fst ltac:(lia)) as [Ft Et]. { fold th. eapply Rle_trans; [exact At|]. change (bpow radix2 3) with 8. lra. }
  fold th in Et. pose proof (plus53 (d_theta goal) (Bopp (d_theta state))) as Rt. rewrite B2R_Bopp in Rt. fold th in Rt. change (B2R (d_theta goal) + - th) with (B2R (d_theta goal) - th) in Rt. rewrite <- Et in Rt.
  set (w := d_sub (d_theta goal) (d_theta state)) in *.
  assert (Ut : u53 * Rabs (B2R (d_theta goal) - th) <= bpow radix2 (-50)). { apply Rle_trans with (u53 * (2 * pi_)); [apply Rmult_le_compat_l; lra|]. change (-50)%Z with (3 + -53)%Z. rewrite bpow_plus. fold u53. change (bpow radix2 3) with 8. rewrite Rmult_comm. apply Rmult_le_compat_r; lra. }
  assert (Bw : Rabs (B2R w) <= 3 * pi_).
  { replace (B2R w) with (B2R w - (B2R (d_theta goal) - th) + (B2R (d_theta goal) - th)) by ring. eapply Rle_trans; [apply Rabs_triang|]. 
    assert (bpow radix2 (-50) <= 1) by (apply Rle_trans with (bpow radix2 0); [apply bpow_le; lia|apply Rle_refl]). lra. }
  destruct (wrap_ends fuel w (3 * pi_) Ft Bw) as (t & k & R1 & R2 & R3 & _ & R5).
  { lra. } { apply Rle_trans with 16; [lra|]. change 16 with (bpow radix2 4). apply bpow_le. lia. } { apply le_INR in Hf. cbn [INR] in Hf. lra. }
  destruct (R5 Bw) as [K X]. destruct fuel as [|fuel]; [lia|].
  exists (DPose (d_add (d_mul cs (d_sub (d_x goal) (d_x state))) (d_mul (Bopp sn) (d_sub (d_y goal) (d_y state)))) (d_add (d_mul sn (d_sub (d_x goal) (d_x state))) (d_mul cs (d_sub (d_y goal) (d_y state)))) t).
  split; [|cbn [d_x d_y d_theta]; split; [exact Fx|split; [exact Fy|split; [exact R2|split; [exact R3|]]]]].
  - unfold d_pose_sub. fold w. rewrite R1. cbn [bind]. rewrite wrap_same by assumption. cbn [bind]. reflexivity.
  - unfold seen_from. cbn [d_x d_y d_theta]. fold th. cbv zeta. split; [|split].
    + replace ((B2R (d_x goal) - B2R (d_x state)) * cos th + (B2R (d_y goal) - B2R (d_y state)) * sin th) with (cos th * (B2R (d_x goal) - B2R (d_x state)) + sin th * (B2R (d_y goal) - B2R (d_y state))) by ring. exact Ex.
    + replace ((B2R (d_y goal) - B2R (d_y state)) * cos th - (B2R (d_x goal) - B2R (d_x state)) * sin th) with (- sin th * (B2R (d_x goal) - B2R (d_x state)) + cos th * (B2R (d_y goal) - B2R (d_y state))) by ring. exact Ey.
    + exists k. split; [exact K|]. rewrite X. fold pi_. replace (B2R w - IZR k * (2 * pi_) - (B2R (d_theta goal) - th - IZR k * (2 * pi_))) with (B2R w - (B2R (d_theta goal) - th)) by ring. lra.
Qed.

(** ** A table *)

(** Twenty metres in steps of a metre, headings in steps of 0.1. *)
Definition plain_table : d_table :=
  DTable (d_of 1 0) (d_of 7205759403792794 (-56)) 21 21 63 (d_offset 21 (d_of 1 0)) (d_offset 21 (d_of 1 0)).
Lemma plain_ang : B2R (dt_ang plain_table) = IZR 7205759403792794 * bpow radix2 (-56).
Proof. change (F2R (Float radix2 7205759403792794 (-56)) = IZR 7205759403792794 * bpow radix2 (-56)). reflexivity. Qed.
Lemma plain_sensible : sensible plain_table.
Proof.
  constructor.
  - exists (DPose (d_of (-10) 0) (d_of (-10) 0) (d_of 0 0)), (DPose (d_of 10 0) (d_of 10 0) (d_of 0 0)). unfold d_build. cbn [d_x d_y d_theta dt_res dt_ang plain_table].
    replace (d_nodes _ _) with (Ok 21%Z) by (vm_compute; reflexivity). cbn [bind]. replace (d_ceil _) with (Ok 63%Z) by (vm_compute; reflexivity). reflexivity.
  - destruct (int_double 1 ltac:(lia)) as [F E]. cbn [dt_res plain_table]. split; [exact F|]. rewrite E. split; change 1 with (bpow radix2 0); apply bpow_le; lia.
  - split; [reflexivity|]. rewrite plain_ang. apply Rmult_lt_0_compat; [apply IZR_lt; lia|apply bpow_gt_0].
  - reflexivity.
Qed.
Lemma plain_offset : B2R (dt_offx plain_table) = 10 /\ B2R (dt_offy plain_table) = 10 /\ B2R (dt_res plain_table) = 1 /\ 0.09 < B2R (dt_ang plain_table) < 0.11.
Proof.
  assert (E : B2R (d_offset 21 (d_of 1 0)) = 10).
  { replace (d_offset 21 (d_of 1 0)) with (d_of 10 0) by (apply B2SF_inj; vm_compute; reflexivity). exact (proj2 (int_double 10 ltac:(lia))). }
  repeat split; try exact E; [exact (proj2 (int_double 1 ltac:(lia)))| |]; rewrite plain_ang; change (bpow radix2 (-56)) with (/ 72057594037927936); lra.
Qed.

(** A state that has to turn right. *)
Lemma turn_right dsin dcos : good_rotations dsin dcos -> let p h := DPose (d_of 0 0) (d_of 0 0) (d_of h 0) in pose_within 0 (p 0%Z) /\ pose_within 0 (p 1%Z) /\ d_lookup 3 dsin dcos plain_table (p 0%Z) (p 1%Z) = UB.
Proof.
  intros G p. pose proof pi_bounds as Bp. destruct (int_double 0 ltac:(lia)) as [F0 E0]. destruct (int_double 1 ltac:(lia)) as [F1 E1].
  assert (W0 : pose_within 0 (p 0%Z)). { unfold pose_within, p. cbn [d_x d_y d_theta]. rewrite E0, Rabs_R0. fold pi_. repeat split; auto; lra. }
  assert (W1 : pose_within 0 (p 1%Z)). { unfold pose_within, p. cbn [d_x d_y d_theta]. rewrite E0, E1, Rabs_R0. fold pi_. repeat split; auto; lra. }
  split; [exact W0|]. split; [exact W1|].
  destruct (pose_difference 3 dsin dcos (p 0%Z) (p 1%Z) 0 ltac:(lia) G (bpow_ge_0 _ _) W0 W1) as (delta & E & Fx & Fy & Ft & Bt & (Sx & Sy & (k & K & Sk))).
  unfold p in Sx, Sy, Sk. cbn [d_x d_y d_theta] in Sx, Sy, Sk. rewrite E0, E1 in *. fold pi_ in *. destruct plain_offset as (Ox & Oy & Er & Ea).
  assert (T : bpow radix2 (-1070) <= / 1000 /\ bpow radix2 (-50) <= / 1000). { split; (apply Rle_trans with (bpow radix2 (-10)); [apply bpow_le; lia|]); change (bpow radix2 (-10)) with (/ 1024); lra. }
  replace (B2R (d_x delta) - _) with (B2R (d_x delta)) in Sx by ring. replace (B2R (d_y delta) - _) with (B2R (d_y delta)) in Sy by ring. rewrite Rmult_0_r, Rplus_0_l in Sx, Sy.
  assert (SL : forall m, 0 <= m <= 20 -> slack 1 m <= / 2). { intros m Hm. unfold slack. destruct small_units as (_ & U2 & _). assert (bpow radix2 (-50) * m <= / 1000 * 20) by (apply Rmult_le_compat; try lra; apply bpow_ge_0). lra. }
  unfold d_lookup. rewrite E. cbn [bind]. apply entry_out_of_bounds.
  - apply plain_sensible.
  - constructor; rewrite ?Ox, ?Oy, ?Er; (split; [assumption|]); [| |exact Bt]; (apply Rle_trans with 20; [lra|]); rewrite Rmult_1_r; apply Rle_trans with (bpow radix2 5); [change (bpow radix2 5) with 32; lra|apply bpow_le; lia|change (bpow radix2 5) with 32; lra|apply bpow_le; lia].
  - apply Rabs_between in Sk. assert (Hk : k = (-1)%Z \/ k = 0%Z \/ k = 1%Z) by lia. destruct Hk as [-> |[-> | ->]]; lra.
  - unfold past. rewrite Ox, Er. pose proof (Rabs_pos (B2R (d_x delta))). pose proof (SL (Rabs (B2R (d_x delta)) + 10) ltac:(lra)). lra.
  - unfold past. rewrite Oy, Er. pose proof (Rabs_pos (B2R (d_y delta))). pose proof (SL (Rabs (B2R (d_y delta)) + 10) ltac:(lra)). lra.
Qed.
