(** Samples in double precision. *)
From Coq Require Import Reals ZArith Lra Lia.
From Flocq Require Import Core BinarySingleNaN Relative Plus_error.
From Verif Require Import Base CoordsFloat_model CoordsFloat_proofs StraightFloat_model StraightFloat_proofs AngleFloat_proofs SampleFloat_model.
Local Open Scope R_scope.
#[local] Existing Instance prec53.
#[local] Existing Instance emax1024.
#[local] Existing Instance vexp53.
#[local] Existing Instance vrndne.

Section Sample.
  Context (lb ub u : double) (M : R) (Fl : is_finite lb = true) (Fu : is_finite ub = true) (Fd : is_finite u = true).
  Context (Hb : B2R lb <= B2R ub) (Hd : 0 <= B2R u <= 1) (Ml : Rabs (B2R lb) <= M) (Mu : Rabs (B2R ub) <= M) (HM : M <= bpow radix2 1020).

  Lemma sample_parts : exists r p : double, is_finite r = true /\ B2R r = rnd53 (B2R ub - B2R lb) /\ 0 <= B2R r <= bpow radix2 1021 /\
    is_finite p = true /\ 0 <= B2R p <= B2R r /\ is_finite (d_sample lb ub u) = true /\ B2R (d_sample lb ub u) = rnd53 (B2R lb + B2R p).
  Proof.
    apply Rabs_le_inv in Ml, Mu.
    assert (B1 : bpow radix2 1021 = 2 * bpow radix2 1020) by (change 1021%Z with (1 + 1020)%Z; rewrite bpow_plus; reflexivity).
    assert (B2 : bpow radix2 1022 = 2 * bpow radix2 1021) by (change 1022%Z with (1 + 1021)%Z; rewrite bpow_plus; reflexivity).
    destruct (sub_real ub lb 1021 Fu Fl) as [F1 E1]; [lia|apply Rabs_le; lra|].
    assert (R1 : 0 <= B2R (d_sub ub lb) <= bpow radix2 1021).
    { rewrite E1. split; [apply round_ge_generic|apply round_le_generic]; auto with typeclass_instances; try apply generic_format_0; try (apply format53_pow; lia); lra. }
    destruct (dmul_real (d_sub ub lb) u 1021 F1 Fd) as [F2 E2]; [lia|rewrite Rabs_pos_eq; nra|].
    assert (R2 : 0 <= B2R (d_mul (d_sub ub lb) u) <= B2R (d_sub ub lb)).
    { rewrite E2. split; [apply round_ge_generic|apply round_le_generic]; auto with typeclass_instances; try apply generic_format_0; try apply generic_format_B2R; nra. }
    destruct (add_real lb (d_mul (d_sub ub lb) u) 1022 Fl F2) as [F3 E3]; [lia|apply Rabs_le; lra|].
    exists (d_sub ub lb), (d_mul (d_sub ub lb) u). repeat (split; [assumption|]). exact E3.
  Qed.

  Lemma sample_bounds : is_finite (d_sample lb ub u) = true /\ B2R lb <= B2R (d_sample lb ub u) <= B2R ub + bpow radix2 (-51) * M /\
    (rnd53 (B2R ub - B2R lb) = B2R ub - B2R lb -> B2R (d_sample lb ub u) <= B2R ub).
  Proof.
    destruct sample_parts as (r & p & Fr & Er & Hr & Fp & Hp & F & E). pose proof u53_small as [U0 U1].
    assert (M0 : 0 <= M) by (eapply Rle_trans; [apply Rabs_pos|exact Ml]).
    pose proof (plus53 ub (Bopp lb)) as D1. rewrite B2R_Bopp in D1. change (B2R ub + - B2R lb) with (B2R ub - B2R lb) in D1. rewrite <- Er in D1.
    pose proof (plus53 lb p) as D2. rewrite <- E in D2.
    split; [exact F|]. split; [split|].
    - rewrite E. apply round_ge_generic; auto with typeclass_instances; [apply generic_format_B2R|lra].
    - pose proof Ml as Ml'. pose proof Mu as Mu'. apply Rabs_le_inv in Ml', Mu'. rewrite (Rabs_pos_eq (B2R ub - B2R lb)) in D1 by lra.
      apply Rabs_le_inv in D1.
      assert (W1 : u53 * (B2R ub - B2R lb) <= u53 * (2 * M)) by (apply Rmult_le_compat_l; lra).
      assert (W2 : - M <= B2R lb + B2R p <= M + 2 * (u53 * M)) by lra.
      assert (W3 : Rabs (B2R lb + B2R p) <= M + 2 * (u53 * M)) by (apply Rabs_le; nra).
      assert (W4 : u53 * Rabs (B2R lb + B2R p) <= u53 * (M + 2 * (u53 * M))) by (apply Rmult_le_compat_l; lra).
      apply Rabs_le_inv in D2. change (-51)%Z with (2 + -53)%Z. rewrite bpow_plus. fold u53. change (bpow radix2 2) with 4.
      assert (u53 * (u53 * M) <= / 16 * (u53 * M)) by (apply Rmult_le_compat_r; [apply Rmult_le_pos; lra|lra]). nra.
    - intros X. rewrite X in Er. rewrite E. apply round_le_generic; auto with typeclass_instances; [apply generic_format_B2R|lra].
  Qed.
End Sample.

Lemma not_ltb (x y : double) : is_finite x = true -> is_finite y = true -> Bltb x y = false -> B2R y <= B2R x.
Proof. intros Fx Fy H. apply Rnot_lt_le. intros L. apply (ltb_real x y) in L; auto. congruence. Qed.

Lemma validate_real (lb ub x : double) : is_finite lb = true -> is_finite ub = true -> is_finite x = true ->
  d_validate lb ub x = true <-> B2R lb <= B2R x <= B2R ub.
Proof.
  intros Fl Fu Fx. unfold d_validate. destruct (Bltb x lb) eqn:L; cbn [orb negb].
  - apply ltb_real in L; auto. split; [easy|lra].
  - apply not_ltb in L; auto. destruct (Bltb ub x) eqn:G; cbn [negb].
    + apply ltb_real in G; auto. split; [easy|lra].
    + apply not_ltb in G; auto. split; [lra|auto].
Qed.

Lemma inf_out (lb ub : double) s : is_finite lb = true -> is_finite ub = true -> d_validate lb ub (B754_infinity s) = false.
Proof. destruct lb, ub; try discriminate; intros _ _; destruct s; destruct s0, s1; reflexivity. Qed.

Lemma clamp_valid (x lb ub : double) : is_finite lb = true -> is_finite ub = true -> B2R lb <= B2R ub -> is_nan x = false ->
  exists y, d_clamp x lb ub = Ok y /\ is_finite y = true /\ d_validate lb ub y = true /\ (d_validate lb ub x = true -> y = x).
Proof.
  intros Fl Fu H Nx. unfold d_clamp.
  assert (E : Bltb ub lb = false). { rewrite Bltb_correct by auto. now apply Rlt_bool_false. }
  rewrite E. destruct (Bltb x lb) eqn:L.
  - exists lb. split; auto. split; auto. split; [apply validate_real; auto; lra|]. unfold d_validate. rewrite L. easy.
  - destruct (Bltb ub x) eqn:G.
    + exists ub. split; auto. split; auto. split; [apply validate_real; auto; lra|]. unfold d_validate. rewrite L, G. easy.
    + exists x. split; auto. assert (V : d_validate lb ub x = true) by (unfold d_validate; now rewrite L, G). split; auto.
      destruct x as [s|s| |s m e Hx]; auto; try discriminate. now rewrite inf_out in V.
Qed.
