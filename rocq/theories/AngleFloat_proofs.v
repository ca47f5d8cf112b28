(** Headings in double precision. *)
From Coq Require Import Reals ZArith Lra Lia Machin.
From Flocq Require Import Core BinarySingleNaN Relative Plus_error Sterbenz.
From Verif Require Import Base CoordsFloat_model CoordsFloat_proofs StraightFloat_model StraightFloat_proofs AngleFloat_model.
Local Open Scope R_scope.
#[local] Existing Instance prec53.
#[local] Existing Instance emax1024.
#[local] Existing Instance vexp53.
#[local] Existing Instance vrndne.

Definition pi_ : R := B2R d_pi.
Lemma pi_value : pi_ = IZR 7074237752028440 / IZR 2251799813685248.
Proof. unfold pi_. change (F2R (Float radix2 7074237752028440 (-51)) = IZR 7074237752028440 / IZR 2251799813685248). unfold F2R. cbn [Fnum Fexp]. change (bpow radix2 (-51)) with (/ 2251799813685248). field. Qed.
Lemma two_pi_value : B2R d_two_pi = 2 * pi_.
Proof.
  rewrite pi_value. replace d_two_pi with (d_of 7074237752028440 (-50)) by (apply B2SF_inj; vm_compute; reflexivity).
  change (F2R (Float radix2 7074237752028440 (-50)) = 2 * (IZR 7074237752028440 / IZR 2251799813685248)). unfold F2R. cbn [Fnum Fexp]. change (bpow radix2 (-50)) with (/ 1125899906842624). field.
Qed.
Lemma two_pi_finite : is_finite d_two_pi = true.
Proof. vm_compute. reflexivity. Qed.
Lemma pi_finite : is_finite d_pi = true.
Proof. vm_compute. reflexivity. Qed.
Lemma pi_bounds : 3.1 < pi_ < 3.2.
Proof. rewrite pi_value. lra. Qed.
Lemma neg_pi : is_finite (Bopp d_pi) = true /\ B2R (Bopp d_pi) = - pi_.
Proof. split; [vm_compute; reflexivity|]. now rewrite B2R_Bopp. Qed.

Lemma ltb_real (x y : double) : is_finite x = true -> is_finite y = true -> Bltb x y = true <-> B2R x < B2R y.
Proof. intros Fx Fy. rewrite Bltb_correct by assumption. split; [intros H; destruct (Rlt_bool_spec (B2R x) (B2R y)); [assumption|discriminate]|apply Rlt_bool_true]. Qed.

(** One round of the first loop. *)
Lemma sub_round t : is_finite t = true -> pi_ < B2R t <= bpow radix2 53 ->
  is_finite (d_sub t d_two_pi) = true /\ - pi_ <= B2R (d_sub t d_two_pi) <= B2R t - 5 /\
  Rabs (B2R (d_sub t d_two_pi) - (B2R t - 2 * pi_)) <= u53 * Rabs (B2R t - 2 * pi_) /\
  (B2R t <= 4 * pi_ -> B2R (d_sub t d_two_pi) = B2R t - 2 * pi_).
Proof.
  intros Ft Ht. pose proof pi_bounds as Hp. pose proof two_pi_value as E2. pose proof u53_small as [U0 U1].
  assert (A : Rabs (B2R t - 2 * pi_) <= bpow radix2 53).
  { apply Rabs_le. assert (16 <= bpow radix2 53) by (change 16 with (bpow radix2 4); apply bpow_le; lia). lra. }
  destruct (sub_real t d_two_pi 53 Ft two_pi_finite) as [F E]; [lia|rewrite E2; exact A|]. rewrite E2 in E.
  assert (D : Rabs (B2R (d_sub t d_two_pi) - (B2R t - 2 * pi_)) <= u53 * Rabs (B2R t - 2 * pi_)).
  { pose proof (plus53 t (Bopp d_two_pi)) as P. rewrite B2R_Bopp, E2 in P. change (B2R t + - (2 * pi_)) with (B2R t - 2 * pi_) in P. now rewrite <- E in P. }
  split; [exact F|]. split; [split|split; [exact D|]].
  - rewrite E. apply round_ge_generic; auto with typeclass_instances; [|lra]. apply generic_format_opp. apply (generic_format_B2R 53 1024 d_pi).
  - assert (u53 * Rabs (B2R t - 2 * pi_) <= 1).
    { replace 1 with (u53 * bpow radix2 53) by (unfold u53; rewrite <- bpow_plus; reflexivity). apply Rmult_le_compat_l; lra. }
    apply Rabs_le_inv in D. lra.
  - intros H4. rewrite E. apply round_generic; auto with typeclass_instances. rewrite <- E2. rewrite fexp53. apply sterbenz.
    + apply FLT_exp_valid. reflexivity.
    + apply FLT_exp_monotone.
    + rewrite <- fexp53. apply generic_format_B2R.
    + rewrite <- fexp53. apply generic_format_B2R.
    + rewrite E2. lra.
Qed.

(** One round of the second loop. *)
Lemma add_round t : is_finite t = true -> - bpow radix2 53 <= B2R t < - pi_ ->
  is_finite (d_add t d_two_pi) = true /\ B2R t + 5 <= B2R (d_add t d_two_pi) <= pi_ /\
  Rabs (B2R (d_add t d_two_pi) - (B2R t + 2 * pi_)) <= u53 * Rabs (B2R t + 2 * pi_) /\
  (- (4 * pi_) <= B2R t -> B2R (d_add t d_two_pi) = B2R t + 2 * pi_).
Proof.
  intros Ft Ht. pose proof pi_bounds as Hp. pose proof two_pi_value as E2. pose proof u53_small as [U0 U1].
  assert (A : Rabs (B2R t + 2 * pi_) <= bpow radix2 53).
  { apply Rabs_le. assert (16 <= bpow radix2 53) by (change 16 with (bpow radix2 4); apply bpow_le; lia). lra. }
  destruct (add_real t d_two_pi 53 Ft two_pi_finite) as [F E]; [lia|rewrite E2; exact A|]. rewrite E2 in E.
  assert (D : Rabs (B2R (d_add t d_two_pi) - (B2R t + 2 * pi_)) <= u53 * Rabs (B2R t + 2 * pi_)).
  { pose proof (plus53 t d_two_pi) as P. rewrite E2 in P. now rewrite <- E in P. }
  split; [exact F|]. split; [split|split; [exact D|]].
  - assert (u53 * Rabs (B2R t + 2 * pi_) <= 1).
    { replace 1 with (u53 * bpow radix2 53) by (unfold u53; rewrite <- bpow_plus; reflexivity). apply Rmult_le_compat_l; lra. }
    apply Rabs_le_inv in D. lra.
  - rewrite E. apply round_le_generic; auto with typeclass_instances; [|lra]. apply (generic_format_B2R 53 1024 d_pi).
  - intros H4. rewrite E. apply round_generic; auto with typeclass_instances. rewrite <- E2.
    replace (B2R t + B2R d_two_pi) with (B2R d_two_pi - B2R (Bopp t)) by (rewrite B2R_Bopp; ring). rewrite fexp53. apply sterbenz.
    + apply FLT_exp_valid. reflexivity.
    + apply FLT_exp_monotone.
    + rewrite <- fexp53. apply generic_format_B2R.
    + rewrite <- fexp53. apply generic_format_B2R.
    + rewrite B2R_Bopp, E2. lra.
Qed.

Lemma above_ends B : pi_ <= B -> B <= bpow radix2 53 -> forall fuel t, is_finite t = true -> - pi_ <= B2R t <= B -> B2R t + 5 <= 5 * INR fuel ->
  exists t' k, d_above fuel t = Ok t' /\ is_finite t' = true /\ - pi_ <= B2R t' <= pi_ /\
    Rabs (B2R t' - (B2R t - IZR (Z.of_nat k) * (2 * pi_))) <= IZR (Z.of_nat k) * (u53 * B) /\
    (B2R t <= 3 * pi_ -> (k <= 1)%nat /\ B2R t' = B2R t - IZR (Z.of_nat k) * (2 * pi_)).
Proof.
  intros HB HB2. pose proof pi_bounds as Hp. pose proof u53_small as [U0 U1].
  induction fuel as [|fuel IH]; intros t Ft Ht Hf.
  { cbn [INR] in Hf. lra. }
  rewrite S_INR in Hf. cbn [d_above]. destruct (Bltb d_pi t) eqn:E.
  - apply ltb_real in E; auto using pi_finite. fold pi_ in E. destruct (sub_round t Ft) as (F & Hr & D & X); [lra|].
    destruct (IH (d_sub t d_two_pi) F) as (t' & k & R1 & R2 & R3 & R4 & R5); [lra|lra|].
    exists t', (S k). split; [exact R1|]. split; [exact R2|]. split; [exact R3|]. rewrite Nat2Z.inj_succ, succ_IZR. split.
    + assert (D' : Rabs (B2R (d_sub t d_two_pi) - (B2R t - 2 * pi_)) <= u53 * B).
      { eapply Rle_trans; [exact D|]. apply Rmult_le_compat_l; [lra|]. apply Rabs_le. lra. }
      replace (B2R t' - (B2R t - (IZR (Z.of_nat k) + 1) * (2 * pi_)))
        with ((B2R t' - (B2R (d_sub t d_two_pi) - IZR (Z.of_nat k) * (2 * pi_))) + (B2R (d_sub t d_two_pi) - (B2R t - 2 * pi_))) by ring.
      eapply Rle_trans; [apply Rabs_triang|]. lra.
    + intros H3. specialize (X ltac:(lra)). destruct fuel as [|fuel]; [cbn [d_above] in R1; discriminate|].
      assert (k = 0%nat /\ t' = d_sub t d_two_pi) as [-> ->].
      { cbn [d_above] in R1. destruct (Bltb d_pi (d_sub t d_two_pi)) eqn:E'.
        - apply ltb_real in E'; auto using pi_finite. fold pi_ in E'. lra.
        - injection R1 as <-. destruct (R5 ltac:(lra)) as [K Q]. destruct k as [|[|k]]; [auto| |lia]. change (IZR (Z.of_nat 1)) with 1 in Q. lra. }
      split; [lia|]. rewrite X. change (IZR (Z.of_nat 0)) with 0. ring.
  - assert (B2R t <= pi_). { apply Rnot_lt_le. intros L. apply (ltb_real d_pi t) in L; auto using pi_finite. congruence. }
    exists t, 0%nat. split; [reflexivity|]. split; [exact Ft|]. split; [lra|]. cbn [Z.of_nat]. split.
    + replace (B2R t - (B2R t - 0 * (2 * pi_))) with 0 by ring. rewrite Rabs_R0. lra.
    + intros _. split; [lia|ring].
Qed.

Lemma below_ends B : pi_ <= B -> B <= bpow radix2 53 -> forall fuel t, is_finite t = true -> - B <= B2R t <= pi_ -> - B2R t + 5 <= 5 * INR fuel ->
  exists t' k, d_below fuel t = Ok t' /\ is_finite t' = true /\ - pi_ <= B2R t' <= pi_ /\
    Rabs (B2R t' - (B2R t + IZR (Z.of_nat k) * (2 * pi_))) <= IZR (Z.of_nat k) * (u53 * B) /\
    (- (3 * pi_) <= B2R t -> (k <= 1)%nat /\ B2R t' = B2R t + IZR (Z.of_nat k) * (2 * pi_)).
Proof.
  intros HB HB2. pose proof pi_bounds as Hp. pose proof u53_small as [U0 U1]. destruct neg_pi as [Fn En].
  induction fuel as [|fuel IH]; intros t Ft Ht Hf.
  { cbn [INR] in Hf. lra. }
  rewrite S_INR in Hf. cbn [d_below]. destruct (Bltb t (Bopp d_pi)) eqn:E.
  - apply ltb_real in E; auto. rewrite En in E. destruct (add_round t Ft) as (F & Hr & D & X); [lra|].
    destruct (IH (d_add t d_two_pi) F) as (t' & k & R1 & R2 & R3 & R4 & R5); [lra|lra|].
    exists t', (S k). split; [exact R1|]. split; [exact R2|]. split; [exact R3|]. rewrite Nat2Z.inj_succ, succ_IZR. split.
    + assert (D' : Rabs (B2R (d_add t d_two_pi) - (B2R t + 2 * pi_)) <= u53 * B).
      { eapply Rle_trans; [exact D|]. apply Rmult_le_compat_l; [lra|]. apply Rabs_le. lra. }
      replace (B2R t' - (B2R t + (IZR (Z.of_nat k) + 1) * (2 * pi_)))
        with ((B2R t' - (B2R (d_add t d_two_pi) + IZR (Z.of_nat k) * (2 * pi_))) + (B2R (d_add t d_two_pi) - (B2R t + 2 * pi_))) by ring.
      eapply Rle_trans; [apply Rabs_triang|]. lra.
    + intros H3. specialize (X ltac:(lra)). destruct fuel as [|fuel]; [cbn [d_below] in R1; discriminate|].
      assert (k = 0%nat /\ t' = d_add t d_two_pi) as [-> ->].
      { cbn [d_below] in R1. destruct (Bltb (d_add t d_two_pi) (Bopp d_pi)) eqn:E'.
        - apply ltb_real in E'; auto. rewrite En in E'. lra.
        - injection R1 as <-. destruct (R5 ltac:(lra)) as [K Q]. destruct k as [|[|k]]; [auto| |lia]. change (IZR (Z.of_nat 1)) with 1 in Q. lra. }
      split; [lia|]. rewrite X. change (IZR (Z.of_nat 0)) with 0. ring.
  - assert (- pi_ <= B2R t). { apply Rnot_lt_le. intros L. rewrite <- En in L. apply (ltb_real t (Bopp d_pi)) in L; auto. congruence. }
    exists t, 0%nat. split; [reflexivity|]. split; [exact Ft|]. split; [lra|]. cbn [Z.of_nat]. split.
    + replace (B2R t - (B2R t + 0 * (2 * pi_))) with 0 by ring. rewrite Rabs_R0. lra.
    + intros _. split; [lia|ring].
Qed.

Lemma below_stays fuel t : is_finite t = true -> - pi_ <= B2R t -> d_below (S fuel) t = Ok t.
Proof.
  intros F H. destruct neg_pi as [Fn En]. cbn [d_below]. destruct (Bltb t (Bopp d_pi)) eqn:E; auto. apply ltb_real in E; auto. lra.
Qed.
Lemma above_stays fuel t : is_finite t = true -> B2R t <= pi_ -> d_above (S fuel) t = Ok t.
Proof. intros F H. cbn [d_above]. destruct (Bltb d_pi t) eqn:E; auto. apply ltb_real in E; auto using pi_finite. fold pi_ in E. lra. Qed.

Lemma wrap_ends fuel t B : is_finite t = true -> Rabs (B2R t) <= B -> pi_ <= B -> B <= bpow radix2 53 -> B + 5 <= 5 * INR fuel ->
  exists t' k, d_wrap fuel t = Ok t' /\ is_finite t' = true /\ - pi_ <= B2R t' <= pi_ /\
    Rabs (B2R t' - (B2R t - IZR k * (2 * pi_))) <= IZR (Z.abs k) * (u53 * B) /\
    (Rabs (B2R t) <= 3 * pi_ -> (Z.abs k <= 1)%Z /\ B2R t' = B2R t - IZR k * (2 * pi_)).
Proof.
  intros F Hb HB HB2 Hf. pose proof pi_bounds as Hp. unfold d_wrap. apply Rabs_le_inv in Hb.
  destruct fuel as [|fuel]; [cbn [INR] in Hf; lra|].
  destruct (Rle_or_lt (- pi_) (B2R t)) as [L|L].
  - destruct (above_ends B HB HB2 (S fuel) t F) as (t' & k & R1 & R2 & R3 & R4 & R5); [lra|lra|].
    exists t', (Z.of_nat k). rewrite R1. cbn [bind]. rewrite below_stays by (auto; lra). rewrite Z.abs_eq by lia.
    split; [auto|]. split; [auto|]. split; [auto|]. split; [auto|]. intros H. apply Rabs_le_inv in H. destruct (R5 ltac:(lra)). split; [lia|auto].
  - rewrite above_stays by (auto; lra). cbn [bind].
    destruct (below_ends B HB HB2 (S fuel) t F) as (t' & k & R1 & R2 & R3 & R4 & R5); [lra|lra|].
    exists t', (- Z.of_nat k)%Z. rewrite Z.abs_opp, Z.abs_eq by lia. rewrite opp_IZR.
    replace (B2R t - - IZR (Z.of_nat k) * (2 * pi_)) with (B2R t + IZR (Z.of_nat k) * (2 * pi_)) by ring.
    split; [auto|]. split; [auto|]. split; [auto|]. split; [auto|]. intros H. apply Rabs_le_inv in H. destruct (R5 ltac:(lra)). split; [lia|auto].
Qed.

(** Between the bounds nothing changes. *)
Lemma wrap_same fuel t : is_finite t = true -> - pi_ <= B2R t <= pi_ -> d_wrap (S fuel) t = Ok t.
Proof. intros F H. unfold d_wrap. rewrite above_stays by (auto; lra). cbn [bind]. apply below_stays; auto. lra. Qed.

(** Huge headings. *)
Lemma huge_stays : d_sub (d_of 1 60) d_two_pi = d_of 1 60.
Proof. apply B2SF_inj. vm_compute. reflexivity. Qed.
Lemma wrap_huge fuel : d_wrap fuel (d_of 1 60) = NoFuel.
Proof.
  unfold d_wrap. assert (H : d_above fuel (d_of 1 60) = NoFuel); [|now rewrite H].
  induction fuel as [|fuel IH]; [reflexivity|]. cbn [d_above]. replace (Bltb d_pi (d_of 1 60)) with true by (vm_compute; reflexivity). now rewrite huge_stays.
Qed.

(** ** Modulo *)
Lemma mantissa m e : SpecFloat.bounded 53 1024 m e = true -> (Zpos m < 2 ^ 53 /\ -1074 <= e <= 971)%Z.
Proof.
  unfold SpecFloat.bounded. intros H. apply Bool.andb_true_iff in H as [H1 H2]. unfold SpecFloat.canonical_mantissa, SpecFloat.fexp, SpecFloat.emin in H1.
  apply Zeq_bool_eq in H1. apply Zle_bool_imp_le in H2. rewrite Digits.Zpos_digits2_pos in H1.
  assert (D : (Digits.Zdigits radix2 (Zpos m) <= 53)%Z) by lia. split; [|lia].
  pose proof (Digits.Zdigits_correct radix2 (Zpos m)) as [_ Q]. change (Z.abs (Zpos m)) with (Zpos m) in Q.
  eapply Z.lt_le_trans; [exact Q|]. change (radix_val radix2) with 2%Z. apply Z.pow_le_mono_r; lia.
Qed.

Lemma F2R_shift z e e' : (e <= e')%Z -> F2R (Float radix2 z e') = F2R (Float radix2 (z * 2 ^ (e' - e)) e).
Proof.
  intros H. unfold F2R. cbn [Fnum Fexp]. rewrite mult_IZR. change (IZR (2 ^ (e' - e))) with (IZR (radix2 ^ (e' - e))). rewrite IZR_Zpower by lia.
  rewrite Rmult_assoc, <- bpow_plus. now replace (e' - e + e)%Z with e' by lia.
Qed.

Lemma fmod_real x m : is_finite x = true -> is_finite m = true -> 0 < B2R m ->
  is_finite (d_fmod x m) = true /\ Rabs (B2R (d_fmod x m)) < B2R m /\ (0 <= B2R x -> 0 <= B2R (d_fmod x m)) /\ (B2R x <= 0 -> B2R (d_fmod x m) <= 0) /\
  exists q, B2R (d_fmod x m) = B2R x - IZR q * B2R m.
Proof.
  intros Fx Fm Hm. destruct m as [s|s| |s2 m2 e2 H2]; try discriminate; [cbn in Hm; lra|].
  destruct s2; [exfalso; pose proof (F2R_lt_0 radix2 (Float radix2 (Zneg m2) e2) eq_refl) as N; cbn [B2R SpecFloat.cond_Zopp] in Hm; change (Z.opp (Zpos m2)) with (Zneg m2) in Hm; lra|].
  destruct x as [s|s| |s1 m1 e1 H1]; try discriminate.
  { cbn [d_fmod is_finite]. split; [reflexivity|]. change (B2R (B754_zero s)) with 0. rewrite Rabs_R0. repeat split; auto; try lra. exists 0%Z. ring. }
  cbn [d_fmod]. set (e := Z.min e1 e2). set (M1 := (Zpos m1 * 2 ^ (e1 - e))%Z). set (M2 := (Zpos m2 * 2 ^ (e2 - e))%Z). set (r := Z.rem M1 M2).
  destruct (mantissa m1 e1 H1) as [B1 L1]. destruct (mantissa m2 e2 H2) as [B2 L2].
  assert (P1 : (0 < 2 ^ (e1 - e))%Z) by (apply Z.pow_pos_nonneg; unfold e; lia). assert (P2 : (0 < 2 ^ (e2 - e))%Z) by (apply Z.pow_pos_nonneg; unfold e; lia).
  assert (Q1 : (0 < M1)%Z) by (unfold M1; lia). assert (Q2 : (0 < M2)%Z) by (unfold M2; lia).
  assert (R0 : (0 <= r < M2)%Z) by (apply Z.rem_bound_pos; lia).
  assert (R1 : (r <= M1)%Z). { pose proof (Z.quot_rem' M1 M2) as E. fold r in E. pose proof (Z.quot_pos M1 M2). nia. }
  assert (R2 : (r < 2 ^ 53)%Z).
  { destruct (Z.min_spec e1 e2) as [[Hlt He]|[Hle He]]; fold e in He.
    - unfold M1 in R1. rewrite He, Z.sub_diag in R1. lia.
    - unfold M2 in R0. rewrite He, Z.sub_diag in R0. lia. }
  assert (X : B2R (B754_finite s1 m1 e1 H1 : double) = F2R (Float radix2 (SpecFloat.cond_Zopp s1 M1) e)).
  { cbn [B2R]. rewrite (F2R_shift _ e e1) by (unfold e; lia). unfold M1. f_equal. f_equal. destruct s1; cbn [SpecFloat.cond_Zopp]; lia. }
  assert (M : B2R (B754_finite false m2 e2 H2 : double) = F2R (Float radix2 M2 e)).
  { cbn [B2R]. rewrite (F2R_shift _ e e2) by (unfold e; lia). reflexivity. }
  set (v := F2R (Float radix2 (SpecFloat.cond_Zopp s1 r) e)).
  assert (G : rnd53 v = v). { apply round_generic; auto with typeclass_instances. apply format53; [unfold e; lia|]. destruct s1; cbn [SpecFloat.cond_Zopp]; lia. }
  assert (V : Rabs v = F2R (Float radix2 r e)).
  { unfold v. rewrite <- F2R_Zabs. f_equal. f_equal. destruct s1; cbn [SpecFloat.cond_Zopp]; lia. }
  assert (V1 : Rabs v < F2R (Float radix2 M2 e)) by (rewrite V; apply F2R_lt; lia).
  pose proof (binary_normalize_correct 53 1024 prec53 emax1024 mode_NE (SpecFloat.cond_Zopp s1 r) e s1) as C. cbv zeta in C. fold v in C. rewrite G in C.
  rewrite Rlt_bool_true in C.
  2:{ eapply Rlt_trans; [exact V1|]. rewrite <- M. eapply Rle_lt_trans; [apply Rle_abs|apply abs_B2R_lt_emax]. }
  destruct C as (C1 & C2 & _).
  match goal with |- context [is_finite ?t = true] => change t with (@binary_normalize 53 1024 prec53 emax1024 mode_NE (SpecFloat.cond_Zopp s1 r) e s1) end.
  rewrite C1, C2, M, X. split; [reflexivity|]. split; [exact V1|].
  split; [|split].
  - intros H. destruct s1; cbn [SpecFloat.cond_Zopp] in *.
    + exfalso. assert (F2R (Float radix2 (- M1) e) < 0) by (apply F2R_lt_0; cbn [Fnum]; lia). lra.
    + unfold v. apply F2R_ge_0. cbn [Fnum]. lia.
  - intros H. destruct s1; cbn [SpecFloat.cond_Zopp] in *.
    + unfold v. apply F2R_le_0. cbn [Fnum]. lia.
    + exfalso. assert (0 < F2R (Float radix2 M1 e)) by (apply F2R_gt_0; cbn [Fnum]; lia). lra.
  - exists (SpecFloat.cond_Zopp s1 (Z.quot M1 M2)). pose proof (Z.quot_rem' M1 M2) as E. fold r in E. unfold v, F2R. cbn [Fnum Fexp].
    assert (E' : SpecFloat.cond_Zopp s1 M1 = (SpecFloat.cond_Zopp s1 (Z.quot M1 M2) * M2 + SpecFloat.cond_Zopp s1 r)%Z) by (destruct s1; cbn [SpecFloat.cond_Zopp]; lia).
    rewrite E', plus_IZR, mult_IZR. ring.
Qed.

Lemma modulo_real x m : is_finite x = true -> is_finite m = true -> 0 < B2R m ->
  is_finite (d_modulo x m) = true /\ 0 <= B2R (d_modulo x m) <= B2R m /\
  exists q, Rabs (B2R (d_modulo x m) - (B2R x - IZR q * B2R m)) <= u53 * B2R m /\
    (0 <= B2R x -> B2R (d_modulo x m) = B2R x - IZR q * B2R m /\ B2R (d_modulo x m) < B2R m).
Proof.
  intros Fx Fm Hm. destruct (fmod_real x m Fx Fm Hm) as (F & Ha & Hp & Hn & q & E). pose proof u53_small as [U0 _]. unfold d_modulo.
  set (r := d_fmod x m) in *. apply Rabs_def2 in Ha. destruct (Bltb r (B754_zero false)) eqn:L.
  - apply ltb_real in L; auto. change (B2R (B754_zero false)) with 0 in L.
    assert (B : 0 <= rnd53 (B2R r + B2R m) <= B2R m).
    { split; [apply round_ge_generic|apply round_le_generic]; auto with typeclass_instances; try apply generic_format_0; try apply generic_format_B2R; lra. }
    destruct (dadd_fits r m F Fm) as [F' E'].
    { rewrite Rabs_pos_eq by lra. eapply Rle_lt_trans; [apply B|]. eapply Rle_lt_trans; [apply Rle_abs|apply abs_B2R_lt_emax]. }
    rewrite E'. split; [exact F'|]. split; [exact B|]. exists (q - 1)%Z. rewrite minus_IZR. split.
    + replace (B2R x - (IZR q - 1) * B2R m) with (B2R r + B2R m) by (rewrite E; ring). eapply Rle_trans; [apply plus53|].
      rewrite Rabs_pos_eq by lra. apply Rmult_le_compat_l; lra.
    + intros H. specialize (Hp H). lra.
  - assert (0 <= B2R r). { apply Rnot_lt_le. intros N. apply (ltb_real r (B754_zero false)) in N; auto. congruence. }
    split; [exact F|]. split; [lra|]. exists q. rewrite E. split.
    + replace (B2R x - IZR q * B2R m - (B2R x - IZR q * B2R m)) with 0 by ring. rewrite Rabs_R0. apply Rmult_le_pos; lra.
    + intros _. split; [reflexivity|]. rewrite <- E. lra.
Qed.

Lemma wrap_angle_real t : is_finite t = true -> Rabs (B2R t) <= bpow radix2 1000 ->
  is_finite (d_wrap_angle t) = true /\ - pi_ <= B2R (d_wrap_angle t) <= pi_ /\
  exists q, Rabs (B2R (d_wrap_angle t) - (B2R t - IZR q * (2 * pi_))) <= u53 * (Rabs (B2R t) + 4 * pi_).
Proof.
  intros F Ht. pose proof pi_bounds as Hp. pose proof u53_small as [U0 U1]. unfold d_wrap_angle.
  assert (B16 : 16 <= bpow radix2 1000) by (change 16 with (bpow radix2 4); apply bpow_le; lia).
  assert (A : Rabs (B2R t + B2R d_pi) <= bpow radix2 1001).
  { eapply Rle_trans; [apply Rabs_triang|]. fold pi_. rewrite (Rabs_pos_eq pi_) by lra.
    replace (bpow radix2 1001) with (2 * bpow radix2 1000) by (change 1001%Z with (1 + 1000)%Z; rewrite bpow_plus; reflexivity). lra. }
  destruct (add_real t d_pi 1001 F pi_finite) as [F1 E1]; [lia|exact A|]. pose proof (plus53 t d_pi) as D1. rewrite <- E1 in D1. fold pi_ in D1.
  set (y := d_add t d_pi) in *.
  destruct (modulo_real y d_two_pi F1 two_pi_finite) as (F2 & H2 & q & D2 & _); [rewrite two_pi_value; lra|]. rewrite two_pi_value in H2, D2.
  set (z := d_modulo y d_two_pi) in *.
  destruct (sub_real z d_pi 4 F2 pi_finite) as [F3 E3]; [lia|apply Rabs_le; fold pi_; change (bpow radix2 4) with 16; lra|].
  pose proof (plus53 z (Bopp d_pi)) as D3. destruct neg_pi as [Fn En]. rewrite En in D3. unfold pi_ in D3 at 1 2. change (B2R z + - B2R d_pi) with (B2R z - B2R d_pi) in D3.
  rewrite <- E3 in D3. fold pi_ in D3. replace (B2R z + - pi_) with (B2R z - pi_) in D3 by ring.
  assert (B : - pi_ <= B2R (d_sub z d_pi) <= pi_).
  { rewrite E3. fold pi_. split; [apply round_ge_generic|apply round_le_generic]; auto with typeclass_instances; try lra; try apply generic_format_opp; apply (generic_format_B2R 53 1024 d_pi). }
  split; [exact F3|]. split; [exact B|]. exists q.
  assert (W : Rabs (B2R z - pi_) <= pi_) by (apply Rabs_le; lra).
  assert (W1 : Rabs (B2R t + pi_) <= Rabs (B2R t) + pi_) by (eapply Rle_trans; [apply Rabs_triang|]; rewrite (Rabs_pos_eq pi_); lra).
  replace (B2R (d_sub z d_pi) - (B2R t - IZR q * (2 * pi_))) with
    ((B2R (d_sub z d_pi) - (B2R z - pi_)) + (B2R z - (B2R y - IZR q * (2 * pi_))) + (B2R y - (B2R t + pi_))) by ring.
  assert (K1 : u53 * Rabs (B2R z - pi_) <= u53 * pi_) by (apply Rmult_le_compat_l; lra).
  assert (K2 : u53 * Rabs (B2R t + pi_) <= u53 * (Rabs (B2R t) + pi_)) by (apply Rmult_le_compat_l; lra).
  eapply Rle_trans; [apply Rabs_triang|]. eapply Rle_trans; [apply Rplus_le_compat_r, Rabs_triang|]. lra.
Qed.

(** ** The number pi *)
Lemma pi_digits : 3.14159265358979323 < PI < 3.14159265358979324.
Proof.
  pose proof (PI_2_3_7_ineq 9) as [A B]. unfold tg_alt, PI_2_3_7_tg, Ratan_seq in *. cbn [sum_f_R0 Nat.mul Nat.add] in *. cbn [INR] in *. simpl pow in *. lra.
Qed.
Lemma pi_close : pi_ < PI < pi_ + bpow radix2 (-52).
Proof.
  rewrite pi_value. pose proof pi_digits. change (bpow radix2 (-52)) with (/ IZR 4503599627370496). lra.
Qed.

(** The sum of two headings that are in range is wrapped to the direction of the exact sum. *)
Lemma wrap_sum_real (a b : double) fuel : is_finite a = true -> is_finite b = true -> - pi_ <= B2R a <= pi_ -> - pi_ <= B2R b <= pi_ -> (3 <= fuel)%nat ->
  exists t k, d_wrap fuel (d_add a b) = Ok t /\ is_finite t = true /\ - pi_ <= B2R t <= pi_ /\ (Z.abs k <= 1)%Z /\
    Rabs (B2R t - (B2R a + B2R b - IZR k * (2 * PI))) <= bpow radix2 (-49).
Proof.
  intros Fa Fb Ha Hb Hf. pose proof pi_bounds as Hp. pose proof pi_close as Hc. pose proof u53_small as [U0 U1].
  destruct (add_real a b 3 Fa Fb) as [F E]; [lia|apply Rabs_le; change (bpow radix2 3) with 8; lra|].
  pose proof (plus53 a b) as D. rewrite <- E in D. set (y := d_add a b) in *.
  assert (S : Rabs (B2R a + B2R b) <= 2 * pi_) by (apply Rabs_le; lra).
  assert (Y : Rabs (B2R y) <= 2 * pi_).
  { rewrite E. rewrite <- two_pi_value. apply abs_round_le_generic; auto with typeclass_instances; [apply generic_format_B2R|]. rewrite two_pi_value. exact S. }
  destruct (wrap_ends fuel y (2 * pi_) F Y) as (t & k & R1 & R2 & R3 & _ & R5).
  { lra. }
  { apply Rle_trans with 16; [lra|]. change 16 with (bpow radix2 4). apply bpow_le. lia. }
  { apply le_INR in Hf. cbn [INR] in Hf. lra. }
  destruct (R5 ltac:(lra)) as [K X]. exists t, k. repeat (split; [assumption|]).
  assert (Hk : Rabs (IZR k) <= 1) by (rewrite <- abs_IZR; apply IZR_le; lia).
  replace (B2R t - (B2R a + B2R b - IZR k * (2 * PI))) with ((B2R y - (B2R a + B2R b)) + IZR k * (2 * (PI - pi_))) by (rewrite X; ring).
  eapply Rle_trans; [apply Rabs_triang|].
  assert (W1 : u53 * Rabs (B2R a + B2R b) <= u53 * 8) by (apply Rmult_le_compat_l; lra).
  assert (W2 : Rabs (IZR k * (2 * (PI - pi_))) <= 1 * (2 * bpow radix2 (-52))).
  { rewrite Rabs_mult. apply Rmult_le_compat; auto using Rabs_pos. rewrite Rabs_pos_eq; lra. }
  replace (bpow radix2 (-52)) with (2 * u53) in W2 by (unfold u53; change (-52)%Z with (1 + -53)%Z; rewrite bpow_plus; reflexivity).
  change (-49)%Z with (4 + -53)%Z. rewrite bpow_plus. fold u53. change (bpow radix2 4) with 16. lra.
Qed.
