(** Proofs about the rule for trying Reeds-Shepp connections. *)
From Coq Require Import Reals ZArith Lra Lia.
From Flocq Require Import Core BinarySingleNaN.
From Verif Require Import Base CoordsFloat_model StraightFloat_model CoordsFloat_proofs StraightFloat_proofs ValidatorFloat_proofs CellFloat_proofs SteerInputFloat_proofs ConnectFloat_model ConnectFloat_spec.
Local Open Scope R_scope.

Lemma ten_real : is_finite d_ten = true /\ B2R d_ten = 10.
Proof. exact (int_double 10 ltac:(lia)). Qed.
Lemma ten_sign : Bsign d_ten = false.
Proof. apply positive_sign. rewrite (proj2 ten_real). lra. Qed.

(** The square of a number of at least ten: a number, or infinity. *)
Lemma square_cases (h : double) : is_finite h = true -> 10 <= B2R h ->
  (is_finite (d_mul h h) = true /\ B2R (d_mul h h) = rnd53 (B2R h * B2R h) /\ 64 <= B2R (d_mul h h) /\ rnd53 (B2R h * B2R h) < bpow radix2 1024) \/ (d_mul h h = B754_infinity false /\ bpow radix2 1024 <= rnd53 (B2R h * B2R h)).
Proof.
  intros F H. pose proof (Bmult_correct 53 1024 prec53 emax1024 mode_NE h h) as C. change (@Bmult 53 1024 prec53 emax1024 mode_NE h h) with (d_mul h h) in C. change (round radix2 (SpecFloat.fexp 53 1024) (round_mode mode_NE) (B2R h * B2R h)) with (rnd53 (B2R h * B2R h)) in C.
  assert (L : 64 <= rnd53 (B2R h * B2R h)). { change 64 with (bpow radix2 6). apply round_ge_generic; auto with typeclass_instances; [apply format53_pow; lia|]. change (bpow radix2 6) with 64. nra. }
  rewrite (Rabs_pos_eq (rnd53 _)) in C by lra. destruct (Rlt_bool_spec (rnd53 (B2R h * B2R h)) (bpow radix2 1024)) as [Y|Y].
  - left. destruct C as (E & G & _). rewrite F in G. split; [exact G|]. split; [exact E|]. rewrite E. split; assumption.
  - right. split; [|exact Y]. apply B2SF_inj. rewrite C. rewrite (positive_sign h) by lra. reflexivity.
Qed.
Lemma div_infinity : d_div d_ten (B754_infinity false) = B754_zero false.
Proof. apply B2SF_inj. vm_compute. reflexivity. Qed.

(** The quotient of a finite square. *)
Lemma quotient_ten p : is_finite p = true -> 64 <= B2R p -> is_finite (d_div d_ten p) = true /\ B2R (d_div d_ten p) = rnd53 (10 / B2R p).
Proof.
  intros F L. destruct ten_real as [FT ET]. destruct (div_real d_ten p 0 FT ltac:(lra) ltac:(lia)) as [Fq Eq].
  - rewrite ET. change (bpow radix2 0) with 1. assert (0 < / B2R p) by (apply Rinv_0_lt_compat; lra). rewrite Rabs_pos_eq by (unfold Rdiv; apply Rmult_le_pos; lra). apply Rmult_le_reg_r with (B2R p); [lra|]. unfold Rdiv. rewrite Rmult_assoc, Rinv_l by lra. lra.
  - rewrite ET in Eq. split; assumption.
Qed.

Section Draw.
Context {G : Type}.
Variable draw : G -> double * G.

Lemma connects_near h g : is_finite h = true -> B2R h < 10 -> d_connects draw h g = (true, g).
Proof using. intros F H. unfold d_connects. destruct ten_real as [FT ET]. rewrite (proj2 (dltb h d_ten F FT)); [reflexivity|]. rewrite ET. exact H. Qed.

Lemma connects_far h g : is_finite h = true -> 10 <= B2R h -> d_connects draw h g = (Bltb (fst (draw g)) (d_div d_ten (d_mul h h)), snd (draw g)).
Proof using.
  intros F H. unfold d_connects. destruct ten_real as [FT ET]. destruct (Bltb h d_ten) eqn:E.
  - exfalso. apply dltb in E; auto. rewrite ET in E. lra.
  - destruct (draw g); reflexivity.
Qed.

Lemma connects_unknown h g : h = B754_nan \/ h = B754_infinity false -> is_finite (fst (draw g)) = true -> 0 <= B2R (fst (draw g)) -> d_connects draw h g = (false, snd (draw g)).
Proof using.
  intros [-> | ->] F P; unfold d_connects.
  - replace (Bltb B754_nan d_ten) with false by reflexivity. destruct (draw g) as [u g']. cbn [fst snd] in *. f_equal. replace (d_div d_ten (d_mul B754_nan B754_nan)) with (B754_nan : double) by (apply B2SF_inj; vm_compute; reflexivity). destruct u; reflexivity.
  - replace (Bltb (B754_infinity false) d_ten) with false by (vm_compute; reflexivity). destruct (draw g) as [u g']. cbn [fst snd] in *. f_equal. replace (d_mul (B754_infinity false) (B754_infinity false)) with (B754_infinity false : double) by reflexivity. rewrite div_infinity.
    apply Bool.not_true_is_false. intros Y. apply dltb in Y; auto. cbn [B2R] in Y. lra.
Qed.

Lemma connects_mono h h' g g1 : is_finite h = true -> is_finite h' = true -> B2R h <= B2R h' -> is_finite (fst (draw g)) = true -> 0 <= B2R (fst (draw g)) ->
  d_connects draw h' g = (true, g1) -> fst (d_connects draw h g) = true.
Proof using.
  intros F F' L Fu Pu H. destruct (Rlt_le_dec (B2R h) 10) as [N|N]; [rewrite connects_near by assumption; reflexivity|]. rewrite connects_far in H |- * by (auto; lra). cbn [fst]. apply (f_equal fst) in H. cbn [fst] in H.
  destruct (square_cases h' F' ltac:(lra)) as [(Fp' & Ep' & Lp' & Bp')|[E' _]].
  - assert (M : rnd53 (B2R h * B2R h) <= rnd53 (B2R h' * B2R h')) by (apply round_le; auto with typeclass_instances; nra).
    destruct (square_cases h F N) as [(Fp & Ep & Lp & _)|[_ Y]]; [|lra]. destruct (quotient_ten _ Fp' Lp') as [Fq' Eq']. destruct (quotient_ten _ Fp Lp) as [Fq Eq]. apply dltb in H; auto. apply dltb; auto.
    apply Rlt_le_trans with (1 := H). rewrite Eq, Eq'. apply round_le; auto with typeclass_instances. unfold Rdiv. apply Rmult_le_compat_l; [lra|]. apply Rinv_le_contravar; lra.
  - exfalso. rewrite E', div_infinity in H. apply dltb in H; auto. cbn [B2R] in H. lra.
Qed.

Lemma connects_chance h g : is_finite h = true -> 10 <= B2R h <= bpow radix2 400 -> is_finite (fst (draw g)) = true ->
  exists q, Rabs (q - 10 / (B2R h * B2R h)) <= bpow radix2 (-50) * (10 / (B2R h * B2R h)) /\ (fst (d_connects draw h g) = true <-> B2R (fst (draw g)) < q).
Proof using.
  intros F [L U] Fu. rewrite connects_far by assumption. cbn [fst]. set (x := B2R h) in *. assert (U2 : x * x <= bpow radix2 800) by (change 800%Z with (400 + 400)%Z; rewrite bpow_plus; apply Rmult_le_compat; lra).
  destruct (square_cases h F L) as [(Fp & Ep & Lp & _)|[_ Y]].
  - fold x in Ep. set (p := d_mul h h) in *. destruct (quotient_ten p Fp Lp) as [Fq Eq]. exists (B2R (d_div d_ten p)). split; [|apply dltb; assumption].
    assert (T : bpow radix2 (-900) <= 1) by (change 1 with (bpow radix2 0); apply bpow_le; lia). pose proof (relative53 (x * x) ltac:(nra)) as N1. rewrite <- Ep in N1. change (bpow radix2 (-52)) with (/ 4503599627370496) in N1. apply Rabs_le_inv in N1.
    set (z := 10 / B2R p) in *. set (y := 10 / (x * x)). assert (Ez : z * B2R p = 10) by (unfold z; field; lra). assert (Ey : y * (x * x) = 10) by (unfold y; field; nra). assert (Pz : 0 < z) by (unfold z; apply Rdiv_lt_0_compat; lra). assert (Py : 0 < y) by (unfold y; apply Rdiv_lt_0_compat; nra).
    assert (S : 0 < x * x) by nra. set (s := x * x) in *. assert (Nz : Rabs (z - y) <= 2 * / 4503599627370496 * y) by (apply Rabs_le; split; nra). apply Rabs_le_inv in Nz.
    assert (Ly : bpow radix2 (-800) <= y). { apply Rmult_le_reg_r with s; [exact S|]. rewrite Ey. apply Rle_trans with (bpow radix2 (-800) * bpow radix2 800); [apply Rmult_le_compat_l; [apply bpow_ge_0|exact U2]|]. rewrite <- bpow_plus. change (bpow radix2 (-800 + 800)) with 1. lra. }
    assert (Lz : bpow radix2 (-900) <= z). { apply Rle_trans with (/ 2 * bpow radix2 (-800)); [change (/ 2) with (bpow radix2 (-1)); rewrite <- bpow_plus; apply bpow_le; lia|pose proof (bpow_gt_0 radix2 (-800)); lra]. }
    pose proof (relative53 z Lz) as N2. rewrite <- Eq in N2. change (bpow radix2 (-52)) with (/ 4503599627370496) in N2. apply Rabs_le_inv in N2. change (bpow radix2 (-50)) with (/ 1125899906842624). apply Rabs_le. split; lra.
  - exfalso. fold x in Y. assert (rnd53 (x * x) <= bpow radix2 800) by (apply round_le_generic; auto with typeclass_instances; apply format53_pow; lia). assert (bpow radix2 800 < bpow radix2 1024) by (apply bpow_lt; lia). lra.
Qed.
End Draw.
