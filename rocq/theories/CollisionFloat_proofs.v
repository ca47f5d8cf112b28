(** Proofs about the collision term of the smoother in floating point. *)
From Coq Require Import Reals ZArith Lra Lia.
From Flocq Require Import Core BinarySingleNaN.
From Verif Require Import Base CoordsFloat_model StraightFloat_model ValidatorFloat_model CoordsFloat_proofs StraightFloat_proofs ValidatorFloat_proofs PathCostFloat_proofs RsCostFloat_proofs
  SteerInputFloat_model SteerInputFloat_proofs CollisionFloat_model CollisionFloat_spec.
Local Open Scope R_scope.

#[local] Existing Instance vexp24.
#[local] Existing Instance vexp53.
Notation v := (/ 9007199254740992).
Lemma v_val : bpow radix2 (-53) = v.
Proof. reflexivity. Qed.

Lemma sq53 (x : double) : is_finite x = true -> Rabs (B2R x) <= bpow radix2 60 -> let a := B2R x in
  is_finite (d_mul x x) = true /\ 0 <= B2R (d_mul x x) <= bpow radix2 120 /\ Rabs (B2R (d_mul x x) - a * a) <= v * (a * a) + bpow radix2 (-1075).
Proof.
  intros F H a. assert (P : 0 <= a * a) by nra. assert (B : a * a <= bpow radix2 120). { change 120%Z with (60 + 60)%Z. rewrite bpow_plus. replace (a * a) with (Rabs a * Rabs a) by (rewrite <- Rabs_mult; apply Rabs_pos_eq; exact P). apply Rmult_le_compat; try apply Rabs_pos; exact H. }
  destruct (dmul_real x x 120 F F ltac:(lia)) as [Fm E]; [rewrite Rabs_pos_eq; assumption|]. fold a in E. split; [exact Fm|]. rewrite E. split; [apply r53_between; [apply generic_format_0|apply format53_pow; lia|split; assumption]|].
  pose proof (CoordsFloat_proofs.err53 (a * a)) as R1. rewrite (Rabs_pos_eq (a * a)), v_val in R1 by exact P. exact R1.
Qed.

(** The distance. *)
Lemma dist_near x y : usual x y -> let n := sqrt (B2R x * B2R x + B2R y * B2R y) in let o := narrow (d_norm x y) in
  Rabs (B2R x) <= n /\ Rabs (B2R y) <= n /\ n <= bpow radix2 61 /\ is_finite o = true /\ Rabs (B2R o - n) <= / 4194304 * n.
Proof.
  intros (Fx & Fy & Bx & By & L) n o. set (a := B2R x) in *. set (b := B2R y) in *. set (q := a * a + b * b) in *. assert (Pa : 0 <= a * a) by nra. assert (Pb : 0 <= b * b) by nra. assert (Pq : 0 <= q) by (unfold q; lra).
  assert (Pn : 0 <= n) by apply sqrt_pos. assert (Eq : n * n = q) by (apply sqrt_sqrt; exact Pq). fold q in L. fold n in L. pose proof (bpow_gt_0 radix2 (-60)) as P60.
  assert (La : Rabs a <= n). { apply Rabs_le. split; unfold q in Eq; nra. } assert (Lb : Rabs b <= n). { apply Rabs_le. split; unfold q in Eq; nra. }
  destruct (sq53 x Fx Bx) as (FA & BA & NA). destruct (sq53 y Fy By) as (FB & BB & NB). fold a in NA. fold b in NB. set (A := d_mul x x) in *. set (B := d_mul y y) in *.
  assert (P121 : 2 * bpow radix2 120 = bpow radix2 121) by (change 121%Z with (1 + 120)%Z; rewrite bpow_plus; reflexivity). assert (P122 : 2 * bpow radix2 121 = bpow radix2 122) by (change 122%Z with (1 + 121)%Z; rewrite bpow_plus; reflexivity).
  assert (Lq : bpow radix2 (-120) <= q). { rewrite <- Eq. change (-120)%Z with (-60 + -60)%Z. rewrite bpow_plus. apply Rmult_le_compat; lra. }
  assert (T : bpow radix2 (-1075) <= / 4 * v * q). { apply Rle_trans with (bpow radix2 (-55) * bpow radix2 (-120)); [rewrite <- bpow_plus; apply bpow_le; lia|]. change (bpow radix2 (-55)) with (/ 36028797018963968). assert (/ 36028797018963968 = / 4 * v) by lra. pose proof (bpow_gt_0 radix2 (-120)). nra. }
  apply Rabs_le_inv in NA. apply Rabs_le_inv in NB. destruct (add_real A B 121 FA FB ltac:(lia)) as [FC EC]; [rewrite Rabs_pos_eq; lra|]. set (C := d_add A B) in *. pose proof (CoordsFloat_proofs.err53 (B2R A + B2R B)) as NC. rewrite <- EC, (Rabs_pos_eq (B2R A + B2R B)), v_val in NC by lra. apply Rabs_le_inv in NC.
  assert (NCq : - (4 * v * q) <= B2R C - q <= 4 * v * q) by (unfold q in *; lra). assert (PC : 0 < B2R C). { pose proof (bpow_gt_0 radix2 (-120)). lra. }
  destruct (sqrt_real C FC ltac:(lra) (positive_sign C PC)) as [FN EN]. change (d_sqrt C) with (d_norm x y) in FN, EN. set (m := sqrt (B2R C)) in *. assert (Pm : 0 <= m) by apply sqrt_pos. assert (Em : m * m = B2R C) by (apply sqrt_sqrt; lra).
  assert (Nm : - (4 * v * n) <= m - n <= 4 * v * n). { assert (Z : (m - n) * (m + n) = B2R C - q) by (rewrite <- Em, <- Eq; ring). rewrite <- Z, <- Eq in NCq. assert (Sp : 0 < m + n) by lra. split; apply Rmult_le_reg_r with (m + n); try exact Sp; nra. }
  assert (Lm : bpow radix2 (-900) <= m). { apply Rle_trans with (/ 2 * bpow radix2 (-60)); [change (/ 2) with (bpow radix2 (-1)); rewrite <- bpow_plus; apply bpow_le; lia|lra]. }
  pose proof (relative53 m Lm) as NN. rewrite <- EN in NN. change (bpow radix2 (-52)) with (2 * v) in NN || replace (bpow radix2 (-52)) with (2 * v) in NN by (change (bpow radix2 (-52)) with (/ 4503599627370496); lra). apply Rabs_le_inv in NN.
  assert (Un : n <= bpow radix2 61). { assert (X : n * n <= bpow radix2 61 * bpow radix2 61). { rewrite <- bpow_plus. change (61 + 61)%Z with 122%Z. lra. } pose proof (bpow_gt_0 radix2 61). nra. }
  assert (P62 : 2 * bpow radix2 61 = bpow radix2 62) by (change 62%Z with (1 + 61)%Z; rewrite bpow_plus; reflexivity). assert (P62' : bpow radix2 62 <= bpow radix2 120) by (apply bpow_le; lia).
  destruct (narrow_pos (d_norm x y) FN ltac:(lra)) as (Fo & Bo & No). fold o in Fo, Bo, No. apply Rabs_le_inv in No. assert (T2 : bpow radix2 (-150) <= / 16777216 * n). { apply Rle_trans with (bpow radix2 (-24) * bpow radix2 (-60)); [rewrite <- bpow_plus; apply bpow_le; lia|]. change (bpow radix2 (-24)) with (/ 16777216). lra. }
  split; [exact La|]. split; [exact Lb|]. split; [exact Un|]. split; [exact Fo|]. apply Rabs_le. split; lra.
Qed.

(** The factor of the vector. *)
Lemma factor_near (w U o : single) n : amount w -> amount U -> is_finite o = true -> 0 < n -> Rabs (B2R o - n) <= / 4194304 * n -> B2R o < B2R U ->
  let t := s_mul w (s_sub o U) in let wU := B2R w * B2R U in
  is_finite t = true /\ - (1 + / 1048576) * wU - bpow radix2 (-150) <= B2R t <= 0 /\ Rabs (B2R t - B2R w * (n - B2R U)) <= / 2097152 * wU + bpow radix2 (-150).
Proof.
  intros [Fw Bw] [FU BU] Fo Pn No Lo t wU. apply Rabs_le_inv in No. assert (P30 : bpow radix2 30 <= bpow radix2 101) by (apply bpow_le; lia). assert (Bd : - B2R U <= B2R o - B2R U <= 0) by lra.
  destruct (ssub_real o U Fo FU) as [Fd Ed]; [rewrite Rabs_left1; lra|]. pose proof (minus24 o U) as Nd. rewrite <- Ed, u24_val in Nd. rewrite (Rabs_left1 (B2R o - B2R U)) in Nd by lra. set (d := s_sub o U) in *.
  assert (Dd : - B2R U <= B2R d <= 0). { rewrite Ed. apply r24_between; [apply generic_format_opp, generic_format_B2R|apply generic_format_0|exact Bd]. }
  assert (PwU : 0 <= wU) by (apply Rmult_le_pos; lra). assert (Bwd : - wU <= B2R w * B2R d <= 0) by (unfold wU; split; nra).
  assert (BwU : wU <= bpow radix2 60) by (unfold wU; change 60%Z with (30 + 30)%Z; rewrite bpow_plus; apply Rmult_le_compat; lra).
  destruct (mul_real w d Fw Fd) as [Ft Et]. { pose proof (rnd24_small (B2R w * B2R d) 60 ltac:(lia)) as Q. rewrite (Rabs_left1 (B2R w * B2R d)) in Q by lra. specialize (Q ltac:(lra)). destruct (Rlt_bool_spec (Rabs (rnd24 (B2R w * B2R d))) (bpow radix2 128)); [assumption|discriminate]. }
  fold t in Ft, Et. pose proof (CoordsFloat_proofs.err24 (B2R w * B2R d)) as Nt. rewrite <- Et, u24_val, (Rabs_left1 (B2R w * B2R d)) in Nt by lra. apply Rabs_le_inv in Nt. apply Rabs_le_inv in Nd.
  assert (Nu : n <= (1 + / 2097152) * B2R U) by lra. assert (K1 : - (/ 16777216 * wU) <= B2R w * B2R d - B2R w * (B2R o - B2R U) <= / 16777216 * wU) by (unfold wU; split; nra).
  assert (K2 : - (/ 4000000 * wU) <= B2R w * (B2R o - n) <= / 4000000 * wU). { unfold wU. assert (X : - (/ 4000000 * B2R U) <= B2R o - n <= / 4000000 * B2R U) by lra. split; nra. }
  assert (T0 : B2R t <= 0). { rewrite Et. apply round_le_generic; auto with typeclass_instances; solve [apply generic_format_0|lra]. }
  split; [exact Ft|]. split; [split; [lra|exact T0]|]. apply Rabs_le. replace (B2R t - B2R w * (n - B2R U)) with (B2R t - B2R w * B2R d + (B2R w * B2R d - B2R w * (B2R o - B2R U)) + B2R w * (B2R o - n)) by ring. split; lra.
Qed.

(** A coordinate. *)
Lemma coordinate (w U o t : single) (x : double) n : amount w -> amount U -> is_finite o = true -> bpow radix2 (-60) <= n -> Rabs (B2R o - n) <= / 4194304 * n ->
  is_finite x = true -> Rabs (B2R x) <= n -> n <= bpow radix2 61 -> is_finite t = true -> - (1 + / 1048576) * (B2R w * B2R U) - bpow radix2 (-150) <= B2R t <= 0 ->
  let g := d_div (d_mul (widen t) x) (widen o) in is_finite g = true /\ B2R g * B2R x <= 0 /\
  Rabs (B2R g - B2R t * (B2R x / n)) <= / 2000000 * (B2R w * B2R U) + bpow radix2 (-145).
Proof.
  intros [Fw Bw] [FU BU] Fo Ln No Fx Ax Un Ft Bt g. apply Rabs_le_inv in No. pose proof (bpow_gt_0 radix2 (-60)) as P60. set (wU := B2R w * B2R U) in *. assert (PwU : 0 <= wU) by (apply Rmult_le_pos; lra).
  assert (BwU : wU <= bpow radix2 60) by (unfold wU; change 60%Z with (30 + 30)%Z; rewrite bpow_plus; apply Rmult_le_compat; lra). set (a := B2R x) in *.
  assert (T1 : bpow radix2 (-150) <= 1) by (change 1 with (bpow radix2 0); apply bpow_le; lia). assert (T2 : 1 <= bpow radix2 60) by (change 1 with (bpow radix2 0); apply bpow_le; lia).
  destruct (widen_real t Ft) as [FT ET]. destruct (widen_real o Fo) as [FO EO]. set (tt := B2R t) in *. assert (At : Rabs tt <= bpow radix2 62). { rewrite Rabs_left1 by lra. change 62%Z with (2 + 60)%Z. rewrite bpow_plus. change (bpow radix2 2) with 4. lra. }
  assert (Ata : Rabs (tt * a) <= bpow radix2 123). { rewrite Rabs_mult. change 123%Z with (62 + 61)%Z. rewrite bpow_plus. apply Rmult_le_compat; try apply Rabs_pos; lra. }
  destruct (dmul_real (widen t) x 123 FT Fx ltac:(lia)) as [FM EM]; [rewrite ET; exact Ata|]. rewrite ET in EM. fold tt a in EM. set (m := d_mul (widen t) x) in *. pose proof (CoordsFloat_proofs.err53 (tt * a)) as NM. rewrite <- EM, v_val in NM.
  set (oo := B2R o) in *. assert (Lo : / 2 * n <= oo) by lra. assert (Po : 0 < oo) by lra. set (io := / oo). assert (Pio : 0 < io) by (apply Rinv_0_lt_compat; exact Po). assert (Eio : io * oo = 1) by (apply Rinv_l; lra).
  assert (Uio : io <= bpow radix2 61). { apply Rmult_le_reg_r with oo; [exact Po|]. rewrite Eio. apply Rle_trans with (bpow radix2 61 * (/ 2 * bpow radix2 (-60))); [change (/ 2) with (bpow radix2 (-1)); rewrite <- !bpow_plus; change (bpow radix2 (61 + (-1 + -60))) with 1; lra|]. apply Rmult_le_compat_l; [apply bpow_ge_0|lra]. }
  set (rho := a * io). set (sg := a / n). assert (Es : sg * n = a) by (unfold sg; field; lra). assert (Er : rho * oo = a) by (unfold rho; rewrite Rmult_assoc, Eio; ring).
  apply Rabs_le_inv in Ax. assert (Bs : -1 <= sg <= 1). { split; apply Rmult_le_reg_r with n; lra. } assert (Br : - (1 + / 2097152) <= rho <= 1 + / 2097152). { split; apply Rmult_le_reg_r with oo; lra. }
  assert (Nrs : - / 2097152 <= rho - sg <= / 2097152). { assert (Z : (rho - sg) * oo = sg * (n - oo)) by (rewrite Rmult_minus_distr_r, Er, Rmult_minus_distr_l, Es; ring). assert (W : - (/ 4194304 * n) <= sg * (n - oo) <= / 4194304 * n) by (split; nra). rewrite <- Z in W. split; apply Rmult_le_reg_r with oo; try exact Po; lra. }
  assert (ATR : Rabs (tt * a) * io <= (1 + / 2097152) * - tt). { rewrite <- (Rabs_pos_eq io) by lra. rewrite <- Rabs_mult. replace (tt * a * io) with (tt * rho) by (unfold rho; ring). rewrite Rabs_mult, (Rabs_left1 tt) by lra. rewrite Rmult_comm. apply Rmult_le_compat_r; [lra|]. apply Rabs_le. exact Br. }
  set (z := B2R m * io). assert (T75 : bpow radix2 (-1075) * io <= bpow radix2 (-1000)). { apply Rle_trans with (bpow radix2 (-1075) * bpow radix2 61); [apply Rmult_le_compat_l; [apply bpow_ge_0|exact Uio]|rewrite <- bpow_plus; apply bpow_le; lia]. }
  assert (Nz : Rabs (z - tt * rho) <= 2 * v * - tt + bpow radix2 (-1000)). { replace (z - tt * rho) with ((B2R m - tt * a) * io) by (unfold z, rho; ring). rewrite Rabs_mult, (Rabs_pos_eq io) by lra. apply Rle_trans with ((v * Rabs (tt * a) + bpow radix2 (-1075)) * io); [apply Rmult_le_compat_r; lra|]. rewrite Rmult_plus_distr_r, Rmult_assoc. assert (v * (Rabs (tt * a) * io) <= v * ((1 + / 2097152) * - tt)) by (apply Rmult_le_compat_l; lra). lra. }
  apply Rabs_le_inv in Nz. assert (Tm : bpow radix2 (-1000) <= / 1024 * bpow radix2 (-150)) by (change (/ 1024) with (bpow radix2 (-10)); rewrite <- bpow_plus; apply bpow_le; lia). assert (Tm' : bpow radix2 (-1075) <= / 1024 * bpow radix2 (-150)) by (change (/ 1024) with (bpow radix2 (-10)); rewrite <- bpow_plus; apply bpow_le; lia).
  assert (Ntr : - (/ 2097152 * - tt) <= tt * rho - tt * sg <= / 2097152 * - tt) by (split; nra). assert (Nts : tt <= tt * sg <= - tt) by (split; nra). pose proof (bpow_gt_0 radix2 (-150)) as P150.
  assert (Az : Rabs z <= 2 * - tt + bpow radix2 (-150)) by (apply Rabs_le; split; lra). assert (Ez : B2R m / oo = z) by reflexivity.
  destruct (div_real m (widen o) 64 FM) as [FG EG]; [rewrite EO; fold oo; lra|lia|rewrite EO; fold oo; rewrite Ez; apply Rle_trans with (1 := Az); change 64%Z with (4 + 60)%Z; rewrite bpow_plus; change (bpow radix2 4) with 16; lra|]. rewrite EO in EG. fold oo in EG. rewrite Ez in EG. fold g in FG, EG.
  pose proof (CoordsFloat_proofs.err53 z) as NG. rewrite <- EG, v_val in NG. split; [exact FG|]. split.
  - assert (Sg : (0 <= a -> B2R g <= 0) /\ (a <= 0 -> 0 <= B2R g)). { split; intros Sa.
      - assert (M0 : B2R m <= 0) by (rewrite EM; apply round_le_generic; auto with typeclass_instances; solve [apply generic_format_0|nra]). rewrite EG. apply round_le_generic; auto with typeclass_instances; solve [apply generic_format_0|unfold z; nra].
      - assert (M0 : 0 <= B2R m) by (rewrite EM; apply round_ge_generic; auto with typeclass_instances; solve [apply generic_format_0|nra]). rewrite EG. apply round_ge_generic; auto with typeclass_instances; solve [apply generic_format_0|unfold z; nra]. }
    destruct Sg as [S1 S2]. destruct (Rle_dec 0 a) as [Sa|Sa]; [specialize (S1 Sa); nra|specialize (S2 ltac:(lra)); nra].
  - apply Rabs_le_inv in NG. assert (P145 : bpow radix2 (-145) = 32 * bpow radix2 (-150)) by (change (-145)%Z with (5 + -150)%Z; rewrite bpow_plus; reflexivity). rewrite P145. apply Rabs_le. split; lra.
Qed.

(** * The term *)

Lemma push_near wr Ur t n a e : 0 <= wr -> 0 <= Ur -> 0 < n -> Rabs a <= n -> t <= 0 -> Rabs (t - wr * (n - Ur)) <= e -> Rabs (t * (a / n) - push wr Ur n a) <= e.
Proof.
  intros Pw PU Pn Ha T0 H. set (sg := a / n). assert (Es : sg * n = a) by (unfold sg; field; lra). apply Rabs_le_inv in Ha. assert (Bs : -1 <= sg <= 1) by (split; apply Rmult_le_reg_r with n; lra).
  unfold push. destruct (Rlt_dec n Ur) as [L|L]; fold sg.
  - replace (t * sg - wr * (n - Ur) * sg) with ((t - wr * (n - Ur)) * sg) by ring. rewrite Rabs_mult. rewrite <- (Rmult_1_r e). apply Rmult_le_compat; try apply Rabs_pos; [exact H|apply Rabs_le; exact Bs].
  - apply Rabs_le_inv in H. assert (0 <= wr * (n - Ur)) by (apply Rmult_le_pos; lra). rewrite Rminus_0_r. apply Rabs_le. split; nra.
Qed.
Lemma push_edge wr Ur n a o : 0 <= wr -> 0 <= Ur -> 0 < n -> Rabs a <= n -> Rabs (o - n) <= / 4194304 * n -> Ur <= o -> Rabs (0 - push wr Ur n a) <= / 4194304 * (wr * Ur).
Proof.
  intros Pw PU Pn Ha Ho L. set (sg := a / n). assert (Es : sg * n = a) by (unfold sg; field; lra). apply Rabs_le_inv in Ha. apply Rabs_le_inv in Ho. assert (Bs : -1 <= sg <= 1) by (split; apply Rmult_le_reg_r with n; lra). assert (PP : 0 <= wr * Ur) by (apply Rmult_le_pos; lra).
  unfold push. destruct (Rlt_dec n Ur) as [X|X]; fold sg.
  - assert (D : 0 <= wr * (Ur - n) <= / 4194304 * (wr * Ur)) by (split; nra). rewrite Rminus_0_l, Rabs_Ropp. apply Rabs_le. replace (wr * (n - Ur) * sg) with (- (wr * (Ur - n) * sg)) by ring. split; nra.
  - rewrite Rminus_0_l, Ropp_0, Rabs_R0. lra.
Qed.

Lemma term_near w U x y : amount w -> amount U -> usual x y -> let n := sqrt (B2R x * B2R x + B2R y * B2R y) in let g := f_collision w U x y in
  (is_finite (fst g) = true /\ B2R (fst g) * B2R x <= 0 /\ Rabs (B2R (fst g) - push (B2R w) (B2R U) n (B2R x)) <= / 524288 * (B2R w * B2R U) + bpow radix2 (-140)) /\
  (is_finite (snd g) = true /\ B2R (snd g) * B2R y <= 0 /\ Rabs (B2R (snd g) - push (B2R w) (B2R U) n (B2R y)) <= / 524288 * (B2R w * B2R U) + bpow radix2 (-140)).
Proof.
  intros Aw AU Hu n g. destruct (dist_near x y Hu) as (Lx & Ly & Un & Fo & No). fold n in Lx, Ly, Un, No. destruct Hu as (Fx & Fy & _ & _ & Ln). fold n in Ln. pose proof (bpow_gt_0 radix2 (-60)) as P60. assert (Pn : 0 < n) by lra.
  set (o := narrow (d_norm x y)) in *. destruct (Aw) as [Fw Bw]. destruct (AU) as [FU BU]. assert (PP : 0 <= B2R w * B2R U) by (apply Rmult_le_pos; lra). pose proof (bpow_gt_0 radix2 (-150)) as P150.
  assert (P140 : bpow radix2 (-140) = 1024 * bpow radix2 (-150)) by (change (-140)%Z with (10 + -150)%Z; rewrite bpow_plus; reflexivity). assert (P145 : bpow radix2 (-145) = 32 * bpow radix2 (-150)) by (change (-145)%Z with (5 + -150)%Z; rewrite bpow_plus; reflexivity).
  subst g. unfold f_collision. fold o. destruct (Bltb o U) eqn:E.
  - apply sltb in E; auto. destruct (factor_near w U o n Aw AU Fo Pn No E) as (Ft & Bt & Nt). cbn [fst snd]. set (t := s_mul w (s_sub o U)) in *.
    assert (K : forall c, is_finite c = true -> Rabs (B2R c) <= n -> let g := d_div (d_mul (widen t) c) (widen o) in
      is_finite g = true /\ B2R g * B2R c <= 0 /\ Rabs (B2R g - push (B2R w) (B2R U) n (B2R c)) <= / 524288 * (B2R w * B2R U) + bpow radix2 (-140)).
    { intros c Fc Lc g. destruct (coordinate w U o t c n Aw AU Fo Ln No Fc Lc Un Ft Bt) as (Fg & Sg & Ng). fold g in Fg, Sg, Ng. split; [exact Fg|]. split; [exact Sg|].
      pose proof (push_near (B2R w) (B2R U) (B2R t) n (B2R c) _ ltac:(lra) ltac:(lra) Pn Lc ltac:(lra) Nt) as Np. apply Rabs_le_inv in Ng. apply Rabs_le_inv in Np. rewrite P140. rewrite P145 in Ng. apply Rabs_le. split; lra. }
    split; apply K; assumption.
  - assert (L : B2R U <= B2R o). { destruct (Rle_lt_dec (B2R U) (B2R o)) as [Y|Y]; [exact Y|]. apply sltb in Y; auto. congruence. } cbn [fst snd]. change (B2R d_zero) with 0.
    split; (split; [reflexivity|]; split; [lra|]; eapply Rle_trans; [apply (push_edge (B2R w) (B2R U) n _ (B2R o)); try assumption; lra|lra]).
Qed.

Lemma term_at_obstacle w U sx sy : amount w -> amount U -> 0 < B2R U -> f_collision w U (B754_zero sx) (B754_zero sy) = (B754_nan, B754_nan).
Proof.
  intros [Fw Bw] [FU BU] P. assert (E : narrow (d_norm (B754_zero sx) (B754_zero sy)) = B754_zero false) by (destruct sx, sy; reflexivity). unfold f_collision. rewrite E.
  assert (L : Bltb (B754_zero false : single) U = true) by (apply sltb; auto). rewrite L. assert (P30 : bpow radix2 30 <= bpow radix2 101) by (apply bpow_le; lia).
  destruct (ssub_real (B754_zero false) U eq_refl FU) as [Fd Ed]; [cbn [B2R]; rewrite Rabs_left1; lra|]. cbn [B2R] in Ed. set (d := s_sub (B754_zero false) U) in *. assert (Dd : - B2R U <= B2R d <= 0) by (rewrite Ed; apply r24_between; [apply generic_format_opp, generic_format_B2R|apply generic_format_0|lra]).
  assert (BwU : B2R w * B2R U <= bpow radix2 60) by (change 60%Z with (30 + 30)%Z; rewrite bpow_plus; apply Rmult_le_compat; lra).
  assert (Bwd : - (B2R w * B2R U) <= B2R w * B2R d <= 0) by (split; nra). destruct (mul_real w d Fw Fd) as [Ft _]. { pose proof (rnd24_small (B2R w * B2R d) 60 ltac:(lia)) as Q. rewrite (Rabs_left1 (B2R w * B2R d)) in Q by lra. specialize (Q ltac:(lra)). destruct (Rlt_bool_spec (Rabs (rnd24 (B2R w * B2R d))) (bpow radix2 128)); [assumption|discriminate]. }
  set (t := s_mul w d) in *. destruct (widen_real t Ft) as [FT _]. set (T := widen t) in *. assert (Z : forall s, d_div (d_mul T (B754_zero s)) (widen (B754_zero false)) = B754_nan) by (intros s; destruct T as [s'|s'| |s' m e b]; try discriminate FT; reflexivity). rewrite !Z. reflexivity.
Qed.
Lemma moved_nan rate p : f_moved rate p B754_nan = B754_nan.
Proof. unfold f_moved. set (r := widen rate). replace (d_mul r B754_nan) with (B754_nan : double) by (destruct r; reflexivity). destruct p; reflexivity. Qed.
Lemma largest_nan step : f_largest step (B754_nan, B754_nan) = step.
Proof. unfold f_largest, s_max. cbn [fst snd]. replace (narrow (d_norm B754_nan B754_nan)) with (B754_nan : single) by reflexivity. destruct step; reflexivity. Qed.
