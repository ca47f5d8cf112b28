(** The obstacle heuristic in single precision. *)
From Coq Require Import Reals ZArith Lra Lia Psatz.
From Flocq Require Import Core BinarySingleNaN Relative.
From Verif Require Import Base Grid_model Grid_spec AStarN2_spec CoordsFloat_model CoordsFloat_proofs StraightFloat_model StraightFloat_proofs ValidatorFloat_model ValidatorFloat_proofs ObstHeur_model ObstHeur_spec ObstHeur_proofs
  ObstHeurFloat_model ObstHeurFloat_spec ObstHeurRound_proofs.
Local Open Scope R_scope.
#[local] Existing Instance prec24.
#[local] Existing Instance emax128.
#[local] Existing Instance vexp24.
#[local] Existing Instance prec53.
#[local] Existing Instance emax1024.
#[local] Existing Instance vexp53.
#[local] Existing Instance vrndne.

Lemma unit24 : s_unit = bpow radix2 (-24).
Proof. unfold s_unit. rewrite u24_val. lra. Qed.
Lemma unit_small : 0 < s_unit < / 16.
Proof. rewrite unit24, u24_val. lra. Qed.

Lemma zero_real : is_finite s_zero = true /\ B2R s_zero = 0.
Proof. exact (of_int_real 0 eq_refl). Qed.
Lemma one_real : is_finite s_one = true /\ B2R s_one = 1.
Proof. exact (of_int_real 1 eq_refl). Qed.

(** Numbers from 1 on are rounded with a relative error only. *)
Lemma round_near x : 1 <= x -> (1 - s_unit) * x <= rnd24 x <= (1 + s_unit) * x.
Proof.
  intros H. pose proof (relative_error_N_FLT radix2 (-149) 24 eq_refl (fun z => negb (Z.even z)) x) as R. rewrite <- fexp24 in R.
  change (Znearest (fun z => negb (Z.even z))) with (round_mode mode_NE) in R.
  assert (B : bpow radix2 (-149 + 24 - 1) <= Rabs x). { rewrite Rabs_pos_eq by lra. apply Rle_trans with (2 := H). change 1 with (bpow radix2 0). apply bpow_le. lia. }
  specialize (R B). rewrite (Rabs_pos_eq x) in R by lra. assert (U : / 2 * bpow radix2 (- (24) + 1) = s_unit). { rewrite unit24. change (/ 2) with (bpow radix2 (-1)). rewrite <- bpow_plus. reflexivity. }
  rewrite U in R. apply Rabs_le_inv in R. lra.
Qed.

Lemma diag_real : is_finite s_diag = true /\ (1 - s_unit) * sqrt 2 <= B2R s_diag <= (1 + s_unit) * sqrt 2.
Proof.
  destruct (Bsqrt_correct 24 128 prec24 emax128 mode_NE (s_of 2 0)) as (E & _). destruct (of_int_real 2 eq_refl) as (_ & E2).
  split; [vm_compute; reflexivity|]. change (B2R s_diag) with (B2R (@Bsqrt 24 128 prec24 emax128 mode_NE (s_of 2 0))). rewrite E, E2. apply round_near. pose proof sqrt2_bounds. lra.
Qed.

(** The costs of the heuristic. *)
Definition s_good (x : single) : Prop := is_finite x = true /\ 0 <= B2R x <= bpow radix2 25.

Lemma p25 : bpow radix2 25 = 33554432. Proof. reflexivity. Qed.

Lemma round_top x : x < bpow radix2 25 + 2 -> rnd24 x <= bpow radix2 25.
Proof.
  intros H. apply round_N_le_midp; auto with typeclass_instances.
  - apply format24_pow. lia.
  - rewrite succ_eq_pos by apply bpow_ge_0. rewrite ulp_bpow. change (SpecFloat.fexp 24 128 (25 + 1)) with 2%Z. change (bpow radix2 2) with 4. lra.
Qed.

Lemma add_good t x : is_finite t = true -> 1 <= B2R t <= 1.5 -> s_good x ->
  s_good (s_add t x) /\ B2R (s_add t x) = rnd24 (B2R t + B2R x) /\ B2R x <= B2R (s_add t x).
Proof.
  intros Ft Ht (Fx & Bx). pose proof (Bplus_correct 24 128 prec24 emax128 mode_NE t x Ft Fx) as C.
  rewrite (rnd24_small _ 26) in C; [|lia|rewrite Rabs_pos_eq by lra; change (bpow radix2 26) with 67108864; rewrite p25 in Bx; lra].
  destruct C as (C1 & C2 & _). change (B2R (s_add t x)) with (B2R (@Bplus 24 128 prec24 emax128 mode_NE t x)).
  assert (L : B2R x <= rnd24 (B2R t + B2R x)). { apply round_ge_generic; auto with typeclass_instances; [apply generic_format_B2R|lra]. }
  split; [|split; [exact C1|rewrite C1; exact L]]. split; [exact C2|]. change (B2R (s_add t x)) with (B2R (@Bplus 24 128 prec24 emax128 mode_NE t x)). rewrite C1. split; [lra|]. apply round_top. lra.
Qed.

Lemma one_ok : is_finite s_one = true /\ 1 <= B2R s_one <= 1.5.
Proof. destruct one_real as (F & ->). split; auto. lra. Qed.
Lemma diag_ok : is_finite s_diag = true /\ 1 <= B2R s_diag <= 1.5.
Proof. destruct diag_real as (F & B). split; auto. pose proof sqrt2_bounds. rewrite unit24, u24_val in B. assert (sqrt 2 < 1.42) by (pose proof (sqrt_sqrt 2 ltac:(lra)); nra). lra. Qed.

Lemma good_zero : s_good s_zero.
Proof. destruct zero_real as (F & E). split; auto. rewrite E, p25. lra. Qed.
Lemma good_ltb a b : s_good a -> s_good b -> Bltb a b = true <-> B2R a < B2R b.
Proof. intros [Fa _] [Fb _]. now apply sltb. Qed.
Lemma good_one x : s_good x -> s_good (s_add s_one x) /\ B2R x <= B2R (s_add s_one x).
Proof. intros G. destruct one_ok as (F & B). destruct (add_good s_one x F B G) as (A & _ & L). auto. Qed.
Lemma good_diag x : s_good x -> s_good (s_add s_diag x) /\ B2R (s_add s_one x) <= B2R (s_add s_diag x).
Proof.
  intros G. destruct one_ok as (F & B), diag_ok as (F' & B'). destruct (add_good s_one x F B G) as (_ & E & _). destruct (add_good s_diag x F' B' G) as (A & E' & _). split; auto.
  rewrite E, E'. apply round_le; auto with typeclass_instances. destruct one_real as (_ & ->). lra.
Qed.
Lemma good_mono x y : s_good x -> s_good y -> B2R x <= B2R y -> B2R (s_add s_diag x) <= B2R (s_add s_diag y).
Proof.
  intros G G' H. destruct diag_ok as (F & B). destruct (add_good s_diag x F B G) as (_ & E & _). destruct (add_good s_diag y F B G') as (_ & E' & _). rewrite E, E'.
  apply round_le; auto with typeclass_instances. lra.
Qed.

(** One step of a walk. *)
Definition s_step (p k : cell) : single := if ((row p =? row k) || (col p =? col k))%Z then s_one else s_diag.
Lemma step_near p k x : s_good x -> s_good (s_add (s_step p k) x) /\
  (1 - s_unit) * ((1 - s_unit) * octile p k + B2R x) <= B2R (s_add (s_step p k) x) <= (1 + s_unit) * ((1 + s_unit) * octile p k + B2R x).
Proof.
  intros G. pose proof unit_small as U. assert (P : is_finite (s_step p k) = true /\ 1 <= B2R (s_step p k) <= 1.5 /\ (1 - s_unit) * octile p k <= B2R (s_step p k) <= (1 + s_unit) * octile p k).
  { unfold s_step, octile. destruct (_ || _).
    - destruct one_ok as (F & B). split; auto. split; auto. destruct one_real as (_ & ->). lra.
    - destruct diag_ok as (F & B). split; auto. split; auto. apply diag_real. }
  destruct P as (F & B & N). destruct (add_good _ x F B G) as (A & E & _). split; auto. rewrite E. destruct G as (_ & G). pose proof (round_near (B2R (s_step p k) + B2R x) ltac:(lra)) as R.
  split; [eapply Rle_trans; [|apply R]|eapply Rle_trans; [apply R|]]; apply Rmult_le_compat_l; lra.
Qed.

Lemma octile_pos p k : 1 <= octile p k.
Proof. unfold octile. pose proof sqrt2_bounds. destruct (_ || _); lra. Qed.
Lemma walk_cost_pos l : forall p, 0 <= walk_cost octile p l.
Proof. induction l as [|k l IH]; intros p; cbn; [lra|]. pose proof (octile_pos p k). specialize (IH k). lra. Qed.

Lemma pow_low k : 0 < (1 - s_unit) ^ k <= 1.
Proof. pose proof unit_small. induction k as [|k IH]; cbn; [lra|]. nra. Qed.
Lemma pow_high k : 1 <= (1 + s_unit) ^ k.
Proof. pose proof unit_small. induction k as [|k IH]; cbn; [lra|]. nra. Qed.

Lemma sum_near l : forall p x, s_good x ->
  (1 - s_unit) ^ length l * (B2R x + (1 - s_unit) * walk_cost octile p l) <= B2R (sum s_add s_one s_diag x p l) <= (1 + s_unit) ^ length l * (B2R x + (1 + s_unit) * walk_cost octile p l).
Proof.
  pose proof unit_small as U. induction l as [|k l IH]; intros p x G; [cbn; lra|]. destruct (step_near p k x G) as (G' & L1 & L2). cbn [sum length walk_cost].
  change (if ((row p =? row k) || (col p =? col k))%Z then s_one else s_diag) with (s_step p k). destruct (IH k _ G') as (I1 & I2). pose proof (pow_low (length l)) as Q1. pose proof (pow_high (length l)) as Q2.
  pose proof (walk_cost_pos l k) as W. set (w := walk_cost octile k l) in *. set (y := B2R (s_add _ x)) in *. cbn [pow]. split.
  - eapply Rle_trans; [|exact I1]. rewrite (Rmult_comm (1 - s_unit)), Rmult_assoc. apply Rmult_le_compat_l; [lra|].
    assert (0 <= s_unit * (1 - s_unit) * w) by (apply Rmult_le_pos; [nra|auto]). nra.
  - eapply Rle_trans; [exact I2|]. rewrite (Rmult_comm (1 + s_unit) (_ ^ _)), Rmult_assoc. apply Rmult_le_compat_l; [lra|].
    assert (0 <= s_unit * (1 + s_unit) * w) by (apply Rmult_le_pos; [nra|auto]). nra.
Qed.

Lemma diagonals_near k : forall x, s_good x -> B2R (diagonals s_add s_diag k x) <= (1 + s_unit) ^ k * (B2R x + (1 + s_unit) * (sqrt 2 * INR k)).
Proof.
  pose proof unit_small as U. pose proof sqrt2_bounds as S2. induction k as [|k IH]; intros x G; [cbn; lra|]. cbn [diagonals].
  assert (D : s_step (Cell 0 0) (Cell 1 1) = s_diag) by reflexivity. assert (O : octile (Cell 0 0) (Cell 1 1) = sqrt 2) by reflexivity.
  destruct (step_near (Cell 0 0) (Cell 1 1) x G) as (G' & _ & L2). rewrite D, ?O in *. specialize (IH _ G'). pose proof (pow_high k) as Q2. rewrite S_INR. pose proof (pos_INR k) as PK.
  set (y := B2R (s_add _ x)) in *. cbn [pow]. eapply Rle_trans; [exact IH|]. rewrite (Rmult_comm (1 + s_unit) (_ ^ _)), Rmult_assoc. apply Rmult_le_compat_l; [lra|].
  set (w := sqrt 2 * INR k) in *. assert (0 <= w) by (unfold w; apply Rmult_le_pos; lra). replace (sqrt 2 * (INR k + 1)) with (w + sqrt 2) by (unfold w; ring).
  assert (0 <= s_unit * (1 + s_unit) * w) by (apply Rmult_le_pos; [nra|auto]). nra.
Qed.

(** The result. *)
Lemma float_explored m n occ o start fuel st0 : float_updated m n st0 -> answers m n occ o -> inside m n start -> (Z.to_nat m * Z.to_nat n < fuel)%nat ->
  exists st, float_update fuel m n occ start st0 = Ok st /\
  forall c, inside m n c -> exists b, grid_get (o_explored st) c = Ok b /\ (b = true <-> exists l, walk m n o start l c).
Proof.
  intros U A Hs Hf. apply updated_size in U.
  destruct (update_round Bltb s_add s_zero s_one s_diag s_good B2R good_ltb good_zero good_one good_diag good_mono m n occ o start A Hs st0 fuel U Hf) as (st & E & H & _). eauto.
Qed.

Lemma float_stored m n occ o start fuel st0 st c : float_updated m n st0 -> answers m n occ o -> inside m n start -> (Z.to_nat m * Z.to_nat n < fuel)%nat ->
  float_update fuel m n occ start st0 = Ok st -> inside m n c ->
  (forall l, walk m n o start l c -> exists x, grid_get (o_cost st) c = Ok (Some x) /\ s_finite x /\ 0 <= s_value x <= 2 ^ 25 /\
     (exists l', walk m n o start l' c /\
        (1 - s_unit) ^ S (length l') * walk_cost octile start l' <= s_value x <= (1 + s_unit) ^ S (length l') * walk_cost octile start l') /\
     s_value x <= (1 + s_unit) ^ S (length l) * (sqrt 2 * walk_cost octile start l)) /\
  ((forall l, ~ walk m n o start l c) -> grid_get (o_cost st) c = Ok None).
Proof.
  intros U A Hs Hf E Hc. apply updated_size in U.
  destruct (update_round Bltb s_add s_zero s_one s_diag s_good B2R good_ltb good_zero good_one good_diag good_mono m n occ o start A Hs st0 fuel U Hf) as (st' & E' & _ & H1 & H2).
  assert (st' = st) as -> by (unfold float_update in E; congruence). split; [|now apply H1]. intros l W. destruct (H2 c l Hc W) as (x & Ex & (Fx & Bx) & (l' & W' & ->) & B).
  eexists. split; [exact Ex|]. split; [exact Fx|]. split; [assert (P : (2 ^ 25)%R = 33554432) by (cbn [pow]; lra); rewrite P, <- p25; exact Bx|]. pose proof unit_small as Us. destruct zero_real as (_ & Z0). unfold s_value. split.
  - exists l'. split; auto. pose proof (sum_near l' start s_zero good_zero) as S. rewrite Z0 in S. cbn [pow]. split; [eapply Rle_trans; [|apply S]; right; ring|eapply Rle_trans; [apply S|]; right; ring].
  - pose proof (diagonals_near (length l) s_zero good_zero) as D. rewrite Z0 in D. pose proof (walk_length_cost m n o l start c W) as K. pose proof sqrt2_bounds. pose proof (pow_high (length l)) as Q.
    eapply Rle_trans; [exact B|]. eapply Rle_trans; [exact D|]. cbn [pow]. rewrite (Rmult_comm (1 + s_unit) (_ ^ _)), Rmult_assoc. apply Rmult_le_compat_l; [lra|]. rewrite Rplus_0_l. apply Rmult_le_compat_l; [lra|]. apply Rmult_le_compat_l; lra.
Qed.

(** ** The value *)

(** The products that the two constants are rounded from. *)
Lemma constant_near (a : double) (r : single) A : is_finite a = true -> 0 <= A <= bpow radix2 30 -> Rabs (B2R a - A) <= bpow radix2 (-53) * A -> is_finite r = true -> 0 <= B2R r <= bpow radix2 30 ->
  let c := narrow (d_mul a (widen r)) in is_finite c = true /\ 0 <= B2R c /\ Rabs (B2R c - A * B2R r) <= 2 * s_unit * (A * B2R r) + bpow radix2 (-149).
Proof.
  intros Fa HA Na Fr Hr c. destruct (widen_real r Fr) as (Fw & Ew). change (bpow radix2 30) with 1073741824 in *. change (bpow radix2 (-53)) with (/ 9007199254740992) in Na.
  apply Rabs_le_inv in Na. assert (Pa : 0 <= B2R a <= 1073741825) by lra.
  assert (P : 0 <= B2R a * B2R r <= 1073741825 * 1073741824) by (split; [apply Rmult_le_pos; lra|apply Rmult_le_compat; lra]).
  destruct (dmul_real a (widen r) 61 Fa Fw) as (Fm & Em); [lia|rewrite Ew, Rabs_pos_eq by lra; change (bpow radix2 61) with 2305843009213693952; lra|]. rewrite Ew in Em.
  pose proof (CoordsFloat_proofs.err53 (B2R a * B2R r)) as R1. rewrite <- Em in R1. rewrite (Rabs_pos_eq (B2R a * B2R r)) in R1 by lra. apply Rabs_le_inv in R1.
  assert (M0 : 0 <= B2R (d_mul a (widen r))). { rewrite Em. apply round_ge_generic; auto with typeclass_instances; [apply generic_format_0|lra]. }
  assert (T1 : 0 < bpow radix2 (-1075) <= bpow radix2 (-150)) by (split; [apply bpow_gt_0|apply bpow_le; lia]).
  assert (T2 : bpow radix2 (-150) <= 1) by (change 1 with (bpow radix2 0); apply bpow_le; lia).
  assert (T3 : bpow radix2 (-149) = 2 * bpow radix2 (-150)) by (change 2 with (bpow radix2 1); rewrite <- bpow_plus; reflexivity).
  change (bpow radix2 (-53)) with (/ 9007199254740992) in *.
  assert (T4 : bpow radix2 (-1075) <= / 4 * bpow radix2 (-150)) by (change (/ 4) with (bpow radix2 (-2)); rewrite <- bpow_plus; apply bpow_le; lia).
  destruct (narrow_real (d_mul a (widen r)) Fm) as (Fc & Ec). { rewrite Rabs_pos_eq by auto. apply Rle_trans with (bpow radix2 61); [change (bpow radix2 61) with 2305843009213693952; lra|apply bpow_le; lia]. }
  pose proof (err24 (B2R (d_mul a (widen r)))) as R2. rewrite <- Ec in R2. rewrite (Rabs_pos_eq (B2R (d_mul a (widen r)))) in R2 by lra. apply Rabs_le_inv in R2.
  fold c in Fc, Ec, R2. split; auto. split. { rewrite Ec. apply round_ge_generic; auto with typeclass_instances; try apply generic_format_0; try lra. }
  assert (D : - (/ 9007199254740992) * (A * B2R r) <= B2R a * B2R r - A * B2R r <= / 9007199254740992 * (A * B2R r)) by (split; nra).
  assert (Q : 0 <= A * B2R r) by (apply Rmult_le_pos; lra). rewrite unit24. change (bpow radix2 (-24)) with (/ 16777216) in *. apply Rabs_le.
  set (w := A * B2R r) in *. set (v := B2R a * B2R r) in *. set (M := B2R (d_mul a (widen r))) in *. lra.
Qed.

Lemma s_mul_near (x m : single) : s_good x -> is_finite m = true -> 0 <= B2R m <= bpow radix2 70 ->
  is_finite (s_mul x m) = true /\ 0 <= B2R (s_mul x m) <= bpow radix2 95 /\ Rabs (B2R (s_mul x m) - B2R x * B2R m) <= s_unit * (B2R x * B2R m) + bpow radix2 (-150).
Proof.
  intros (Fx & Bx) Fm Bm. assert (P : 0 <= B2R x * B2R m <= bpow radix2 95). { change 95%Z with (25 + 70)%Z. rewrite bpow_plus. split; [apply Rmult_le_pos; lra|apply Rmult_le_compat; lra]. }
  destruct (mul_real x m Fx Fm) as (F & E). { pose proof (rnd24_small (B2R x * B2R m) 95 ltac:(lia)) as R. rewrite Rabs_pos_eq in R by lra. specialize (R ltac:(lra)). destruct (Rlt_bool_spec (Rabs (rnd24 (B2R x * B2R m))) (bpow radix2 128)); [assumption|discriminate]. }
  split; auto. split.
  - rewrite E. split; [apply round_ge_generic|apply round_le_generic]; auto with typeclass_instances; try apply generic_format_0; try lra. apply format24_pow. lia.
  - pose proof (err24 (B2R x * B2R m)) as R. rewrite (Rabs_pos_eq (B2R x * B2R m)) in R by lra. rewrite E, unit24. exact R.
Qed.

Lemma lesser_real (a b : double) : is_finite a = true -> is_finite b = true -> is_finite (d_lesser a b) = true /\ B2R (d_lesser a b) = Rmin (B2R a) (B2R b).
Proof.
  intros Fa Fb. unfold d_lesser. pose proof (dltb b a Fb Fa) as H. destruct (Bltb b a).
  - split; auto. rewrite Rmin_right; auto. assert (B2R b < B2R a) by now apply H. lra.
  - split; auto. rewrite Rmin_left; auto. destruct (Rle_lt_dec (B2R a) (B2R b)); auto. assert (false = true) by now apply H. discriminate.
Qed.

Lemma d_sqrt2_near : let a := @Bsqrt 53 1024 (eq_refl _) (eq_refl _) mode_NE (d_of 2 0) in is_finite a = true /\ Rabs (B2R a - sqrt 2) <= bpow radix2 (-53) * sqrt 2.
Proof.
  intros a. split; [vm_compute; reflexivity|]. destruct (Bsqrt_correct 53 1024 prec53 emax1024 mode_NE (d_of 2 0)) as (E & _). change (B2R a = rnd53 (sqrt (B2R (d_of 2 0)))) in E.
  assert (E2 : B2R (d_of 2 0) = 2) by exact two_real. rewrite E2 in E. rewrite E. pose proof sqrt2_bounds as S2.
  pose proof (relative_error_N_FLT radix2 (-1074) 53 eq_refl (fun z => negb (Z.even z)) (sqrt 2)) as R. rewrite <- fexp53 in R.
  change (Znearest (fun z => negb (Z.even z))) with (round_mode mode_NE) in R. rewrite (Rabs_pos_eq (sqrt 2)) in R by lra.
  assert (B : bpow radix2 (-1074 + 53 - 1) <= sqrt 2). { apply Rle_trans with (bpow radix2 0); [apply bpow_le; lia|cbn; lra]. }
  specialize (R B). assert (U : / 2 * bpow radix2 (- (53) + 1) = bpow radix2 (-53)). { change (/ 2) with (bpow radix2 (-1)). rewrite <- bpow_plus. reflexivity. }
  rewrite U in R. exact R.
Qed.

(** What a user of the heuristic passes. *)
Lemma value_near resolution reverse forward (x : single) : is_finite resolution = true -> 0 <= B2R resolution <= bpow radix2 30 ->
  is_finite reverse = true -> 0 <= B2R reverse -> is_finite forward = true -> 0 <= B2R forward -> Rmin (B2R reverse) (B2R forward) <= bpow radix2 30 -> s_good x ->
  let h := widen (s_sub (s_mul x (float_multiplier resolution reverse forward)) (float_diagonal resolution)) in
  let p := Rmin (B2R reverse) (B2R forward) * B2R resolution in let q := sqrt 2 * B2R resolution in
  is_finite h = true /\ Rabs (B2R h - (p * B2R x - q)) <= 6 * s_unit * (p * B2R x + q) + bpow radix2 (-122).
Proof.
  intros Fr Br Fv Bv Ff Bf Bm Gx h p q. destruct (lesser_real reverse forward Fv Ff) as (Fl & El). pose proof sqrt2_bounds as S2. destruct d_sqrt2_near as (F2 & N2).
  assert (M0 : 0 <= Rmin (B2R reverse) (B2R forward)) by (apply Rmin_glb; auto).
  destruct (constant_near (d_lesser reverse forward) resolution (Rmin (B2R reverse) (B2R forward)) Fl ltac:(lra)) as (Fm & Pm & Nm); auto.
  { rewrite El, Rminus_eq_0, Rabs_R0. apply Rmult_le_pos; [apply bpow_ge_0|auto]. }
  destruct (constant_near _ resolution (sqrt 2) F2) as (Fd & Pd & Nd); auto. { change (bpow radix2 30) with 1073741824. lra. }
  fold (float_multiplier resolution reverse forward) in Fm, Pm, Nm. fold (float_diagonal resolution) in Fd, Pd, Nd. fold p in Nm. fold q in Nd.
  set (m := float_multiplier resolution reverse forward) in *. set (d := float_diagonal resolution) in *.
  assert (Bp : 0 <= p <= bpow radix2 60). { unfold p. change 60%Z with (30 + 30)%Z. rewrite bpow_plus. split; [apply Rmult_le_pos; lra|apply Rmult_le_compat; lra]. }
  assert (Bq : 0 <= q <= bpow radix2 31). { unfold q. change 31%Z with (1 + 30)%Z. rewrite bpow_plus. change (bpow radix2 1) with 2. split; [apply Rmult_le_pos; lra|apply Rmult_le_compat; lra]. }
  assert (T : 0 < bpow radix2 (-150) /\ bpow radix2 (-149) = 2 * bpow radix2 (-150) /\ bpow radix2 (-124) = 67108864 * bpow radix2 (-150) /\ bpow radix2 (-122) = 268435456 * bpow radix2 (-150) /\ bpow radix2 (-150) <= / 268435456).
  { split; [apply bpow_gt_0|]. split; [change 2 with (bpow radix2 1); rewrite <- bpow_plus; reflexivity|]. split; [change 67108864 with (bpow radix2 26); rewrite <- bpow_plus; reflexivity|].
    split; [change 268435456 with (bpow radix2 28); rewrite <- bpow_plus; reflexivity|]. change (/ 268435456) with (bpow radix2 (-28)). apply bpow_le. lia. }
  destruct T as (T0 & T1 & T2 & T3 & T4). pose proof unit_small as U. assert (Us : s_unit = / 16777216) by (rewrite unit24; reflexivity).
  change (bpow radix2 60) with 1152921504606846976 in *. change (bpow radix2 31) with 2147483648 in *. apply Rabs_le_inv in Nm, Nd. set (t := bpow radix2 (-150)) in *.
  destruct (s_mul_near x m Gx Fm) as (Fa & Ba & Na). { change (bpow radix2 70) with 1180591620717411303424. split; [lra|]. rewrite Us in Nm. lra. }
  set (a := s_mul x m) in *. apply Rabs_le_inv in Na. fold t in Na. destruct Gx as (Fx & Bx). rewrite p25 in Bx.
  destruct (ssub_real a d Fa Fd) as (Fs & Es). { apply Rabs_le. change (bpow radix2 101) with 2535301200456458802993406410752. change (bpow radix2 95) with 39614081257132168796771975168 in Ba. rewrite Us in Nd. lra. }
  pose proof (minus24 a d) as N. rewrite <- Es in N. destruct (widen_real (s_sub a d) Fs) as (Fh & Eh). fold h in Fh, Eh. split; auto. rewrite Eh. rewrite <- unit24 in N.
  set (H := B2R (s_sub a d)) in *. set (X := B2R x) in *. set (A := B2R a) in *. set (D := B2R d) in *. set (M := B2R m) in *.
  assert (XM : - (2 * s_unit * (p * X) + 67108864 * t) <= X * M - p * X <= 2 * s_unit * (p * X) + 67108864 * t).
  { replace (X * M - p * X) with (X * (M - p)) by ring. assert (X * (2 * t) <= 67108864 * t) by nra. split; nra. }
  assert (PX : 0 <= p * X) by (apply Rmult_le_pos; lra). set (y := p * X) in *. set (z := X * M) in *.
  assert (N' : Rabs (H - (A - D)) <= s_unit * (A + D)). { eapply Rle_trans; [exact N|]. apply Rmult_le_compat_l; [lra|]. apply Rabs_le. lra. }
  apply Rabs_le_inv in N'. rewrite T3. rewrite Us in *. apply Rabs_le. clear - N' Na XM Nd T0 T1 PX Bq. lra.
Qed.

Lemma greater_real (a b : double) : is_finite a = true -> is_finite b = true -> is_finite (d_greater a b) = true /\ B2R b <= B2R (d_greater a b) /\ (d_greater a b = a \/ d_greater a b = b).
Proof.
  intros Fa Fb. unfold d_greater. pose proof (dltb a b Fa Fb) as H. destruct (Bltb a b); [split; [auto|split; [lra|auto]]|]. split; auto. split; auto.
  destruct (Rle_lt_dec (B2R b) (B2R a)); auto. assert (false = true) by now apply H. discriminate.
Qed.

Lemma float_value_spec m n occ o start fuel st0 st resolution reverse forward euclidean c :
  float_updated m n st0 -> answers m n occ o -> inside m n start -> (Z.to_nat m * Z.to_nat n < fuel)%nat -> float_update fuel m n occ start st0 = Ok st ->
  is_finite resolution = true -> 0 <= B2R resolution <= bpow radix2 30 -> is_finite reverse = true -> 0 <= B2R reverse -> is_finite forward = true -> 0 <= B2R forward ->
  Rmin (B2R reverse) (B2R forward) <= bpow radix2 30 -> is_finite euclidean = true -> cell_is_valid c = false \/ inside m n c ->
  exists v, float_value resolution reverse forward euclidean c st = Ok v /\ is_finite v = true /\ B2R euclidean <= B2R v /\
  ((cell_is_valid c = false \/ forall l, ~ walk m n o start l c) -> v = euclidean) /\
  (forall l, inside m n c -> walk m n o start l c -> exists x, grid_get (o_cost st) c = Ok (Some x) /\
     let p := Rmin (B2R reverse) (B2R forward) * B2R resolution in let q := sqrt 2 * B2R resolution in
     Rabs (B2R v - Rmax (p * B2R x - q) (B2R euclidean)) <= 6 * s_unit * (p * B2R x + q) + bpow radix2 (-122)).
Proof.
  intros U A Hs Hf E Fr Br Fv Bv Ff Bf Bm Fe Hc. unfold float_value. destruct (cell_is_valid c) eqn:Ec; cbn [negb].
  2:{ exists euclidean. split; auto. split; auto. split; [lra|]. split; auto. intros l Hi. exfalso. unfold cell_is_valid in Ec. destruct Hi. lia. }
  destruct Hc as [Hc|Hc]; [discriminate|]. destruct (float_explored m n occ o start fuel st0 U A Hs Hf) as (st' & E' & X). assert (st' = st) as -> by congruence.
  destruct (X c Hc) as (b & -> & Hb). cbn [bind]. apply updated_size in U.
  destruct (update_round Bltb s_add s_zero s_one s_diag s_good B2R good_ltb good_zero good_one good_diag good_mono m n occ o start A Hs st0 fuel U Hf) as (st' & E2 & _ & _ & H2).
  assert (st' = st) as -> by (unfold float_update in E; congruence). destruct b; cbn [negb].
  - destruct (proj1 Hb eq_refl) as (l0 & W0). destruct (H2 c l0 Hc W0) as (x & Ex & Gx & _). change (grid_get (T := value single) (o_cost (C := single) st) c = Ok (Some x)) in Ex. rewrite Ex. cbn [bind].
    destruct (value_near resolution reverse forward x Fr Br Fv Bv Ff Bf Bm Gx) as (Fh & Nh). set (h := widen _) in *. destruct (greater_real h euclidean Fh Fe) as (Fg & Lg & Cg).
    exists (d_greater h euclidean). split; auto. split; auto. split; auto. split. { intros [K|K]; [discriminate|]. now destruct (K l0). }
    intros l _ _. exists x. split; auto. cbv zeta in *. set (p := Rmin _ _ * _) in *. set (q := sqrt 2 * _) in *. set (err := 6 * s_unit * (p * B2R x + q) + _) in *. apply Rabs_le_inv in Nh. apply Rabs_le.
    unfold d_greater in *. pose proof (dltb h euclidean Fh Fe) as D. destruct (Bltb h euclidean).
    + assert (B2R h < B2R euclidean) by now apply D. unfold Rmax. destruct (Rle_dec _ _); lra.
    + unfold Rmax. destruct (Rle_dec _ _); lra.
  - exists euclidean. split; auto. split; auto. split; [lra|]. split; auto. intros l _ W. assert (false = true) by (apply Hb; eauto). discriminate.
Qed.
