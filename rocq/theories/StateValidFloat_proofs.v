(** Validity of states in single and double precision. *)
From Coq Require Import Reals ZArith Lra Lia.
From Flocq Require Import Core BinarySingleNaN Relative.
From Verif Require Import Base Grid_model Gvd_model CoordsFloat_model CoordsFloat_proofs StraightFloat_model StraightFloat_proofs ValidatorFloat_model ValidatorFloat_proofs AngleFloat_model AngleFloat_proofs
  PathCostFloat_model PathCostFloat_proofs StateValidFloat_model StateValidFloat_spec.
From Coq Require Import ZifyBool.
Local Open Scope R_scope.
#[local] Existing Instance prec53.
#[local] Existing Instance emax1024.
#[local] Existing Instance vexp53.
#[local] Existing Instance vrndne.

Lemma trunc_any (x : double) : is_finite x = true -> Rabs (B2R x) <= 2000000000 ->
  exists n, d_trunc x = Ok n /\ ((0 < n)%Z -> IZR n <= B2R x < IZR n + 1) /\ (n = 0%Z -> -1 < B2R x < 1) /\ ((n < 0)%Z -> B2R x <= IZR n).
Proof.
  intros F B. apply Rabs_le_inv in B. destruct (Rle_lt_dec 0 (B2R x)) as [L|L].
  - pose proof (Zfloor_lb (B2R x)) as A. pose proof (Zfloor_ub (B2R x)) as U. assert (0 <= Zfloor (B2R x))%Z by (apply Zfloor_lub; exact L).
    assert (Zfloor (B2R x) < 2 ^ 31)%Z. { apply lt_IZR. change (IZR (2 ^ 31)) with 2147483648. lra. }
    exists (Zfloor (B2R x)). split; [apply trunc_real; auto; lra|]. split; [intros _; lra|]. split; [intros E; rewrite E in *; lra|lia].
  - exists (Zceil (B2R x)). assert (E : Btrunc x = Zceil (B2R x)).
    { apply eq_IZR. rewrite (Btrunc_correct 53 1024 emax1024 x). unfold round, F2R, scaled_mantissa, cexp, FIX_exp. cbn [Fnum Fexp Z.opp bpow]. rewrite !Rmult_1_r. f_equal.
      apply Ztrunc_ceil. lra. }
    pose proof (Zceil_ub (B2R x)) as A. pose proof (Zceil_lb (B2R x)) as U.
    assert (Z1 : (Zceil (B2R x) <= 0)%Z) by (apply Zceil_glb; lra).
    assert (Z2 : (- 2 ^ 31 <= Zceil (B2R x))%Z). { apply le_IZR. change (IZR (- 2 ^ 31)) with (-2147483648). lra. }
    split. { unfold d_trunc. rewrite F, E. unfold to_int. replace ((- 2 ^ 31 <=? Zceil (B2R x)) && (Zceil (B2R x) <? 2 ^ 31))%Z with true by lia. reflexivity. }
    split; [lia|]. split; [|lra]. intros Z0. rewrite Z0 in *. lra.
Qed.

(** The row of a position: the quotient is within a millionth of the exact one. *)
Lemma row_any (o x : double) (r : single) : is_finite o = true -> is_finite x = true -> is_finite r = true -> bpow radix2 (-126) <= B2R r -> near r o x ->
  exists n q, position_to_row o r x = Ok n /\ Rabs (q - (B2R x - B2R o) / B2R r) <= / 2000000 /\
    ((0 < n)%Z -> IZR n <= q < IZR n + 1) /\ (n = 0%Z -> -1 < q < 1) /\ ((n < 0)%Z -> q <= IZR n).
Proof.
  unfold near, d_value. intros Fo Fx Fr Hr N. pose proof (r_pos r Hr) as Pr. destruct (tiny r Hr) as [_ Ty]. pose proof (r_big r Fr) as Hb.
  destruct (widen_real r Fr) as [Fw Ew]. unfold position_to_row. set (q := B2R r) in *. set (t := B2R x - B2R o) in *.
  replace (2 ^ 30) with 1073741824 in N by lra.
  assert (Bt : Rabs t <= bpow radix2 158). { eapply Rle_trans; [exact N|]. change 158%Z with (30 + 128)%Z. rewrite bpow_plus. change (bpow radix2 30) with 1073741824. apply Rmult_le_compat_l; lra. }
  destruct (sub_real x o 158 Fx Fo) as [Fd Ed]; [lia|exact Bt|]. fold t in Ed. set (d := d_sub x o) in *.
  pose proof (CoordsFloat_proofs.err53 t) as Bd. rewrite <- Ed in Bd. rewrite CoordsFloat_proofs.u53 in *.
  assert (Nd : Rabs (B2R d - t) <= / 8000000 * q).
  { eapply Rle_trans; [exact Bd|]. pose proof (Rabs_pos t). lra. }
  assert (Q1 : Rabs (B2R d / q - t / q) <= / 8000000).
  { replace (B2R d / q - t / q) with ((B2R d - t) / q) by (field; lra). unfold Rdiv. rewrite Rabs_mult, (Rabs_pos_eq (/ q)) by (left; apply Rinv_0_lt_compat; lra).
    apply Rmult_le_reg_r with q; [lra|]. rewrite Rmult_assoc, Rinv_l by lra. lra. }
  assert (Q2 : Rabs (t / q) <= 1073741824).
  { unfold Rdiv. rewrite Rabs_mult, (Rabs_pos_eq (/ q)) by (left; apply Rinv_0_lt_compat; lra). apply Rmult_le_reg_r with q; [lra|]. rewrite Rmult_assoc, Rinv_l by lra. lra. }
  assert (Q3 : Rabs (B2R d / q) <= 1073741825). { apply Rabs_le. apply Rabs_le_inv in Q1, Q2. lra. }
  destruct (div_real d (widen r) 31 Fd) as [Fq Eq]; [rewrite Ew; fold q; lra|lia|rewrite Ew; fold q; change (bpow radix2 31) with 2147483648; lra|].
  rewrite Ew in Eq. fold q in Eq. pose proof (CoordsFloat_proofs.err53 (B2R d / q)) as Bq. rewrite <- Eq, CoordsFloat_proofs.u53 in Bq.
  assert (T : bpow radix2 (-1075) <= / 9007199254740992) by (change (/ 9007199254740992) with (bpow radix2 (-53)); apply bpow_le; lia).
  assert (NQ : Rabs (B2R (d_div d (widen r)) - t / q) <= / 2000000). { apply Rabs_le. pose proof (Rabs_pos (B2R d / q)). apply Rabs_le_inv in Bq, Q1. lra. }
  destruct (trunc_any (d_div d (widen r)) Fq) as (n & En & H1 & H2 & H3). { apply Rabs_le. apply Rabs_le_inv in NQ, Q2. lra. }
  exists n, (B2R (d_div d (widen r))). split; [exact En|]. split; [exact NQ|]. split; [|split; auto]. intros Hn. apply H1. exact Hn.
Qed.

(** Rows of the map. *)
Lemma row_inside (o x : double) (r : single) m : is_finite o = true -> is_finite x = true -> is_finite r = true -> bpow radix2 (-126) <= B2R r -> near r o x ->
  exists n, position_to_row o r x = Ok n /\ ((0 <= n < m)%Z -> (IZR n - 1 - / 1000000) * B2R r < B2R x - B2R o < (IZR n + 1 + / 1000000) * B2R r) /\ (well_within r m o x -> (0 <= n < m)%Z).
Proof.
  intros Fo Fx Fr Hr N. pose proof (r_pos r Hr) as Pr. destruct (row_any o x r Fo Fx Fr Hr N) as (n & q & E & Nq & H1 & H2 & H3). exists n. split; auto.
  unfold well_within, d_value. set (t := B2R x - B2R o) in *. apply Rabs_le_inv in Nq.
  assert (Et : t = t / B2R r * B2R r) by (field; lra). set (z := t / B2R r) in *. clearbody z. split.
  - intros Hn. assert (L : IZR n + 1 <= IZR m) by (rewrite <- plus_IZR; apply IZR_le; lia). assert (L0 : 0 <= IZR n) by (apply IZR_le; lia). rewrite Et.
    destruct (Z.eq_dec n 0) as [Z0|Z0].
    + specialize (H2 Z0). rewrite Z0 in *. split; apply Rmult_lt_compat_r; lra.
    + specialize (H1 ltac:(lia)). split; apply Rmult_lt_compat_r; lra.
  - intros [A B]. rewrite Et in A, B. apply Rmult_le_reg_r in A; [|lra]. apply Rmult_le_reg_r in B; [|lra]. 
    destruct (Z_lt_le_dec n 0) as [Hn|Hn]; [specialize (H3 Hn); pose proof (IZR_lt n 0 Hn); lra|]. split; auto.
    destruct (Z.eq_dec n 0) as [Z0|Z0].
    + apply lt_IZR. assert (0 < IZR m) by lra. rewrite Z0. lra.
    + specialize (H1 ltac:(lia)). apply lt_IZR. lra.
Qed.

Lemma dltb_false (x y : double) : is_finite x = true -> is_finite y = true -> Bltb x y = false <-> B2R y <= B2R x.
Proof. intros Fx Fy. rewrite Bltb_correct by assumption. destruct (Rlt_bool_spec (B2R x) (B2R y)); split; intros; try lra; try discriminate; reflexivity. Qed.

(** [ValidateBounds] on finite poses. *)
Lemma validate_spec lb ub s : box lb ub -> d_finite (d_x s) -> d_finite (d_y s) -> d_finite (d_theta s) ->
  d_validate lb ub s = true <-> B2R (d_x lb) <= B2R (d_x s) <= B2R (d_x ub) /\ B2R (d_y lb) <= B2R (d_y s) <= B2R (d_y ub) /\ B2R (d_theta lb) <= B2R (d_theta s) <= B2R (d_theta ub).
Proof.
  intros (A & B & C & D & E & F) X Y T. unfold d_validate.
  pose proof (dltb_false _ _ X A) as P1. pose proof (dltb_false _ _ D X) as P2. pose proof (dltb_false _ _ Y B) as P3. pose proof (dltb_false _ _ E Y) as P4.
  pose proof (dltb_false _ _ T C) as P5. pose proof (dltb_false _ _ F T) as P6.
  destruct (Bltb (d_x s) (d_x lb)); [cbn; split; [discriminate|intros K; exfalso; assert (true = false) by (apply P1; lra); discriminate]|].
  destruct (Bltb (d_x ub) (d_x s)); [cbn; split; [discriminate|intros K; exfalso; assert (true = false) by (apply P2; lra); discriminate]|].
  destruct (Bltb (d_y s) (d_y lb)); [cbn; split; [discriminate|intros K; exfalso; assert (true = false) by (apply P3; lra); discriminate]|].
  destruct (Bltb (d_y ub) (d_y s)); [cbn; split; [discriminate|intros K; exfalso; assert (true = false) by (apply P4; lra); discriminate]|].
  destruct (Bltb (d_theta s) (d_theta lb)); [cbn; split; [discriminate|intros K; exfalso; assert (true = false) by (apply P5; lra); discriminate]|].
  destruct (Bltb (d_theta ub) (d_theta s)); [cbn; split; [discriminate|intros K; exfalso; assert (true = false) by (apply P6; lra); discriminate]|].
  cbn. split; [intros _; tauto|reflexivity].
Qed.

Lemma sub_near (x o : double) : is_finite x = true -> is_finite o = true -> Rabs (B2R x) <= bpow radix2 1000 -> Rabs (B2R o) <= bpow radix2 1000 ->
  is_finite (d_sub x o) = true /\ (forall a b : double, B2R a <= B2R (d_sub x o) <= B2R b -> between (bpow radix2 (-53)) (B2R a) (B2R x - B2R o) (B2R b)) /\
  (forall a b : double, between 0 (B2R a) (B2R x - B2R o) (B2R b) -> B2R a <= B2R (d_sub x o) <= B2R b).
Proof.
  intros Fx Fo Bx Bo. destruct (sub_real x o 1001 Fx Fo) as (F & E); [lia| |].
  { apply Rabs_le_inv in Bx, Bo. apply Rabs_le. change 1001%Z with (1000 + 1)%Z. rewrite bpow_plus. change (bpow radix2 1) with 2. lra. }
  split; auto. split.
  - intros a b H. pose proof (plus53 x (Bopp o)) as P. rewrite B2R_Bopp in P. fold (B2R x - B2R o) in P. rewrite E in H. change u53 with (bpow radix2 (-53)) in P. apply Rabs_le_inv in P. unfold between. lra.
  - intros a b [H1 H2]. rewrite E. split; [apply round_ge_generic|apply round_le_generic]; auto with typeclass_instances; try apply generic_format_B2R; lra.
Qed.

Lemma state_valid_spec fuel f distance lb ub minSafe s : sane_frames f -> near_state f s -> box lb ub -> readable f distance -> is_finite minSafe = true ->
  exists b, d_state_valid (S fuel) f distance lb ub minSafe s = Ok b /\
    (b = true -> in_bounds (bpow radix2 (-53)) f lb ub s /\
      exists c d, (0 <= row c < d_rows f)%Z /\ (0 <= col c < d_columns f)%Z /\ at_cell f s c /\ distance c = Ok d /\ B2R minSafe <= reported f d) /\
    (b = false -> in_bounds 0 f lb ub s -> well_within (d_resolution f) (d_rows f) (fst (d_grid f)) (d_x s) -> well_within (d_resolution f) (d_columns f) (snd (d_grid f)) (d_y s) ->
      exists c d, (0 <= row c < d_rows f)%Z /\ (0 <= col c < d_columns f)%Z /\ at_cell f s c /\ distance c = Ok d /\ reported f d < B2R minSafe).
Proof.
  intros (Fr & Hr & Flx & Fly & Fgx & Fgy & Blx & Bly) (Fx & Fy & Ft & Bt & Nx & Ny & Bx & By) Hb Hd Fm. unfold d_value, d_finite in *.
  unfold d_state_valid. rewrite (wrap_same fuel (d_theta s) Ft Bt). cbn [bind].
  destruct (row_inside (fst (d_grid f)) (d_x s) (d_resolution f) (d_rows f) Fgx Fx Fr (proj1 Hr) Nx) as (r & Er & R1 & R2).
  destruct (row_inside (snd (d_grid f)) (d_y s) (d_resolution f) (d_columns f) Fgy Fy Fr (proj1 Hr) Ny) as (k & Ek & K1 & K2).
  unfold d_world_to_cell. rewrite Er, Ek. cbn [bind].
  destruct (sub_near (d_x s) (fst (d_local f)) Fx Flx Bx Blx) as (Fsx & X1 & X2). destruct (sub_near (d_y s) (snd (d_local f)) Fy Fly By Bly) as (Fsy & Y1 & Y2).
  set (lx := d_sub (d_x s) (fst (d_local f))) in *. set (ly := d_sub (d_y s) (snd (d_local f))) in *.
  pose proof (validate_spec lb ub (DPose lx ly (d_theta s)) Hb Fsx Fsy Ft) as V. cbn [d_x d_y d_theta] in V.
  destruct (d_inside f (Cell r k)) eqn:I; cbn [bind].
  - rewrite I. unfold d_inside in I. cbn [row col] in I. assert (Ir : (0 <= r < d_rows f)%Z) by lia. assert (Ik : (0 <= k < d_columns f)%Z) by lia.
    assert (AC : at_cell f s (Cell r k)) by (split; [apply (R1 Ir)|apply (K1 Ik)]).
    destruct (d_validate lb ub (DPose lx ly (d_theta s))) eqn:Ev; cbn [negb orb].
    + destruct (Hd (Cell r k) Ir Ik) as (d & Ed & Bd). rewrite Ed. cbn [bind]. eexists. split; [reflexivity|]. clear Ev. assert (Ev := proj1 V eq_refl).
      assert (Hr' : 0 < B2R (d_resolution f) <= bpow radix2 30) by (pose proof (bpow_gt_0 radix2 (-126)); change (bpow radix2 30) with 1073741824; lra).
      destruct (float_distance_real (d_resolution f) d Fr Hr' Bd) as (Ff & _). pose proof (sleb minSafe (float_distance (d_resolution f) d) Fm Ff) as S. split.
      * intros E. split; [split; [apply X1; tauto|split; [apply Y1; tauto|tauto]]|]. exists (Cell r k), d. do 4 (split; [assumption|]). now apply S.
      * intros E _ _ _. exists (Cell r k), d. do 4 (split; [assumption|]). unfold reported. apply Rnot_le_lt. intros L. apply S in L. congruence.
    + exists false. split; [reflexivity|]. split; [discriminate|]. intros _ (A & B & C) _ _. exfalso. assert (false = true) by (apply V; auto). discriminate.
  - exists false. split; [cbn; now rewrite orb_true_r|]. split; [discriminate|]. intros _ _ W1 W2. exfalso. specialize (R2 W1). specialize (K2 W2). unfold d_inside in I. cbn [row col] in I. lia.
Qed.
