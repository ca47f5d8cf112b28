(** Proofs about the costs of motions in floating point. *)
From Coq Require Import Reals ZArith Lra Lia.
From Flocq Require Import Core BinarySingleNaN Relative.
From Verif Require Import Base CoordsFloat_model StraightFloat_model ValidatorFloat_model ObstHeurFloat_model Bicycle_model CoordsFloat_proofs StraightFloat_proofs ValidatorFloat_proofs CompositeFloat_spec CompositeFloat_proofs RsFloat_proofs
  ObstHeurFloat_spec ObstHeurFloat_proofs PathCostFloat_proofs PathSampleFloat_proofs VoroCostFloat_model VoroCostFloat_spec.
From Coq Require Import ZifyBool ZifyNat ZifyN.
Local Open Scope R_scope.

Lemma diagonal_near r : is_finite r = true -> bpow radix2 (-100) <= B2R r <= bpow radix2 30 ->
  is_finite (d_diagonal r) = true /\ Rabs (B2R (d_diagonal r) - sqrt 2 * B2R r) <= bpow radix2 (-22) * (sqrt 2 * B2R r).
Proof.
  intros F B. destruct d_sqrt2_near as [Fa Na]. assert (S2 : 1 <= sqrt 2 <= 2). { pose proof (sqrt_sqrt 2 ltac:(lra)). pose proof (sqrt_pos 2). split; nra. }
  pose proof (bpow_gt_0 radix2 (-100)) as P. assert (P30 : 2 <= bpow radix2 30) by (change 2 with (bpow radix2 1); apply bpow_le; lia).
  destruct (constant_near _ r (sqrt 2) Fa ltac:(lra) Na F ltac:(lra)) as (Fc & _ & N). fold (d_diagonal r) in Fc, N. split; [exact Fc|]. apply Rle_trans with (1 := N).
  rewrite unit24. assert (Q : B2R r <= sqrt 2 * B2R r) by (rewrite <- (Rmult_1_l (B2R r)) at 1; apply Rmult_le_compat_r; lra).
  assert (T : bpow radix2 (-149) <= bpow radix2 (-23) * B2R r). { apply Rle_trans with (bpow radix2 (-23) * bpow radix2 (-100)); [rewrite <- bpow_plus; apply bpow_le; lia|apply Rmult_le_compat_l; [apply bpow_ge_0|lra]]. }
  assert (T' : bpow radix2 (-23) * B2R r <= bpow radix2 (-23) * (sqrt 2 * B2R r)) by (apply Rmult_le_compat_l; [apply bpow_ge_0|exact Q]).
  change (-22)%Z with (1 + -23)%Z. rewrite bpow_plus. change (bpow radix2 1) with 2. replace (2 * bpow radix2 (-24)) with (bpow radix2 (-23)) by (change (-23)%Z with (1 + -24)%Z; rewrite bpow_plus; reflexivity). lra.
Qed.

Section Loop.
Variables total step : double.
Hypothesis Ft : is_finite total = true.
Hypothesis Fs : is_finite step = true.
Notation T := (B2R total).
Notation S := (B2R step).
Hypothesis HS : bpow radix2 (-900) <= S <= bpow radix2 900.
Hypothesis HT : 0 <= T <= bpow radix2 40 * S.
Notation e := (err step).

Lemma loop_last field : costs field -> forall fuel len cost, is_finite len = true -> 0 <= B2R len -> T <= B2R len + INR fuel * (S / 2) ->
  exists c, d_voronoi_loop fuel field total step len cost = Ok c /\ ((T <= B2R len /\ c = cost) \/ (exists r, is_ratio r /\ field r = Ok c /\ T - (S + 2 * e) <= B2R r * T /\ 0 < T)).
Proof using Ft Fs HS HT.
  intros HF. destruct (grain total step HS HT) as (PS & Ee & _). induction fuel as [|k IH]; intros len cost Fl Pl Fu; cbn [d_voronoi_loop].
  - cbn [INR] in Fu. assert (NB : Bltb len total = false). { apply Bool.not_true_is_false. intros Y. apply dltb in Y; auto. lra. } rewrite NB. exists cost. split; [reflexivity|]. left. split; [lra|reflexivity].
  - destruct (Bltb len total) eqn:EL.
    2: { exists cost. split; [reflexivity|]. left. split; [|reflexivity]. destruct (Rle_lt_dec T (B2R len)) as [Y|Y]; [exact Y|]. apply dltb in Y; auto. congruence. }
    apply dltb in EL; auto. rewrite S_INR in Fu. destruct (regular total step Ft HS HT len Fl ltac:(lra) ltac:(lra)) as [Rr Nr]. destruct (advanced total step Fs HS HT len Fl ltac:(lra)) as [Fn Bn]. destruct (HF _ Rr) as (c & Ec & _). rewrite Ec. cbn [bind].
    destruct (IH (d_add len step) c Fn ltac:(lra) ltac:(lra)) as (x & E & [[Y ->]|Y]); (exists x || exists c); (split; [exact E|right]); [|exact Y]. exists (d_div len total). split; [exact Rr|]. split; [exact Ec|]. apply Rabs_le_inv in Nr. split; lra.
Qed.
End Loop.

Section Cost.
Variables (field : double -> res single) (forward reverse voronoi : double) (interp : single) (total : double).
Hypothesis HF : costs field.
Hypothesis Hf : factor forward.
Hypothesis Hr : factor reverse.
Hypothesis Hv : factor voronoi.
Hypothesis Fi : is_finite interp = true.
Notation I := (B2R interp).
Notation T := (B2R total).
Notation V := (B2R voronoi).
Hypothesis HI : bpow radix2 (-110) <= I <= bpow radix2 40.
Hypothesis Ft : is_finite total = true.
Hypothesis HT : 0 <= T <= bpow radix2 40 * I.

Lemma voronoi_near fuel : 2 * T <= INR fuel * I ->
  exists x c, d_voronoi_cost fuel field voronoi interp total = Ok x /\ is_finite x = true /\ 0 <= B2R x <= bpow radix2 441 /\ 0 <= B2R c <= 1 /\ Rabs (B2R x - V * (B2R c * I)) <= bpow radix2 (-23) * (V * (B2R c * I)) + bpow radix2 (-149) * (V + 1) /\
    ((T = 0 /\ B2R x = 0 /\ B2R c = 0) \/ (0 < T /\ exists r, is_ratio r /\ field r = Ok c /\ T - (1 + bpow radix2 (-11)) * I <= B2R r * T)).
Proof using HF Hv Fi HI Ft HT.
  intros Hfu. destruct Hv as [Fv Bv]. destruct (widen_real interp Fi) as [Fw Ew]. unfold d_voronoi_cost.
  assert (P110 : 0 < bpow radix2 (-110)) by apply bpow_gt_0.
  destruct (loop_last total (widen interp) Ft Fw) with (field := field) (fuel := fuel) (len := d_zero) (cost := s_zero) as (c & E & R); auto.
  { rewrite Ew. split; [apply Rle_trans with (2 := proj1 HI); apply bpow_le; lia|apply Rle_trans with (1 := proj2 HI); apply bpow_le; lia]. }
  { rewrite Ew. exact HT. }
  { change (B2R d_zero) with 0. lra. }
  { rewrite Ew. change (B2R d_zero) with 0. lra. }
  rewrite E. cbn [bind]. change (B2R d_zero) with 0 in R. rewrite Ew in R.
  assert (Gc : s_good c /\ 0 <= B2R c <= 1). { destruct R as [[_ ->]|(r & Rr & Er & _)]; [split; [apply good_zero|change (B2R s_zero) with 0; lra]|]. destruct (HF r Rr) as (c' & Ec & Fc & Bc). assert (c' = c) as -> by congruence. split; [split; [exact Fc|]|exact Bc]. rewrite p25. lra. }
  destruct Gc as [Gc Bc]. assert (P40 : bpow radix2 40 <= bpow radix2 70) by (apply bpow_le; lia). destruct (s_mul_near c interp Gc Fi ltac:(lra)) as (Fm & Bm & Nm). destruct (widen_real _ Fm) as [Fwm Ewm]. set (m := s_mul c interp) in *.
  assert (Bm' : 0 <= B2R m <= bpow radix2 40). { split; [lra|]. pose proof (mul_real c interp (proj1 Gc) Fi) as [_ Em]. { assert (Bx : 0 <= B2R c * I <= bpow radix2 40). { split; [apply Rmult_le_pos; lra|]. apply Rle_trans with (1 * I); [apply Rmult_le_compat_r; lra|lra]. } pose proof (rnd24_small (B2R c * I) 40 ltac:(lia)) as Q. rewrite (Rabs_pos_eq (B2R c * I)) in Q by lra. specialize (Q ltac:(lra)). destruct (Rlt_bool_spec (Rabs (rnd24 (B2R c * I))) (bpow radix2 128)); [assumption|discriminate]. }
    fold m in Em. rewrite Em. apply (PathCostFloat_proofs.r24_between 0 (bpow radix2 40)); [apply generic_format_0|apply format24_pow; lia|]. split; [apply Rmult_le_pos; lra|]. apply Rle_trans with (1 * I); [apply Rmult_le_compat_r; lra|lra]. }
  assert (BVm : 0 <= V * B2R m <= bpow radix2 440). { split; [apply Rmult_le_pos; lra|]. change 440%Z with (400 + 40)%Z. rewrite bpow_plus. apply Rmult_le_compat; lra. }
  destruct (dmul_real voronoi (widen m) 440 Fv Fwm ltac:(lia)) as [Fx Ex]; [rewrite Ewm, Rabs_pos_eq by lra; lra|]. rewrite Ewm in Ex. pose proof (CoordsFloat_proofs.err53 (V * B2R m)) as R1. rewrite <- Ex, (Rabs_pos_eq (V * B2R m)) in R1 by lra. set (x := d_mul voronoi (widen m)) in *.
  assert (Bx : 0 <= B2R x <= bpow radix2 441). { rewrite Ex. destruct (PathCostFloat_proofs.r53_between 0 (bpow radix2 440) (V * B2R m)) as [Q1 Q2]; [apply generic_format_0|apply format53_pow; lia|exact BVm|]. split; [exact Q1|]. apply Rle_trans with (1 := Q2). apply bpow_le. lia. }
  assert (NX : Rabs (B2R x - V * (B2R c * I)) <= bpow radix2 (-23) * (V * (B2R c * I)) + bpow radix2 (-149) * (V + 1)).
  { rewrite unit24 in Nm. set (w := B2R c * I) in *. assert (Pw : 0 <= w) by (unfold w; apply Rmult_le_pos; lra). apply Rabs_le_inv in Nm. apply Rabs_le_inv in R1.
    assert (D : Rabs (V * B2R m - V * w) <= V * (bpow radix2 (-24) * w + bpow radix2 (-150))). { replace (V * B2R m - V * w) with (V * (B2R m - w)) by ring. rewrite Rabs_mult, (Rabs_pos_eq V) by lra. apply Rmult_le_compat_l; [lra|apply Rabs_le; lra]. } apply Rabs_le_inv in D.
    set (z := V * w) in *. assert (Pz : 0 <= z) by (unfold z; apply Rmult_le_pos; lra). replace (V * (bpow radix2 (-24) * w + bpow radix2 (-150))) with (bpow radix2 (-24) * z + bpow radix2 (-150) * V) in D by (unfold z; ring).
    assert (E149 : bpow radix2 (-149) = 2 * bpow radix2 (-150)) by (change (-149)%Z with (1 + -150)%Z; rewrite bpow_plus; reflexivity). assert (T1 : 0 < bpow radix2 (-1075) <= bpow radix2 (-150)) by (split; [apply bpow_gt_0|apply bpow_le; lia]).
    change (bpow radix2 (-24)) with (/ 16777216) in D. change (bpow radix2 (-53)) with (/ 9007199254740992) in R1. change (bpow radix2 (-23)) with (/ 8388608). set (t := bpow radix2 (-150)) in *. assert (PV : 0 <= t * V) by (apply Rmult_le_pos; lra). rewrite E149. set (q := V * B2R m) in *. apply Rabs_le. split; lra. }
  exists x, c. split; [reflexivity|]. split; [exact Fx|]. split; [exact Bx|]. split; [exact Bc|]. split; [exact NX|].
  destruct R as [[Y ->]|(r & Rr & Er & Hrr & PT)].
  - left. change (B2R s_zero) with 0 in *. split; [lra|]. split; [|reflexivity]. assert (Em : B2R m = 0). { destruct (mul_real s_zero interp eq_refl Fi) as [_ Em]; change (B2R s_zero) with 0; rewrite Rmult_0_l, round_0 in * by auto with typeclass_instances; [rewrite Rabs_R0; apply bpow_gt_0|exact Em]. }
    rewrite Ex, Em, Rmult_0_r. apply round_0. auto with typeclass_instances.
  - right. split; [exact PT|]. exists r. split; [exact Rr|]. split; [exact Er|]. unfold err in Hrr. rewrite Ew in Hrr. replace (bpow radix2 (-11)) with (2 * bpow radix2 (-12)) by (change (-11)%Z with (1 + -12)%Z; rewrite bpow_plus; reflexivity). lra.
Qed.

(** The factor of the length for a direction. *)
Definition rate (dir : direction) : R := match dir with Forward => B2R forward | Backward => B2R reverse | NoMotion => 0 end.

Lemma steer_near fuel dir : 2 * T <= INR fuel * I ->
  exists x c, d_steer_cost fuel field forward reverse voronoi interp dir total = Ok x /\ is_finite x = true /\ 0 <= B2R x /\
    Rabs (B2R x - (rate dir * T + V * (B2R c * I))) <= bpow radix2 (-22) * (rate dir * T + V * (B2R c * I)) + bpow radix2 (-148) * (V + 1) /\
    ((T = 0 /\ B2R x = 0 /\ B2R c = 0) \/ (0 < T /\ exists r, is_ratio r /\ field r = Ok c /\ T - (1 + bpow radix2 (-11)) * I <= B2R r * T)).
Proof using HF Hf Hr Hv Fi HI Ft HT.
  intros Hfu. destruct (voronoi_near fuel Hfu) as (v & c & E & Fv & Bv & Bc & Nv & K). unfold d_steer_cost. rewrite E. cbn [bind].
  set (p := match dir with Forward => d_mul forward total | Backward => d_mul reverse total | NoMotion => d_zero end).
  assert (BT : 0 <= T <= bpow radix2 80). { split; [lra|]. apply Rle_trans with (1 := proj2 HT). change 80%Z with (40 + 40)%Z. rewrite bpow_plus. apply Rmult_le_compat_l; [apply bpow_ge_0|lra]. }
  assert (PP : is_finite p = true /\ 0 <= B2R p <= bpow radix2 480 /\ Rabs (B2R p - rate dir * T) <= bpow radix2 (-53) * (rate dir * T) + bpow radix2 (-1075) /\ 0 <= rate dir * T /\ (T = 0 -> B2R p = 0)).
  { assert (M : forall f, factor f -> is_finite (d_mul f total) = true /\ 0 <= B2R (d_mul f total) <= bpow radix2 480 /\ Rabs (B2R (d_mul f total) - B2R f * T) <= bpow radix2 (-53) * (B2R f * T) + bpow radix2 (-1075) /\ 0 <= B2R f * T /\ (T = 0 -> B2R (d_mul f total) = 0)).
    { intros f [Ff Bf]. assert (B : 0 <= B2R f * T <= bpow radix2 480). { split; [apply Rmult_le_pos; lra|]. change 480%Z with (400 + 80)%Z. rewrite bpow_plus. apply Rmult_le_compat; lra. }
      destruct (dmul_real f total 480 Ff Ft ltac:(lia)) as [F1 E1]; [rewrite Rabs_pos_eq by lra; lra|]. split; [exact F1|]. rewrite E1. split; [apply PathCostFloat_proofs.r53_between; [apply generic_format_0|apply format53_pow; lia|exact B]|]. split; [|split; [lra|intros ->; rewrite Rmult_0_r; apply round_0; auto with typeclass_instances]].
      pose proof (CoordsFloat_proofs.err53 (B2R f * T)) as R1. rewrite (Rabs_pos_eq (B2R f * T)) in R1 by lra. exact R1. }
    unfold p, rate. destruct dir; [apply M; exact Hf|apply M; exact Hr|]. split; [reflexivity|]. change (B2R d_zero) with 0. split; [split; [lra|apply bpow_ge_0]|]. rewrite Rmult_0_l, Rminus_0_r, Rabs_R0, Rmult_0_r. pose proof (bpow_ge_0 radix2 (-1075)). split; [lra|]. split; [lra|auto]. }
  destruct PP as (Fp & Bp & Np & Pr & Z0).
  assert (AZ : is_finite (d_add p d_zero) = true /\ B2R (d_add p d_zero) = B2R p). { destruct (add_real p d_zero 480 Fp eq_refl ltac:(lia)) as [F1 E1]; [change (B2R d_zero) with 0; rewrite Rplus_0_r, Rabs_pos_eq by lra; lra|]. split; [exact F1|]. rewrite E1. change (B2R d_zero) with 0. rewrite Rplus_0_r. apply rnd_double. }
  destruct AZ as [Fz Ez]. assert (BS : 0 <= B2R p + B2R v <= bpow radix2 481). { split; [lra|]. change 481%Z with (1 + 480)%Z. rewrite bpow_plus. change (bpow radix2 1) with 2. assert (bpow radix2 441 <= bpow radix2 480) by (apply bpow_le; lia). lra. }
  destruct (add_real (d_add p d_zero) v 481 Fz Fv ltac:(lia)) as [Fx Ex]; [rewrite Ez, Rabs_pos_eq by lra; lra|]. rewrite Ez in Ex. exists (d_add (d_add p d_zero) v), c. split; [reflexivity|]. split; [exact Fx|].
  split; [rewrite Ex; apply round_ge_generic; auto with typeclass_instances; [apply generic_format_0|lra]|]. split.
  - pose proof (CoordsFloat_proofs.err53 (B2R p + B2R v)) as R1. rewrite <- Ex, (Rabs_pos_eq (B2R p + B2R v)) in R1 by lra. apply Rabs_le_inv in R1. apply Rabs_le_inv in Np. apply Rabs_le_inv in Nv. destruct Hv as [_ BV]. assert (Pz : 0 <= V * (B2R c * I)) by (apply Rmult_le_pos; [lra|apply Rmult_le_pos; [lra|]]; pose proof (bpow_gt_0 radix2 (-110)); lra).
    set (a := rate dir * T) in *. set (z := V * (B2R c * I)) in *. assert (T1 : 0 < bpow radix2 (-1075) <= / 4 * bpow radix2 (-149)) by (split; [apply bpow_gt_0|change (/ 4) with (bpow radix2 (-2)); rewrite <- bpow_plus; apply bpow_le; lia]).
    replace (bpow radix2 (-148)) with (2 * bpow radix2 (-149)) by (change (-148)%Z with (1 + -149)%Z; rewrite bpow_plus; reflexivity). set (t := bpow radix2 (-149)) in *. assert (PV : 0 <= t * V) by (apply Rmult_le_pos; lra).
    change (bpow radix2 (-53)) with (/ 9007199254740992) in *. change (bpow radix2 (-23)) with (/ 8388608) in *. change (bpow radix2 (-22)) with (/ 4194304). apply Rabs_le. split; lra.
  - destruct K as [(Y & X & C)|K]; [left|right; exact K]. split; [exact Y|]. split; [|exact C]. rewrite Ex, (Z0 Y), X, Rplus_0_l. apply round_0. auto with typeclass_instances.
Qed.
End Cost.

Lemma motion_cost fuel field forward reverse voronoi resolution dir total : costs field -> factor forward -> factor reverse -> factor voronoi ->
  is_finite resolution = true -> bpow radix2 (-100) <= B2R resolution <= bpow radix2 30 -> is_finite total = true -> 0 <= B2R total <= bpow radix2 40 * B2R resolution ->
  2 * B2R total <= INR fuel * B2R resolution ->
  let I := B2R (d_diagonal resolution) in let T := B2R total in let V := B2R voronoi in
  let rate := match dir with Forward => B2R forward | Backward => B2R reverse | NoMotion => 0 end in
  Rabs (I - sqrt 2 * B2R resolution) <= bpow radix2 (-22) * (sqrt 2 * B2R resolution) /\
  exists x c, d_steer_cost fuel field forward reverse voronoi (d_diagonal resolution) dir total = Ok x /\ is_finite x = true /\ 0 <= B2R x /\
    Rabs (B2R x - (rate * T + V * (B2R c * I))) <= bpow radix2 (-22) * (rate * T + V * (B2R c * I)) + bpow radix2 (-148) * (V + 1) /\
    ((T = 0 /\ B2R x = 0 /\ B2R c = 0) \/ (0 < T /\ exists r, is_ratio r /\ field r = Ok c /\ T - (1 + bpow radix2 (-11)) * I <= B2R r * T)).
Proof.
  intros HF Hf Hr Hv Fr Br Ft HT Hfu I T V rt. destruct (diagonal_near resolution Fr Br) as [Fi Ni]. split; [exact Ni|]. fold I in Ni. pose proof (bpow_gt_0 radix2 (-100)) as P.
  assert (S2 : 1 + / 4 <= sqrt 2 <= 2). { pose proof (sqrt_sqrt 2 ltac:(lra)). pose proof (sqrt_pos 2). split; nra. }
  assert (Q : 1.25 * B2R resolution <= sqrt 2 * B2R resolution <= 2 * B2R resolution) by (split; apply Rmult_le_compat_r; lra). apply Rabs_le_inv in Ni. change (bpow radix2 (-22)) with (/ 4194304) in Ni.
  assert (BI : B2R resolution <= I <= 3 * B2R resolution) by lra. pose proof (bpow_ge_0 radix2 40). apply (steer_near field forward reverse voronoi (d_diagonal resolution) total HF Hf Hr Hv Fi); fold I; auto.
  - split; [apply Rle_trans with (bpow radix2 (-100)); [apply bpow_le; lia|lra]|]. apply Rle_trans with (4 * bpow radix2 30); [lra|]. change 4 with (bpow radix2 2). rewrite <- bpow_plus. apply bpow_le. lia.
  - split; [lra|]. apply Rle_trans with (1 := proj2 HT). apply Rmult_le_compat_l; lra.
  - apply Rle_trans with (1 := Hfu). apply Rmult_le_compat_l; [apply pos_INR|lra].
Qed.
