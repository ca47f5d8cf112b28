(** Proofs about the costs of Reeds-Shepp paths in floating point. *)
From Coq Require Import Reals ZArith Lra Lia.
From Flocq Require Import Core BinarySingleNaN Relative.
From Verif Require Import Base CoordsFloat_model StraightFloat_model ValidatorFloat_model ObstHeurFloat_model Bicycle_model Composite_model CoordsFloat_proofs StraightFloat_proofs ValidatorFloat_proofs CompositeFloat_spec CompositeFloat_proofs RsFloat_model RsFloat_spec RsFloat_proofs
  ObstHeurFloat_spec ObstHeurFloat_proofs PathCostFloat_proofs PathSampleFloat_proofs VoroCostFloat_model VoroCostFloat_spec VoroCostFloat_proofs RsCostFloat_model RsCostFloat_spec.
From Coq Require Import ZifyBool ZifyNat ZifyN.
Local Open Scope R_scope.

Notation t150 := (bpow radix2 (-150)).

Lemma r24_pos x : 0 <= x <= bpow radix2 120 -> 0 <= rnd24 x <= bpow radix2 120 /\ Rabs (rnd24 x - x) <= / 16777216 * x + t150.
Proof.
  intros B. split; [apply PathCostFloat_proofs.r24_between; [apply generic_format_0|apply format24_pow; lia|exact B]|].
  pose proof (CoordsFloat_proofs.err24 x) as R1. rewrite (Rabs_pos_eq x) in R1 by lra. exact R1.
Qed.

Lemma s_add_pos (x y : single) : is_finite x = true -> is_finite y = true -> 0 <= B2R x -> 0 <= B2R y -> B2R x + B2R y <= bpow radix2 120 ->
  is_finite (s_add x y) = true /\ 0 <= B2R (s_add x y) /\ Rabs (B2R (s_add x y) - (B2R x + B2R y)) <= / 16777216 * (B2R x + B2R y) + t150.
Proof.
  intros Fx Fy Px Py B. destruct (s_add_real x y 120 Fx Fy ltac:(lia)) as [F E]; [rewrite Rabs_pos_eq; lra|]. destruct (r24_pos (B2R x + B2R y) ltac:(lra)) as [B1 N]. rewrite E. auto. split; [exact F|]. split; [lra|exact N].
Qed.

Lemma s_mul_pos (x y : single) : is_finite x = true -> is_finite y = true -> 0 <= B2R x -> 0 <= B2R y -> B2R x * B2R y <= bpow radix2 120 ->
  is_finite (s_mul x y) = true /\ 0 <= B2R (s_mul x y) /\ Rabs (B2R (s_mul x y) - B2R x * B2R y) <= / 16777216 * (B2R x * B2R y) + t150.
Proof.
  intros Fx Fy Px Py B. assert (P : 0 <= B2R x * B2R y) by (apply Rmult_le_pos; lra). destruct (r24_pos (B2R x * B2R y) ltac:(lra)) as [B1 N].
  destruct (mul_real x y Fx Fy) as [F E].
  { pose proof (rnd24_small (B2R x * B2R y) 120 ltac:(lia)) as Q. rewrite (Rabs_pos_eq (B2R x * B2R y)) in Q by lra. specialize (Q ltac:(lra)). destruct (Rlt_bool_spec (Rabs (rnd24 (B2R x * B2R y))) (bpow radix2 128)); [assumption|discriminate]. }
  rewrite E. split; [exact F|]. split; [lra|exact N].
Qed.

Lemma narrow_pos (x : double) : is_finite x = true -> 0 <= B2R x <= bpow radix2 120 ->
  is_finite (narrow x) = true /\ 0 <= B2R (narrow x) <= bpow radix2 120 /\ Rabs (B2R (narrow x) - B2R x) <= / 16777216 * B2R x + t150.
Proof.
  intros F B. assert (P : bpow radix2 120 <= bpow radix2 127) by (apply bpow_le; lia). destruct (narrow_real x F) as [Fn E]; [rewrite Rabs_pos_eq; lra|]. destruct (r24_pos (B2R x) B) as [B1 N]. rewrite E. auto.
Qed.

Lemma direction_eqb_eq a b : direction_eqb a b = true <-> a = b.
Proof. destruct a, b; cbn; split; congruence. Qed.

Lemma tiny : 0 < bpow radix2 (-1075) <= / 1024 * t150 /\ 0 < bpow radix2 (-1070) <= / 1024 * t150.
Proof. change (/ 1024) with (bpow radix2 (-10)). rewrite <- bpow_plus. repeat split; try apply bpow_gt_0; apply bpow_le; lia. Qed.

Section Cost.
Variable radius : double.
Variables reverse forward switching : single.
Hypothesis Fr : is_finite radius = true.
Hypothesis Hr : 0 < B2R radius <= bpow radix2 30.
Hypothesis HR : rate24 reverse.
Hypothesis HF : rate24 forward.
Hypothesis HS : rate24 switching.
Notation RR := (B2R radius).
Notation Rv := (B2R reverse).
Notation Fw := (B2R forward).
Notation Sw := (B2R switching).

(** The cost from a motion on. *)
Definition rate_of (d : direction) : R := match d with Forward => Fw | Backward => Rv | NoMotion => 1 end.
Fixpoint price (prev : direction) (l : list d_motion) : R :=
  match l with
  | [] => 0
  | m :: r => rate_of (dm_dir m) * (B2R (dm_len m) * RR) + (if direction_eqb (dm_dir m) prev then 0 else Sw) + price (dm_dir m) r
  end.

Lemma price_expected l : (forall m, In m l -> dm_dir m <> NoMotion) -> forall m, In m l -> True -> expected radius reverse forward switching l = price (match l with [] => NoMotion | m :: _ => dm_dir m end) l.
Proof using.
  clear. intros H _ _ _. induction l as [|m r IH]; [unfold expected; cbn; lra|]. cbn [price]. specialize (IH (fun x Hx => H x (or_intror Hx))).
  pose proof (H m (or_introl eq_refl)) as Hm. assert (D : direction_eqb (dm_dir m) (dm_dir m) = true) by (apply direction_eqb_eq; reflexivity). rewrite D.
  unfold expected in *. cbn [along]. destruct r as [|n r].
  - cbn [along changes INR price]. destruct (dm_dir m); cbn; try lra. congruence.
  - cbn [price] in IH |- *. change (changes (m :: n :: r)) with (if direction_eqb (dm_dir m) (dm_dir n) then changes (n :: r) else Datatypes.S (changes (n :: r))).
    assert (D' : direction_eqb (dm_dir n) (dm_dir n) = true) by (apply direction_eqb_eq; reflexivity). rewrite D' in IH.
    assert (Sy : direction_eqb (dm_dir n) (dm_dir m) = direction_eqb (dm_dir m) (dm_dir n)) by (destruct (dm_dir n), (dm_dir m); reflexivity). rewrite Sy.
    assert (EC : INR (if direction_eqb (dm_dir m) (dm_dir n) then changes (n :: r) else Datatypes.S (changes (n :: r))) = (if direction_eqb (dm_dir m) (dm_dir n) then 0 else 1) + INR (changes (n :: r))) by (destruct (direction_eqb (dm_dir m) (dm_dir n)); [lra|rewrite S_INR; lra]).
    rewrite EC. set (k := INR (changes (n :: r))) in *. set (af := along Forward radius (n :: r)) in *. set (ab := along Backward radius (n :: r)) in *.
    assert (EM : Fw * (if direction_eqb (dm_dir m) Forward then B2R (dm_len m) * RR else 0) + Rv * (if direction_eqb (dm_dir m) Backward then B2R (dm_len m) * RR else 0) = rate_of (dm_dir m) * (B2R (dm_len m) * RR)) by (destruct (dm_dir m); cbn; try lra; congruence).
    destruct (direction_eqb (dm_dir m) (dm_dir n)); lra.
Qed.
Lemma price_pos l : (forall m, In m l -> 0 <= B2R (dm_len m)) -> forall prev, 0 <= price prev l.
Proof using Hr HR HF HS.
  destruct HR as [_ BR], HF as [_ BF], HS as [_ BS]. induction l as [|m r IH]; intros H prev; cbn [price]; [lra|]. specialize (IH (fun x Hx => H x (or_intror Hx)) (dm_dir m)). pose proof (H m (or_introl eq_refl)).
  assert (0 <= rate_of (dm_dir m) * (B2R (dm_len m) * RR)) by (apply Rmult_le_pos; [destruct (dm_dir m); cbn; lra|apply Rmult_le_pos; lra]). destruct (direction_eqb _ _); lra.
Qed.

(** The cost of one motion. *)
Lemma motion_near m prev : is_finite (dm_len m) = true -> 0 <= B2R (dm_len m) <= bpow radix2 30 -> dm_dir m <> NoMotion ->
  let c := narrow (d_mul (dm_len m) radius) in
  let c := match dm_dir m with Forward => s_mul c forward | Backward => s_mul c reverse | NoMotion => c end in
  let c := if direction_eqb (dm_dir m) prev then c else s_add c switching in
  let v := rate_of (dm_dir m) * (B2R (dm_len m) * RR) + (if direction_eqb (dm_dir m) prev then 0 else Sw) in
  is_finite c = true /\ 0 <= B2R c /\ 0 <= v <= bpow radix2 91 /\ Rabs (B2R c - v) <= 4 * / 16777216 * v + 4 * t150 * (1 + Fw + Rv).
Proof using Fr Hr HR HF HS.
  intros Fm Bm NM. destruct HR as [FR BR], HF as [FF BF], HS as [FS BS]. cbv zeta. set (z := B2R (dm_len m) * RR).
  assert (P60 : bpow radix2 60 = bpow radix2 30 * bpow radix2 30) by (rewrite <- bpow_plus; reflexivity). assert (P90 : bpow radix2 90 = bpow radix2 30 * bpow radix2 60) by (rewrite <- bpow_plus; reflexivity).
  assert (P120 : bpow radix2 120 = bpow radix2 30 * bpow radix2 90) by (rewrite <- bpow_plus; reflexivity). assert (P30 : 1000 <= bpow radix2 30) by (apply Rle_trans with (bpow radix2 10); [cbn; lra|apply bpow_le; lia]).
  assert (P91 : bpow radix2 91 = 2 * bpow radix2 90) by (change 91%Z with (1 + 90)%Z; rewrite bpow_plus; reflexivity).
  assert (I60 : 0 < bpow radix2 60) by apply bpow_gt_0. assert (I90 : 0 < bpow radix2 90) by apply bpow_gt_0.
  assert (L60 : bpow radix2 30 <= bpow radix2 60) by (apply bpow_le; lia). assert (L90 : bpow radix2 60 <= bpow radix2 90) by (apply bpow_le; lia). assert (L100 : 1000 * bpow radix2 90 <= bpow radix2 120) by (rewrite P120; apply Rmult_le_compat_r; lra).
  assert (Bz : 0 <= z <= bpow radix2 60). { unfold z. split; [apply Rmult_le_pos; lra|]. rewrite P60. apply Rmult_le_compat; lra. }
  destruct (dmul_real (dm_len m) radius 60 Fm Fr ltac:(lia)) as [F0 E0]; [fold z; rewrite Rabs_pos_eq; lra|]. fold z in E0. set (y0 := d_mul (dm_len m) radius) in *.
  pose proof (CoordsFloat_proofs.err53 z) as R0. rewrite <- E0, (Rabs_pos_eq z) in R0 by lra. assert (B0 : 0 <= B2R y0 <= bpow radix2 60) by (rewrite E0; apply PathCostFloat_proofs.r53_between; [apply generic_format_0|apply format53_pow; lia|exact Bz]).
  destruct (narrow_pos y0 F0 ltac:(lra)) as (F1 & B1 & R1). set (y1 := narrow y0) in *. destruct tiny as [T1 _]. set (t := t150) in *. change (bpow radix2 (-53)) with (/ 9007199254740992) in R0.
  apply Rabs_le_inv in R0. apply Rabs_le_inv in R1. assert (N1 : Rabs (B2R y1 - z) <= 1.01 * / 16777216 * z + 1.01 * t) by (apply Rabs_le; lra).
  assert (t1 : t <= 1). { change 1 with (bpow radix2 0). apply bpow_le. lia. }
  assert (B1' : B2R y1 <= 2 * bpow radix2 60) by lra.
  assert (M : forall f, is_finite f = true -> 0 <= B2R f <= bpow radix2 30 -> B2R f = Fw \/ B2R f = Rv ->
    is_finite (s_mul y1 f) = true /\ 0 <= B2R (s_mul y1 f) /\ 0 <= B2R f * z <= bpow radix2 90 /\ Rabs (B2R (s_mul y1 f) - B2R f * z) <= 2.1 * / 16777216 * (B2R f * z) + 1.1 * t * (1 + Fw + Rv)).
  { intros f Ff Bf Of. assert (Bw : 0 <= B2R f * z <= bpow radix2 90). { split; [apply Rmult_le_pos; lra|]. rewrite P90. apply Rmult_le_compat; lra. }
    assert (By : 0 <= B2R y1 * B2R f <= 2 * bpow radix2 90). { split; [apply Rmult_le_pos; lra|]. replace (2 * bpow radix2 90) with (2 * bpow radix2 60 * bpow radix2 30) by (rewrite P90; ring). apply Rmult_le_compat; lra. }
    destruct (s_mul_pos y1 f F1 Ff ltac:(lra) ltac:(lra) ltac:(lra)) as (F2 & B2 & R2). fold t in R2. split; [exact F2|]. split; [exact B2|]. split; [exact Bw|].
    assert (D : Rabs (B2R y1 * B2R f - B2R f * z) <= 1.01 * / 16777216 * (B2R f * z) + 1.01 * (t * B2R f)). { replace (B2R y1 * B2R f - B2R f * z) with (B2R f * (B2R y1 - z)) by ring. rewrite Rabs_mult, (Rabs_pos_eq (B2R f)) by lra. replace (1.01 * / 16777216 * (B2R f * z) + 1.01 * (t * B2R f)) with (B2R f * (1.01 * / 16777216 * z + 1.01 * t)) by ring. apply Rmult_le_compat_l; [lra|exact N1]. }
    set (w := B2R f * z) in *. set (y := B2R y1 * B2R f) in *. apply Rabs_le_inv in D. apply Rabs_le_inv in R2.
    assert (TF : 0 <= t * Fw) by (apply Rmult_le_pos; lra). assert (TR : 0 <= t * Rv) by (apply Rmult_le_pos; lra). assert (Tf : t * B2R f <= t * Fw + t * Rv) by (destruct Of as [-> | ->]; lra). replace (1.1 * t * (1 + Fw + Rv)) with (1.1 * t + 1.1 * (t * Fw) + 1.1 * (t * Rv)) by ring. assert (T2 : 0 <= t * B2R f) by (apply Rmult_le_pos; lra).
    apply Rabs_le. split; lra. }
  set (y2 := match dm_dir m with Forward => s_mul y1 forward | Backward => s_mul y1 reverse | NoMotion => y1 end). set (w := rate_of (dm_dir m) * z).
  assert (M' : is_finite y2 = true /\ 0 <= B2R y2 /\ 0 <= w <= bpow radix2 90 /\ Rabs (B2R y2 - w) <= 2.1 * / 16777216 * w + 1.1 * t * (1 + Fw + Rv)).
  { unfold y2, w. destruct (dm_dir m); [apply (M forward); auto|apply (M reverse); auto|congruence]. }
  destruct M' as (F2 & B2 & Bw & N2). assert (TT : 0 <= t * Fw /\ 0 <= t * Rv) by (split; apply Rmult_le_pos; lra).
  replace (1.1 * t * (1 + Fw + Rv)) with (1.1 * t + 1.1 * (t * Fw) + 1.1 * (t * Rv)) in N2 by ring. replace (4 * t * (1 + Fw + Rv)) with (4 * t + 4 * (t * Fw) + 4 * (t * Rv)) by ring. apply Rabs_le_inv in N2.
  destruct (direction_eqb (dm_dir m) prev).
  - split; [exact F2|]. split; [exact B2|]. rewrite Rplus_0_r. split; [lra|]. apply Rabs_le. split; lra.
  - assert (TB : t * Fw <= bpow radix2 30 /\ t * Rv <= bpow radix2 30). { split; (apply Rle_trans with (1 * bpow radix2 30); [apply Rmult_le_compat; lra|lra]). }
    destruct (s_add_pos y2 switching F2 FS B2 ltac:(lra) ltac:(lra)) as (F3 & B3 & R3). fold t in R3. split; [exact F3|]. split; [exact B3|]. split; [lra|]. apply Rabs_le_inv in R3. apply Rabs_le. split; lra.
Qed.

Lemma loop_near l : (forall m, In m l -> is_finite (dm_len m) = true /\ 0 <= B2R (dm_len m) <= bpow radix2 30 /\ dm_dir m <> NoMotion) ->
  forall n prev cost C, (n + length l <= 5)%nat -> is_finite cost = true -> 0 <= B2R cost -> 0 <= C <= INR n * bpow radix2 91 ->
  let a := (4 + 2 * INR n) * / 16777216 in let D := t150 * (1 + Fw + Rv) in
  Rabs (B2R cost - C) <= a * C + INR n * (8 * D) ->
  let x := s_cost_loop radius reverse forward switching l prev cost in
  is_finite x = true /\ 0 <= B2R x /\ Rabs (B2R x - (C + price prev l)) <= 14 * / 16777216 * (C + price prev l) + 40 * D.
Proof using Fr Hr HR HF HS.
  assert (PD : 0 <= t150 * (1 + Fw + Rv) <= bpow radix2 30). { destruct HR as [_ BR], HF as [_ BF]. split; [apply Rmult_le_pos; [apply bpow_ge_0|lra]|]. apply Rle_trans with (/ 1024 * (1 + Fw + Rv)); [apply Rmult_le_compat_r; [lra|]; change (/ 1024) with (bpow radix2 (-10)); apply bpow_le; lia|]. assert (1 <= bpow radix2 30) by (change 1 with (bpow radix2 0); apply bpow_le; lia). lra. }
  induction l as [|m r IH]; intros H n prev cost C Hn Fc Pc BC a D N x.
  - cbn [s_cost_loop price] in *. subst x. rewrite Rplus_0_r. split; [exact Fc|]. split; [exact Pc|]. assert (Nn : 0 <= INR n <= 5). { split; [apply pos_INR|]. replace 5 with (INR 5) by (cbn; lra). apply le_INR. cbn [length] in Hn. lia. }
    fold D in PD. apply Rle_trans with (1 := N). assert (a * C <= 14 * / 16777216 * C) by (apply Rmult_le_compat_r; [lra|unfold a; lra]). assert (INR n * (8 * D) <= 5 * (8 * D)) by (apply Rmult_le_compat_r; lra). lra.
  - cbn [s_cost_loop price length] in *. destruct (H m (or_introl eq_refl)) as (Fm & Bm & NM). pose proof (motion_near m prev Fm Bm NM) as Q. cbv zeta in Q.
    set (v := rate_of (dm_dir m) * (B2R (dm_len m) * RR) + (if direction_eqb (dm_dir m) prev then 0 else Sw)) in *.
    match type of Q with is_finite ?z = true /\ _ => set (c := z) in * end. destruct Q as (F1 & B1 & Bv & N1). replace (4 * t150 * (1 + Fw + Rv)) with (4 * D) in N1 by (unfold D; ring). fold D in PD.
    assert (Nn : 0 <= INR n <= 4). { split; [apply pos_INR|]. replace 4 with (INR 4) by (cbn; lra). apply le_INR. lia. }
    assert (A1 : 4 * / 16777216 <= a <= 12 * / 16777216) by (unfold a; lra). assert (AC : 0 <= a * C <= 12 * / 16777216 * C) by (split; [apply Rmult_le_pos; lra|apply Rmult_le_compat_r; lra]). assert (AV : 4 * / 16777216 * v <= a * v) by (apply Rmult_le_compat_r; lra).
    assert (ND : 0 <= INR n * (8 * D) <= 32 * D) by (split; [apply Rmult_le_pos; lra|]; replace (32 * D) with (4 * (8 * D)) by ring; apply Rmult_le_compat_r; lra).
    assert (CB : C <= 4 * bpow radix2 91) by (apply Rle_trans with (1 := proj2 BC); apply Rmult_le_compat_r; [apply bpow_ge_0|lra]).
    assert (P91 : bpow radix2 30 <= bpow radix2 91) by (apply bpow_le; lia). assert (P120 : 1024 * bpow radix2 91 <= bpow radix2 120) by (change 1024 with (bpow radix2 10); rewrite <- bpow_plus; apply bpow_le; lia).
    apply Rabs_le_inv in N. apply Rabs_le_inv in N1. destruct (s_add_pos cost c Fc F1 Pc B1 ltac:(lra)) as (F2 & B2 & R2). apply Rabs_le_inv in R2.
    assert (TD : 0 < t150 <= D). { split; [apply bpow_gt_0|]. unfold D. rewrite <- (Rmult_1_r t150) at 1. destruct HR as [_ BR], HF as [_ BF]. apply Rmult_le_compat_l; [apply bpow_ge_0|lra]. }
    specialize (IH (fun x Hx => H x (or_intror Hx)) (Datatypes.S n) (dm_dir m) (s_add cost c) (C + v)). rewrite S_INR in IH. subst x. rewrite <- Rplus_assoc. apply IH; [lia|exact F2|exact B2|lra|].
    replace ((4 + 2 * (INR n + 1)) * / 16777216 * (C + v)) with (a * C + a * v + 2 * / 16777216 * (C + v)) by (unfold a; field). replace ((INR n + 1) * (8 * (t150 * (1 + Fw + Rv)))) with (INR n * (8 * D) + 8 * D) by (unfold D; ring).
    apply Rabs_le. split; lra.
Qed.

Lemma driven_along l : (forall m, In m l -> dm_dir m <> NoMotion) -> driven radius l = along Forward radius l + along Backward radius l.
Proof using. clear. induction l as [|m r IH]; intros H; cbn; [lra|]. rewrite IH by (intros x Hx; apply H; right; exact Hx). pose proof (H m (or_introl eq_refl)). destruct (dm_dir m); cbn; try lra. congruence. Qed.

Lemma haze_low x : 0 <= x -> 14 * / 16777216 * x + 40 * (t150 * (1 + Fw + Rv)) <= haze reverse forward x.
Proof using HR HF.
  intros P. unfold haze. destruct HR as [_ BR], HF as [_ BF]. change (bpow radix2 (-20)) with (/ 1048576). assert (E : bpow radix2 (-140) = 1024 * t150) by (change 1024 with (bpow radix2 10); rewrite <- bpow_plus; reflexivity). rewrite E.
  assert (0 <= t150 * (1 + Fw + Rv)) by (apply Rmult_le_pos; [apply bpow_ge_0|lra]). lra.
Qed.

Lemma expected_pos l : drivable radius l -> 0 <= expected radius reverse forward switching l.
Proof using Fr Hr HR HF HS.
  intros (_ & _ & Hl & H). destruct l as [|m r]; [cbn in Hl; lia|]. rewrite (price_expected (m :: r) (fun x Hx => proj2 (proj2 (H x Hx))) m (or_introl eq_refl) I). apply price_pos. intros x Hx. apply H. exact Hx.
Qed.

Lemma cost_near l : drivable radius l -> (shortcut reverse switching -> Fw = 1) ->
  let x := s_cost radius reverse forward switching l in let e := expected radius reverse forward switching l in
  is_finite x = true /\ 0 <= B2R x /\ 0 <= e /\ Rabs (B2R x - e) <= haze reverse forward e.
Proof using Fr Hr HR HF HS.
  intros D Sh x e. pose proof (expected_pos l D) as Pe. fold e in Pe. destruct D as (_ & _ & Hl & H). destruct l as [|m r]; [cbn in Hl; lia|]. subst x. cbn [s_cost]. set (l := m :: r) in *.
  pose proof ObstHeurFloat_proofs.one_real as [F1 E1]. pose proof zero_real as [F0 E0]. pose proof HR as [FR BR]. pose proof HF as [FF BF]. pose proof HS as [FS BS].
  destruct (Beqb reverse s_one && Beqb switching s_zero) eqn:EB.
  - apply andb_prop in EB. destruct EB as [Q1 Q2]. rewrite Beqb_correct, E1 in Q1 by auto. rewrite Beqb_correct, E0 in Q2 by auto. assert (X1 : Rv = 1) by (destruct (Req_bool_spec Rv 1); [assumption|discriminate]). assert (X2 : Sw = 0) by (destruct (Req_bool_spec Sw 0); [assumption|discriminate]).
    assert (X3 : Fw = 1) by (apply Sh; split; assumption). assert (Ee : e = driven radius l). { unfold e, expected. rewrite X1, X2, X3, driven_along by (intros y Hy; apply H; exact Hy). lra. }
    assert (U : usable radius l). { assert (P4 : bpow radix2 30 <= bpow radix2 400) by (apply bpow_le; lia). split; [exact Fr|]. split; [lra|]. split; [lia|]. intros y Hy. destruct (H y Hy) as (A & B & C). split; [exact A|]. split; [lra|exact C]. }
    destruct (length_near radius l U) as (FL & BL & NL). fold (d_rs_length radius l). set (L := d_rs_length radius l) in *. assert (NL' : Rabs (B2R L - driven radius l) <= blur (driven radius l)).
    { rewrite blur_units. destruct NonHolFloat_proofs.small_units as (_ & _ & U3 & _ & U5). assert (0 <= StraightFloat_proofs.u53 * driven radius l) by (apply Rmult_le_pos; [lra|rewrite <- Ee; exact Pe]). lra. }
    clear NL. rewrite <- Ee in NL'. unfold blur in NL'. assert (BE : e <= 5 * bpow radix2 60).
    { rewrite Ee. assert (G : forall k : list d_motion, (forall y, In y k -> 0 <= B2R (dm_len y) <= bpow radix2 30) -> driven radius k <= INR (length k) * bpow radix2 60).
      { induction k as [|y k IH]; intros Hk; cbn [driven length]; [cbn; lra|]. rewrite S_INR. specialize (IH (fun z Hz => Hk z (or_intror Hz))). pose proof (Hk y (or_introl eq_refl)). assert (B2R (dm_len y) * RR <= bpow radix2 60) by (change 60%Z with (30 + 30)%Z; rewrite bpow_plus; apply Rmult_le_compat; lra). lra. }
      specialize (G l (fun y Hy => proj1 (proj2 (H y Hy)))). apply Rle_trans with (1 := G). apply Rmult_le_compat_r; [apply bpow_ge_0|]. replace 5 with (INR 5) by (cbn; lra). apply le_INR. lia. }
    change (bpow radix2 (-47)) with (/ 140737488355328) in NL'. destruct tiny as [_ T1]. apply Rabs_le_inv in NL'. assert (t1 : t150 <= 1) by (change 1 with (bpow radix2 0); apply bpow_le; lia). assert (P120 : 1024 * bpow radix2 60 <= bpow radix2 120) by (change 1024 with (bpow radix2 10); rewrite <- bpow_plus; apply bpow_le; lia). assert (1 <= bpow radix2 60) by (change 1 with (bpow radix2 0); apply bpow_le; lia).
    assert (PL : 0 <= B2R L) by lra. destruct (narrow_pos L FL ltac:(lra)) as (Fn & Bn & Nn). split; [exact Fn|]. split; [lra|]. split; [exact Pe|]. apply Rle_trans with (2 := haze_low e Pe). rewrite X1, X3. apply Rabs_le_inv in Nn. apply Rabs_le. split; lra.
  - assert (Ee : e = 0 + price (dm_dir m) l) by (unfold e; rewrite (price_expected l (fun x Hx => proj2 (proj2 (H x Hx))) m (or_introl eq_refl) I); unfold l; lra).
    destruct (loop_near l H 0 (dm_dir m) s_zero 0) as (Fx & Bx & Nx); [lia|exact F0|rewrite E0; lra|cbn; lra|rewrite E0, Rminus_0_r, Rabs_R0; cbn; lra|]. split; [exact Fx|]. split; [exact Bx|]. split; [exact Pe|]. rewrite <- Ee in Nx. apply Rle_trans with (1 := Nx). apply haze_low. exact Pe.
Qed.
End Cost.

(** The choice among paths. *)
Section Choice.
Variable radius : double.
Variables reverse forward switching : single.
Notation cost := (s_cost radius reverse forward switching).

Lemma chosen l : (forall p, In p l -> is_finite (cost p) = true) -> forall best path,
  (is_finite best = true \/ best = s_infinity) ->
  (match path with Some p => cost p = best /\ is_finite best = true | None => best = s_infinity end) ->
  let out := s_optimal_loop radius reverse forward switching l best path in
  (l = [] /\ out = path) \/
  (exists p, out = Some p /\ (In p l \/ path = Some p) /\ is_finite (cost p) = true /\ (forall q, In q l -> B2R (cost p) <= B2R (cost q)) /\ (is_finite best = true -> B2R (cost p) <= B2R best)).
Proof using.
  induction l as [|p r IH]; intros H best path Hb Hp out; [left; split; reflexivity|]. right. subst out. cbn [s_optimal_loop]. pose proof (H p (or_introl eq_refl)) as Fp. specialize (IH (fun x Hx => H x (or_intror Hx))).
  destruct (Bltb (cost p) best) eqn:EL.
  - destruct (IH (cost p) (Some p) (or_introl Fp) (conj eq_refl Fp)) as [[-> E]|(q & E & I & Fq & M & N)].
    + exists p. rewrite E. split; [reflexivity|]. split; [left; left; reflexivity|]. split; [exact Fp|]. split; [intros q [<- |[]]; lra|]. intros Fb. apply sltb in EL; auto. lra.
    + exists q. split; [exact E|]. specialize (N Fp). split; [destruct I as [I|I]; [left; right; exact I|injection I as <-; left; left; reflexivity]|]. split; [exact Fq|]. split; [intros x [<- |Hx]; [exact N|apply M; exact Hx]|]. intros Fb. apply sltb in EL; auto. lra.
  - destruct path as [b|]; [destruct Hp as [Eb Fb]|].
    + assert (Lb : B2R best <= B2R (cost p)). { destruct (Rle_lt_dec (B2R best) (B2R (cost p))) as [Y|Y]; [exact Y|]. apply sltb in Y; auto. congruence. }
      destruct (IH best (Some b) Hb (conj Eb Fb)) as [[-> E]|(q & E & I & Fq & M & N)].
      * exists b. rewrite E. split; [reflexivity|]. split; [right; reflexivity|]. rewrite Eb. split; [exact Fb|]. split; [intros q [<- |[]]; exact Lb|]. intros _. lra.
      * exists q. split; [exact E|]. split; [destruct I as [I|I]; [left; right; exact I|right; exact I]|]. split; [exact Fq|]. split; [intros x [<- |Hx]; [specialize (N Fb); lra|apply M; exact Hx]|exact N].
    + exfalso. subst best. revert EL Fp. generalize (cost p). intros c. destruct c as [[]|[]| |[] ? ? ?]; cbn; discriminate.
Qed.

Lemma optimal_near l : rate24 reverse -> rate24 forward -> rate24 switching -> (shortcut reverse switching -> B2R forward = 1) -> l <> [] -> (forall p, In p l -> drivable radius p) ->
  exists p, s_optimal radius reverse forward switching l = Some p /\ In p l /\
  let e := expected radius reverse forward switching in forall q, In q l -> e p <= e q + 3 * haze reverse forward (e q).
Proof using.
  intros HR HF HS Sh NE H. assert (N : forall p, In p l -> is_finite (cost p) = true /\ 0 <= B2R (cost p) /\ 0 <= expected radius reverse forward switching p /\ Rabs (B2R (cost p) - expected radius reverse forward switching p) <= haze reverse forward (expected radius reverse forward switching p)).
  { intros p Hp. pose proof (H p Hp) as D. destruct D as (F1 & B1 & _). exact (cost_near radius reverse forward switching F1 B1 HR HF HS p (H p Hp) Sh). }
  destruct (chosen l (fun p Hp => proj1 (N p Hp)) s_infinity None (or_intror eq_refl) eq_refl) as [[E _]|(p & E & I & _ & M & _)]; [contradiction|]. destruct I as [I|I]; [|discriminate]. exists p. split; [exact E|]. split; [exact I|]. intros e q Hq. unfold e in *.
  specialize (M q Hq). destruct (N p I) as (_ & _ & Pp & Np). destruct (N q Hq) as (_ & _ & Pq & Nq). set (ep := expected radius reverse forward switching p) in *. set (eq := expected radius reverse forward switching q) in *. unfold haze in *. set (t := bpow radix2 (-140) * (1 + B2R forward + B2R reverse)) in *.
  assert (Pt : 0 <= t). { unfold t. destruct HR as [_ ?], HF as [_ ?]. apply Rmult_le_pos; [apply bpow_ge_0|lra]. }
  change (bpow radix2 (-20)) with (/ 1048576) in *. apply Rabs_le_inv in Np. apply Rabs_le_inv in Nq. lra.
Qed.
End Choice.

Lemma child_near fuel field forward reverse switching voronoi resolution radius l : costs field ->
  rate24 (narrow reverse) -> rate24 (narrow forward) -> rate24 (narrow switching) -> (shortcut (narrow reverse) (narrow switching) -> B2R (narrow forward) = 1) -> factor voronoi -> drivable radius l ->
  is_finite resolution = true -> bpow radix2 (-100) <= B2R resolution <= bpow radix2 30 ->
  let T := B2R (d_rs_length radius l) in T <= bpow radix2 40 * B2R resolution -> 2 * T <= INR fuel * B2R resolution ->
  let I := B2R (d_diagonal resolution) in let V := B2R voronoi in let e := expected radius (narrow reverse) (narrow forward) (narrow switching) l in
  exists x c, d_rs_child_cost fuel field forward reverse switching voronoi (d_diagonal resolution) radius l = Ok x /\ is_finite x = true /\ 0 <= B2R x /\
    Rabs (B2R x - (e + V * (B2R c * I))) <= bpow radix2 (-19) * (e + V * (B2R c * I)) + bpow radix2 (-139) * (1 + B2R (narrow forward) + B2R (narrow reverse) + V) /\
    ((T = 0 /\ B2R c = 0) \/ (0 < T /\ exists r, is_ratio r /\ field r = Ok c /\ T - (1 + bpow radix2 (-11)) * I <= B2R r * T)).
Proof.
  intros HC HR HF HS Sh Hv D Fr Br T HT Hfu I V e. destruct (diagonal_near resolution Fr Br) as [Fi Ni]. fold I in Ni. pose proof (bpow_gt_0 radix2 (-100)) as P.
  assert (S2 : 1 + / 4 <= sqrt 2 <= 2). { pose proof (sqrt_sqrt 2 ltac:(lra)). pose proof (sqrt_pos 2). split; nra. }
  assert (Q : 1.25 * B2R resolution <= sqrt 2 * B2R resolution <= 2 * B2R resolution) by (split; apply Rmult_le_compat_r; lra). apply Rabs_le_inv in Ni. change (bpow radix2 (-22)) with (/ 4194304) in Ni.
  assert (BI : B2R resolution <= I <= 3 * B2R resolution) by lra. pose proof (bpow_ge_0 radix2 40) as P40.
  assert (U : usable radius l). { destruct D as (A & B & Hl & H). assert (P4 : bpow radix2 30 <= bpow radix2 400) by (apply bpow_le; lia). split; [exact A|]. split; [lra|]. split; [lia|]. intros y Hy. destruct (H y Hy) as (Fy & By & C). split; [exact Fy|]. split; [lra|exact C]. }
  destruct (length_near radius l U) as (FL & BL & _). fold T in BL. pose proof D as (FR & BR & _).
  destruct (cost_near radius _ _ _ FR BR HR HF HS l D Sh) as (Fc & Bc & Pe & Nc). fold e in Pe, Nc.
  destruct (voronoi_near field voronoi (d_diagonal resolution) (d_rs_length radius l) HC Hv Fi) with (fuel := fuel) as (v & c & E & Fv & Bv & Bcc & Nv & K); fold I; fold T.
  - split; [apply Rle_trans with (bpow radix2 (-100)); [apply bpow_le; lia|lra]|]. apply Rle_trans with (4 * bpow radix2 30); [lra|]. change 4 with (bpow radix2 2). rewrite <- bpow_plus. apply bpow_le. lia.
  - exact FL.
  - split; [lra|]. apply Rle_trans with (1 := HT). apply Rmult_le_compat_l; lra.
  - apply Rle_trans with (1 := Hfu). apply Rmult_le_compat_l; [apply pos_INR|lra].
  - fold I T V in Nv, K. unfold d_rs_child_cost. rewrite E. cbn [bind]. set (s := s_cost radius (narrow reverse) (narrow forward) (narrow switching) l) in *. destruct (widen_real s Fc) as [Fw Ew].
    assert (Bs : B2R s <= bpow radix2 128) by (apply Rlt_le; apply Rle_lt_trans with (1 := Rle_abs _); apply abs_B2R_lt_emax).
    assert (P442 : bpow radix2 442 = 2 * bpow radix2 441) by (change 442%Z with (1 + 441)%Z; rewrite bpow_plus; reflexivity). assert (P128 : bpow radix2 128 <= bpow radix2 441) by (apply bpow_le; lia).
    destruct (add_real (widen s) v 442 Fw Fv ltac:(lia)) as [Fx Ex]; [rewrite Ew, Rabs_pos_eq; lra|]. rewrite Ew in Ex. exists (d_add (widen s) v), c. split; [reflexivity|]. split; [exact Fx|].
    split; [rewrite Ex; apply round_ge_generic; auto with typeclass_instances; [apply generic_format_0|lra]|]. split.
    + pose proof (CoordsFloat_proofs.err53 (B2R s + B2R v)) as R1. rewrite <- Ex, (Rabs_pos_eq (B2R s + B2R v)) in R1 by lra. apply Rabs_le_inv in R1. apply Rabs_le_inv in Nc. apply Rabs_le_inv in Nv. destruct Hv as [_ BV]. fold V in BV. assert (Pz : 0 <= V * (B2R c * I)) by (apply Rmult_le_pos; [lra|apply Rmult_le_pos; lra]).
      unfold haze in Nc. set (z := V * (B2R c * I)) in *. set (f := 1 + B2R (narrow forward) + B2R (narrow reverse)) in *. assert (Pf : 1 <= f) by (unfold f; destruct HR as [_ ?], HF as [_ ?]; lra).
      assert (E140 : bpow radix2 (-139) = 2 * bpow radix2 (-140)) by (change (-139)%Z with (1 + -140)%Z; rewrite bpow_plus; reflexivity). assert (E149 : bpow radix2 (-140) = 512 * bpow radix2 (-149)) by (change 512 with (bpow radix2 9); rewrite <- bpow_plus; reflexivity). rewrite E140. rewrite E149 in *.
      assert (T1 : 0 < bpow radix2 (-1075) <= / 4 * bpow radix2 (-149)) by (split; [apply bpow_gt_0|change (/ 4) with (bpow radix2 (-2)); rewrite <- bpow_plus; apply bpow_le; lia]). set (t := bpow radix2 (-149)) in *. assert (PV : 0 <= t * V) by (apply Rmult_le_pos; lra). assert (PF : t <= t * f) by (rewrite <- (Rmult_1_r t) at 1; apply Rmult_le_compat_l; lra).
      replace (512 * t * f) with (512 * (t * f)) in Nc by ring. replace (2 * (512 * t) * (f + V)) with (1024 * (t * f) + 1024 * (t * V)) by ring. replace (t * (V + 1)) with (t * V + t) in Nv by ring.
      change (bpow radix2 (-53)) with (/ 9007199254740992) in *. change (bpow radix2 (-23)) with (/ 8388608) in *. change (bpow radix2 (-20)) with (/ 1048576) in *. change (bpow radix2 (-19)) with (/ 524288). apply Rabs_le. split; lra.
    + destruct K as [(Y & X & C)|K]; [left; split; assumption|right; exact K].
Qed.
