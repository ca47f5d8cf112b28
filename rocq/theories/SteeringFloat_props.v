(** C131: the motion of the vehicle in double precision. *)
From Coq Require Import Reals ZArith Lra Lia.
From Flocq Require Import Core BinarySingleNaN.
From Verif Require Import Base CoordsFloat_model CoordsFloat_proofs StraightFloat_model StraightFloat_proofs StateValidFloat_model Bicycle_model SteeringFloat_model SteeringFloat_spec
  SteeringFloat_proofs.
Local Open Scope R_scope.

(** For every accurate library and every vehicle whose reference point is the rear axle: a motion with constant steering ends, up to 2^-47 times the
    turning radius, on the arc whose curvature is that of the bicycle up to a relative error of 2^-49, or, if that curvature is below 10^-9, on the straight line. *)
Theorem C131_motion : forall dsin dcos dtan datan, accurate dsin dcos dtan datan -> forall wheelbase rear from steering dist dir,
  bpow radix2 (-50) <= B2R wheelbase -> is_finite rear = true -> B2R rear = 0 ->
  numbers from -> is_finite steering = true -> is_finite dist = true ->
  Rabs (tan (B2R steering)) <= bpow radix2 60 -> Rabs (B2R (d_x from)) <= bpow radix2 60 -> Rabs (B2R (d_y from)) <= bpow radix2 60 -> Rabs (B2R (d_theta from)) <= 8 ->
  Rabs (B2R dist) <= bpow radix2 60 -> Rabs (B2R dist * (tan (B2R steering) / B2R wheelbase)) <= 7 ->
  let to := d_constant_steer dsin dcos dtan datan wheelbase rear from steering dist dir in
  let s := signed dir (B2R dist) in
  numbers to /\
  exists k, Rabs (k - tan (B2R steering) / B2R wheelbase) <= bpow radix2 (-49) * Rabs (tan (B2R steering) / B2R wheelbase) + bpow radix2 (-1000) /\
    (bpow radix2 (-30) <= Rabs k /\
     at_end_of_arc (bpow radix2 (-47) * / Rabs k + bpow radix2 (-52) * (Rabs (B2R (d_x from)) + Rabs (B2R (d_y from)))) (bpow radix2 (-48)) k s from to
     \/ Rabs k <= / 999999999 /\
     at_end_of_line (bpow radix2 (-50) * Rabs s + bpow radix2 (-52) * (Rabs (B2R (d_x from)) + Rabs (B2R (d_y from))) + bpow radix2 (-1000)) s from to).
Proof. intros dsin dcos dtan datan acc wheelbase rear from steering dist dir Hw Fr Hr. exact (steer_close dsin dcos dtan datan acc wheelbase rear Hw Fr Hr from steering dist dir). Qed.
Print Assumptions C131_motion.

(** The path of a motion starts exactly at its initial pose. *)
Theorem C131_start : forall dsin dcos dtan datan, accurate dsin dcos dtan datan -> forall wheelbase rear from steering length dir ratio,
  bpow radix2 (-50) <= B2R wheelbase -> is_finite rear = true -> B2R rear = 0 ->
  numbers from -> is_finite steering = true -> is_finite length = true -> Rabs (tan (B2R steering)) <= bpow radix2 60 -> Rabs (B2R (d_theta from)) <= 32 ->
  is_finite ratio = true -> B2R ratio = 0 ->
  let p := d_path_at dsin dcos dtan datan wheelbase rear from steering length dir ratio in
  numbers p /\ B2R (d_x p) = B2R (d_x from) /\ B2R (d_y p) = B2R (d_y from) /\ B2R (d_theta p) = B2R (d_theta from).
Proof.
  intros dsin dcos dtan datan acc wheelbase rear from steering length dir ratio Hw Fr Hr Hn Fs Fl Hs Ht Fa Ha. destruct (mul_zero length ratio Ha Fl Fa) as [F E].
  exact (no_motion dsin dcos dtan datan acc wheelbase rear Hw Fr Hr from steering _ dir Hn Fs F Hs Ht E).
Qed.
Print Assumptions C131_start.

(** A library that rounds correctly is accurate; steering by one radian with a wheelbase of two, for a length of one, is an arc and not a line. *)
Lemma tan_one : 1 <= tan 1 <= 2.
Proof.
  pose proof PI2_3_2 as P3. pose proof PI_4 as P4. split.
  - apply Rle_trans with (tan (PI / 4)); [rewrite tan_PI4; lra|]. destruct P4 as [P4|P4].
    + left. apply tan_increasing; lra.
    + rewrite P4. replace (4 / 4) with 1 by field. lra.
  - left. apply Rlt_le_trans with (tan (PI / 3)); [apply tan_increasing; lra|]. rewrite tan_PI3. apply Rsqr_incr_0_var; [|lra]. rewrite Rsqr_sqrt by lra. unfold Rsqr. lra.
Qed.
Example C131_hypotheses :
  let dsin := fun x => rounded (sin (B2R x)) in let dcos := fun x => rounded (cos (B2R x)) in
  let dtan := fun x => rounded (tan (B2R x)) in let datan := fun x => rounded (atan (B2R x)) in
  let from := DPose (d_of 3 0) (d_of 4 0) d_one in
  accurate dsin dcos dtan datan /\
  exists k, 1/4 <= k /\ at_end_of_arc (bpow radix2 (-40)) (bpow radix2 (-48)) k (-1) from
    (d_constant_steer dsin dcos dtan datan (d_of 2 0) (d_of 0 0) from d_one d_one Backward).
Proof.
  intros dsin dcos dtan datan from. split; [exact rounded_accurate|]. destruct one_real as [F1 E1]. pose proof tan_one as T.
  assert (E2 : B2R (d_of 2 0) = 2). { change (F2R (Float radix2 4503599627370496 (-51)) = 2). unfold F2R. cbn [Fnum Fexp]. change (bpow radix2 (-51)) with (/ 2251799813685248). field. }
  assert (E3 : B2R (d_of 3 0) = 3). { change (F2R (Float radix2 6755399441055744 (-51)) = 3). unfold F2R. cbn [Fnum Fexp]. change (bpow radix2 (-51)) with (/ 2251799813685248). field. }
  assert (E4 : B2R (d_of 4 0) = 4). { change (F2R (Float radix2 4503599627370496 (-50)) = 4). unfold F2R. cbn [Fnum Fexp]. change (bpow radix2 (-50)) with (/ 1125899906842624). field. }
  assert (P60 : 1024 <= bpow radix2 60) by (change 1024 with (bpow radix2 10); apply bpow_le; lia).
  assert (A : forall x, 0 <= x -> Rabs x = x) by (intros; now apply Rabs_pos_eq).
  destruct (C131_motion dsin dcos dtan datan rounded_accurate (d_of 2 0) (d_of 0 0) from d_one d_one Backward) as (_ & k & Hk & Hend); try reflexivity.
  - rewrite E2. change (bpow radix2 (-50)) with (/ 1125899906842624). lra.
  - repeat split.
  - rewrite E1, A; lra.
  - cbn [d_x from]. rewrite E3, A; lra.
  - cbn [d_y from]. rewrite E4, A; lra.
  - cbn [d_theta from]. rewrite E1, A; lra.
  - rewrite E1, A; lra.
  - rewrite E1, E2, A; lra.
  - rewrite E1, E2 in Hk. rewrite (A (tan 1 / 2)) in Hk by lra.
    assert (B : bpow radix2 (-49) * (tan 1 / 2) + bpow radix2 (-1000) <= 1/5).
    { assert (bpow radix2 (-1000) <= bpow radix2 (-49)) by (apply bpow_le; lia). change (bpow radix2 (-49)) with (/ 562949953421312) in *. lra. }
    pose proof (Rle_trans _ _ _ Hk B) as Hk2. apply Rabs_le_inv in Hk2. exists k. split; [lra|].
    destruct Hend as [[_ H]|[H _]]; [|rewrite A in H; lra].
    unfold at_end_of_arc in *. cbn [signed] in H. rewrite E1 in H. replace (- (1)) with (-1) in H by lra. destruct H as (H1 & H2 & H3).
    assert (Q : bpow radix2 (-47) * / Rabs k + bpow radix2 (-52) * (Rabs (B2R (d_x from)) + Rabs (B2R (d_y from))) <= bpow radix2 (-40)).
    { cbn [d_x d_y from]. rewrite E3, E4, (A 3), (A 4), (A k) by lra. assert (I : / k <= 4) by (replace 4 with (/ (1/4)) by field; apply Rinv_le_contravar; lra).
      assert (bpow radix2 (-47) * / k <= bpow radix2 (-47) * 4) by (apply Rmult_le_compat_l; [apply bpow_ge_0|exact I]).
      change (bpow radix2 (-47)) with (/ 140737488355328) in *. change (bpow radix2 (-52)) with (/ 4503599627370496). change (bpow radix2 (-40)) with (/ 1099511627776). lra. }
    split; [eapply Rle_trans; [exact H1|exact Q]|]. split; [eapply Rle_trans; [exact H2|exact Q]|exact H3].
Qed.
