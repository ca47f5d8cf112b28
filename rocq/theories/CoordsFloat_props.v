(** C21 with the roundings of the code. *)
From Coq Require Import Reals ZArith Lra Lia.
From Flocq Require Import Core BinarySingleNaN.
From Verif Require Import Base CoordsFloat_model CoordsFloat_proofs.
Local Open Scope R_scope.

(** Full statement: the position of a cell of the map converts back to that cell. It does not hold of the code as run: with the resolution
    0.1 (in single precision 13421773 / 2^27) and a map of width 10, row 5 of the 100 rows converts to a position that converts back to row
    4. *)
Theorem C21_cell_round_trip_refuted :
  exists width resolution rows i, is_finite width = true /\ is_finite resolution = true /\ num_rows width resolution = Ok rows /\ (0 <= i < rows)%Z /\
    position_to_row (local_origin width) resolution (row_to_position (local_origin width) resolution i) = Ok (i - 1)%Z.
Proof.
  exists (s_of 10 0), (s_of 13421773 (-27)), 100%Z, 5%Z. split; [vm_compute; reflexivity|]. split; [vm_compute; reflexivity|]. split; [vm_compute; reflexivity|].
  split; [lia|]. vm_compute. reflexivity.
Qed.
Print Assumptions C21_cell_round_trip_refuted.

(** What holds: the row is at most one too low, in the local frame, ... *)
Theorem C21_rounded_local_partial :
  forall width resolution rows i, is_finite width = true -> is_finite resolution = true -> bpow radix2 (-126) <= B2R resolution ->
  num_rows width resolution = Ok rows -> (rows <= 2 ^ 23)%Z -> (0 <= i < rows)%Z ->
  let origin := local_origin width in
  exists n, position_to_row origin resolution (row_to_position origin resolution i) = Ok n /\ (n = i \/ n = i - 1)%Z /\ (0 <= n)%Z.
Proof.
  intros width resolution rows i Fw Fr Hr Hn Hb Hi origin. destruct (local_near width resolution rows Fw Fr Hr Hn ltac:(lia) i Hi) as (n & E & H & H0).
  exists n. split; [exact E|]. split; [exact H|]. destruct (Z.eq_dec i 0) as [Z0|]; [rewrite (H0 Z0); lia|lia].
Qed.
Print Assumptions C21_rounded_local_partial.

(** ... and in the world frame, if the map is not too far from its origin. *)
Theorem C21_rounded_world_partial :
  forall width resolution rows position i, is_finite width = true -> is_finite resolution = true -> bpow radix2 (-126) <= B2R resolution ->
  num_rows width resolution = Ok rows -> (rows <= 2 ^ 23)%Z -> (0 <= i < rows)%Z ->
  is_finite position = true -> Rabs (B2R position) <= bpow radix2 49 * B2R resolution ->
  let origin := world_origin position width in
  exists n, position_to_row origin resolution (row_to_position origin resolution i) = Ok n /\ (n = i \/ n = i - 1)%Z /\ (0 <= n)%Z.
Proof.
  intros width resolution rows position i Fw Fr Hr Hn Hb Hi Fp Hp origin. destruct (world_near width resolution rows Fw Fr Hr Hn ltac:(lia) position i Fp Hp Hi) as (n & E & H & H0).
  exists n. split; [exact E|]. split; [exact H|]. destruct (Z.eq_dec i 0) as [Z0|]; [rewrite (H0 Z0); lia|lia].
Qed.
Print Assumptions C21_rounded_world_partial.

(** The local frame is exact if the resolution is a power of two. *)
Theorem C21_power_of_two_partial :
  forall width resolution k rows i, is_finite width = true -> is_finite resolution = true -> B2R resolution = bpow radix2 k -> (-126 <= k)%Z ->
  num_rows width resolution = Ok rows -> (rows <= 2 ^ 23)%Z -> (0 <= i < rows)%Z ->
  let origin := local_origin width in position_to_row origin resolution (row_to_position origin resolution i) = Ok i.
Proof.
  intros width resolution k rows i Fw Fr Hk Lk Hn Hb Hi. apply (local_exact width resolution rows Fw Fr) with (k := k); auto; [|lia]. rewrite Hk. now apply bpow_le.
Qed.
Print Assumptions C21_power_of_two_partial.

(** The number of rows is the width over the resolution, rounded up, but for the rounding of the quotient. *)
Theorem C21_rounded_rows :
  forall width resolution rows, bpow radix2 (-126) <= B2R resolution -> num_rows width resolution = Ok rows ->
  IZR rows - 1 < round radix2 (FLT_exp (-149) 24) ZnearestE (B2R width / B2R resolution) <= IZR rows.
Proof. intros width resolution rows Hr Hn. apply (quotient_real width resolution rows Hr Hn). Qed.
Print Assumptions C21_rounded_rows.

(** Maps that meet the hypotheses: width 10 with the resolutions 0.1 and 0.25; the position of the map is 1000. *)
Example C21_maps :
  is_finite (s_of 10 0) = true /\ is_finite (s_of 13421773 (-27)) = true /\ num_rows (s_of 10 0) (s_of 13421773 (-27)) = Ok 100%Z /\
  is_finite (s_of 1 (-2)) = true /\ num_rows (s_of 10 0) (s_of 1 (-2)) = Ok 40%Z /\ is_finite (d_of 1000 0) = true.
Proof. vm_compute. repeat split; reflexivity. Qed.
Example C21_resolutions : bpow radix2 (-126) <= B2R (s_of 13421773 (-27)) /\ B2R (s_of 1 (-2)) = bpow radix2 (-2) /\
  Rabs (B2R (d_of 1000 0)) <= bpow radix2 49 * B2R (s_of 13421773 (-27)).
Proof.
  assert (E : B2R (s_of 13421773 (-27)) = 13421773 / 134217728).
  { replace (B2R (s_of 13421773 (-27))) with (F2R (Float radix2 13421773 (-27))) by (vm_compute; reflexivity). unfold F2R. cbn [Fnum Fexp]. change (bpow radix2 (-27)) with (/ 134217728). lra. }
  rewrite E. split; [apply Rle_trans with (bpow radix2 (-24)); [apply bpow_le; lia|rewrite u24; lra]|]. split.
  - replace (B2R (s_of 1 (-2))) with (F2R (Float radix2 8388608 (-25))) by (vm_compute; reflexivity). unfold F2R. cbn [Fnum Fexp]. change (bpow radix2 (-25)) with (/ 33554432). change (bpow radix2 (-2)) with (/ 4). lra.
  - replace (B2R (d_of 1000 0)) with (F2R (Float radix2 8796093022208000 (-43))) by (vm_compute; reflexivity). unfold F2R. cbn [Fnum Fexp]. change (bpow radix2 (-43)) with (/ 8796093022208). change (bpow radix2 49) with 562949953421312.
    rewrite Rabs_pos_eq; lra.
Qed.
