(** Property C129: validity of a state in single and double precision. *)
From Coq Require Import Reals ZArith Lra Lia.
From Flocq Require Import Core BinarySingleNaN.
From Verif Require Import Base Grid_model Gvd_model CoordsFloat_model AngleFloat_model AngleFloat_proofs PathCostFloat_model StateValidFloat_model StateValidFloat_spec StateValidFloat_proofs.
Local Open Scope R_scope.

(** A map of 10 m by 10 m without obstacles, cells of 1/8 m, and the bounds of the state space it is made for. *)
Definition plain_frames : d_frames := DFrames (s_of 1 (-3)) 80 80 (d_of 0 0, d_of 0 0) (d_of (-5) 0, d_of (-5) 0).
Definition plain_distance (c : cell) : res Z := Ok inf.
Definition plain_lb : d_pose := DPose (d_of (-5) 0) (d_of (-5) 0) (Bopp d_pi).
Definition plain_ub : d_pose := DPose (d_of 5 0) (d_of 5 0) d_pi.
Definition plain_valid (s : d_pose) : res bool := d_state_valid 3 plain_frames plain_distance plain_lb plain_ub (s_of 1 0) s.

(** Full statement: asking whether a state is valid gives an answer for every state, and the answer is no if the state is out of bounds, out
    of the map or not made of numbers. It does not hold: the position is converted to a cell before its bounds are checked, which is
    undefined for positions that are not finite, and for finite ones far away; ... *)
Theorem C129_answer_refuted :
  plain_valid (DPose B754_nan (d_of 0 0) (d_of 0 0)) = UB /\ plain_valid (DPose (B754_infinity false) (d_of 0 0) (d_of 0 0)) = UB /\
  plain_valid (DPose (d_of 300000000 0) (d_of 0 0) (d_of 0 0)) = UB.
Proof. repeat split; vm_compute; reflexivity. Qed.
Print Assumptions C129_answer_refuted.

(** ... and a heading that is not a number is taken for valid. *)
Theorem C129_nan_heading_refuted : plain_valid (DPose (d_of 0 0) (d_of 0 0) B754_nan) = Ok true.
Proof. vm_compute. reflexivity. Qed.
Print Assumptions C129_nan_heading_refuted.

(** What holds, for poses of numbers at most 2^30 cells from the map, with a wrapped heading: there is an answer. If it is yes, the state is in
    bounds up to one rounding of the position relative to the map, and at a cell of the map (up to a millionth of a cell, and the cell before
    the first counts as the first) whose reported distance is not less than the safe radius. If it is no, the state is out of bounds, less than
    a millionth of a cell inside the map or outside of it, or the distance of the cell is less than the safe radius. *)
Theorem C129_answer_partial :
  forall fuel f distance lb ub minSafe s, sane_frames f -> near_state f s -> box lb ub -> readable f distance -> is_finite minSafe = true ->
  exists b, d_state_valid (S fuel) f distance lb ub minSafe s = Ok b /\
    (b = true -> in_bounds (bpow radix2 (-53)) f lb ub s /\
      exists c d, (0 <= row c < d_rows f)%Z /\ (0 <= col c < d_columns f)%Z /\ at_cell f s c /\ distance c = Ok d /\ B2R minSafe <= reported f d) /\
    (b = false -> in_bounds 0 f lb ub s -> well_within (d_resolution f) (d_rows f) (fst (d_grid f)) (d_x s) -> well_within (d_resolution f) (d_columns f) (snd (d_grid f)) (d_y s) ->
      exists c d, (0 <= row c < d_rows f)%Z /\ (0 <= col c < d_columns f)%Z /\ at_cell f s c /\ distance c = Ok d /\ reported f d < B2R minSafe).
Proof. exact state_valid_spec. Qed.
Print Assumptions C129_answer_partial.

(** The frames are those that the map makes of its size. *)
Example C129_frames : match d_frames_of (s_of 1 (-3)) (s_of 10 0) (s_of 10 0) (d_of 0 0, d_of 0 0) with
  | Ok f => d_rows f = 80%Z /\ d_columns f = 80%Z /\ B2SF (fst (d_grid f)) = B2SF (fst (d_grid plain_frames)) /\ B2SF (snd (d_grid f)) = B2SF (snd (d_grid plain_frames))
  | _ => False
  end.
Proof. vm_compute. repeat split. Qed.

(** They meet the hypotheses with a state near the corner of the map. *)
Lemma real_of_int z : (Z.abs z < 2 ^ 53)%Z -> B2R (d_of z 0) = IZR z /\ is_finite (d_of z 0) = true.
Proof.
  intros H. assert (E : F2R (Float radix2 z 0) = IZR z) by (unfold F2R; cbn [Fnum Fexp bpow]; ring).
  pose proof (binary_normalize_correct 53 1024 (eq_refl _) (eq_refl _) mode_NE z 0 false) as C. cbv zeta in C. rewrite E in C.
  assert (G : round radix2 (SpecFloat.fexp 53 1024) (round_mode mode_NE) (IZR z) = IZR z).
  { apply round_generic; [apply valid_rnd_round_mode|]. rewrite <- E. apply CoordsFloat_proofs.format53; [lia|exact H]. }
  rewrite G, Rlt_bool_true in C; [destruct C as (C1 & C2 & _); split; assumption|].
  apply Rlt_trans with (bpow radix2 53); [|apply bpow_lt; lia]. rewrite <- abs_IZR. change (bpow radix2 53) with (IZR (2 ^ 53)). now apply IZR_lt.
Qed.
Example C129_hypotheses : sane_frames plain_frames /\ near_state plain_frames (DPose (d_of 4 0) (d_of 3 0) (d_of 1 0)) /\ box plain_lb plain_ub /\ readable plain_frames plain_distance.
Proof.
  assert (Br : B2R (s_of 1 (-3)) = / 8).
  { change (B2R (s_of 1 (-3))) with (F2R (Float radix2 8388608 (-26))). unfold F2R. cbn [Fnum Fexp]. change (bpow radix2 (-26)) with (/ 67108864). lra. }
  assert (P : 0 < bpow radix2 (-126) < 1) by (split; [apply bpow_gt_0|change 1 with (bpow radix2 0); apply bpow_lt; lia]).
  assert (Q : 1073741824 <= bpow radix2 1000) by (change 1073741824 with (bpow radix2 30); apply bpow_le; lia).
  assert (R0 : bpow radix2 (-126) <= / 8) by (change (/ 8) with (bpow radix2 (-3)); apply bpow_le; lia).
  assert (L : 2 ^ 30 = 1073741824) by lra.
  pose proof pi_bounds as Hpi. change pi_ with (B2R d_pi) in Hpi.
  split; [|split; [|split]].
  - unfold sane_frames, d_finite, d_value. cbn [plain_frames d_resolution d_local d_grid fst snd]. rewrite Br, L.
    destruct (real_of_int 0 ltac:(lia)) as (E0 & F0). destruct (real_of_int (-5) ltac:(lia)) as (E5 & F5). rewrite E0, Rabs_R0. repeat split; auto; lra.
  - unfold near_state, d_finite, d_value, near. cbn [plain_frames d_resolution d_local d_grid fst snd d_x d_y d_theta]. unfold d_value. rewrite Br, L.
    destruct (real_of_int (-5) ltac:(lia)) as (E5 & F5). destruct (real_of_int 4 ltac:(lia)) as (E4 & F4). destruct (real_of_int 3 ltac:(lia)) as (E3 & F3). destruct (real_of_int 1 ltac:(lia)) as (E1 & F1).
    rewrite E5, E4, E3, E1. do 3 (split; [assumption|]). split; [lra|]. rewrite !Rabs_pos_eq by lra. repeat split; lra.
  - repeat split; vm_compute; reflexivity.
  - intros c _ _. exists inf. split; [reflexivity|]. unfold inf. lia.
Qed.
Example C129_answers : plain_valid (DPose (d_of 39 (-3)) (d_of 4 0) (d_of 3 0)) = Ok true /\ plain_valid (DPose (d_of 41 (-3)) (d_of 4 0) (d_of 3 0)) = Ok false /\
  plain_valid (DPose (d_of 5 0) (d_of 4 0) (d_of 3 0)) = Ok false.
Proof. repeat split; vm_compute; reflexivity. Qed.
