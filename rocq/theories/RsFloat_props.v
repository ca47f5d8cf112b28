(** Property C135, Reeds-Shepp paths in double precision. *)
From Coq Require Import Reals ZArith Lra Lia.
From Flocq Require Import Core BinarySingleNaN.
From Verif Require Import Base CoordsFloat_model CoordsFloat_proofs StraightFloat_model Bicycle_model Composite_model CompositeFloat_spec RsFloat_model RsFloat_spec RsFloat_proofs.
Local Open Scope R_scope.

(** The length. *)
Theorem C135_length : forall radius l, usable radius l ->
  is_finite (d_rs_length radius l) = true /\ Rabs (B2R (d_rs_length radius l) - driven radius l) <= blur (driven radius l).
Proof.
  intros radius l U. destruct (length_near radius l U) as (F & _ & N). split; [exact F|]. rewrite blur_units. destruct NonHolFloat_proofs.small_units as (_ & _ & U3 & _ & U5).
  assert (0 <= StraightFloat_proofs.u53 * driven radius l). { apply Rmult_le_pos; [lra|]. destruct (prefix_driven radius l U l [] (eq_sym (app_nil_r l))). lra. } lra.
Qed.
Print Assumptions C135_length.

(** Interpolation drives the first motions completely and a ratio of the next one, up to the place asked for, or all motions if the place is the end. *)
Theorem C135_interpolates : forall radius l Pose move init r, usable radius l -> is_ratio r -> let L := B2R (d_rs_length radius l) in L <> 0 ->
  (exists before p s, is_ratio s /\ inside radius l before p (B2R s) (B2R r * L) (blur (driven radius l)) /\
     d_rs_at Pose move radius l init r = move (drive Pose move radius before init) p (d_mul (dm_len p) s)) \/
  (Rabs (driven radius l - B2R r * L) <= blur (driven radius l) /\ d_rs_at Pose move radius l init r = drive Pose move radius l init).
Proof. intros radius l Pose move init r U Hr. exact (interpolated radius l U r Hr Pose move init). Qed.
Print Assumptions C135_interpolates.

(** The direction is that of the motion at the place, unless there is none within rounding of the end. *)
Theorem C135_direction_partial : forall radius l r, usable radius l -> is_ratio r -> let L := B2R (d_rs_length radius l) in L <> 0 ->
  (exists before p s, inside radius l before p s (B2R r * L) (blur (driven radius l)) /\ d_rs_direction radius l r = dm_dir p) \/
  (d_rs_direction radius l r = NoMotion /\ Rabs (driven radius l - B2R r * L) <= blur (driven radius l)).
Proof.
  intros radius l r U Hr L NL. assert (Ne : l <> []). { intros ->. apply NL. unfold L. destruct (length_near radius [] U) as (_ & B & N). change (B2R (d_rs_length radius []) = 0). unfold d_rs_length, d_motions_length. cbn [fold_left].
    destruct U as (Fr & _). apply (StraightFloat_proofs.dmul_zero d_zero radius eq_refl eq_refl Fr). }
  unfold d_rs_direction. destruct (length_near radius l U) as (FL & _). rewrite Beqb_correct by (auto; reflexivity). rewrite Req_bool_false by exact NL. exact (directed radius l U r Hr Ne).
Qed.
Print Assumptions C135_direction_partial.

(** What is reported as a cusp is one: a ratio of the path, where the direction changes, up to rounding. *)
Theorem C135_cusps_sound : forall radius l, usable radius l -> let L := B2R (d_rs_length radius l) in L <> 0 ->
  forall x, In x (d_rs_cusps radius l) ->
  exists before p q after, l = before ++ p :: q :: after /\ dm_dir p <> dm_dir q /\ is_ratio x /\ Rabs (B2R x * L - driven radius (before ++ [p])) <= blur (driven radius l).
Proof. intros radius l U L NL x. exact (cusps_sound radius l U NL x). Qed.
Print Assumptions C135_cusps_sound.
(** Each change of direction is reported, unless it is within rounding of the end. *)
Theorem C135_cusps_complete_partial : forall radius l, usable radius l -> let L := B2R (d_rs_length radius l) in L <> 0 ->
  forall before p q after, l = before ++ p :: q :: after -> dm_dir p <> dm_dir q ->
  (exists x, In x (d_rs_cusps radius l) /\ Rabs (B2R x * L - driven radius (before ++ [p])) <= blur (driven radius l)) \/ L <= driven radius (before ++ [p]) + blur (driven radius l).
Proof. intros radius l U L NL. exact (cusps_complete radius l U NL). Qed.
Print Assumptions C135_cusps_complete_partial.

(** Three motions forward of the lengths 0.9, 0.4 and 1.6 with the radius 1.1. *)
Definition three_forward : list d_motion := [DMotion SLeft Forward (d_of 8106479329266893 (-53)); DMotion SStraight Forward (d_of 3602879701896397 (-53)); DMotion SLeft Forward (d_of 3602879701896397 (-51))].
Definition radius_11 : double := (d_of 2476979795053773 (-51)).
(** Two motions forward, 2.6 and 0.7, and a short one backward, with the radius 3. *)
Definition short_backward : list d_motion := [DMotion SLeft Forward (d_of 5854679515581645 (-51)); DMotion SStraight Forward (d_of 3152519739159347 (-52)); DMotion SRight Backward (d_of 6646139978924579 (-119))].
Definition radius_3 : double := d_of 3 0.

Lemma literal n e : (0 < n <= 2 ^ 53)%Z -> (-200 <= e <= 0)%Z -> is_finite (d_of n e) = true /\ 0 < B2R (d_of n e) <= bpow radix2 400.
Proof.
  intros Hn He. pose proof (binary_normalize_correct 53 1024 prec53 emax1024 mode_NE n e false) as C. cbv zeta in C.
  assert (G : generic_format radix2 (SpecFloat.fexp 53 1024) (F2R (Float radix2 n e))).
  { destruct (Z.eq_dec n (2 ^ 53)) as [-> |N].
    - replace (F2R (Float radix2 (2 ^ 53) e)) with (bpow radix2 (53 + e)) by (unfold F2R; cbn [Fnum Fexp]; rewrite bpow_plus; reflexivity). apply format53_pow. lia.
    - change (SpecFloat.fexp 53 1024) with (FLT_exp (-1074) 53). apply generic_format_FLT. exists (Float radix2 n e); [reflexivity|cbn; change (Z.pow_pos 2 53) with (2 ^ 53)%Z; lia|cbn; lia]. }
  rewrite round_generic in C by (auto; apply valid_rnd_round_mode).
  assert (B : 0 < F2R (Float radix2 n e) <= bpow radix2 53). { split; [apply F2R_gt_0; cbn; lia|]. unfold F2R. cbn [Fnum Fexp]. replace (bpow radix2 53) with (IZR (2 ^ 53) * 1) by (rewrite Rmult_1_r; reflexivity). apply Rmult_le_compat; [apply IZR_le; lia|apply bpow_ge_0|apply IZR_le; lia|]. change 1 with (bpow radix2 0). apply bpow_le. lia. }
  rewrite Rlt_bool_true in C. 2: { rewrite Rabs_pos_eq by lra. apply Rle_lt_trans with (1 := proj2 B). apply bpow_lt. lia. }
  destruct C as (C1 & C2 & _). split; [exact C2|]. change (B2R (d_of n e)) with (B2R (binary_normalize 53 1024 prec53 emax1024 mode_NE n e false)). rewrite C1. split; [lra|]. apply Rle_trans with (1 := proj2 B). apply bpow_le. lia.
Qed.
Example C135_usable : usable radius_11 three_forward /\ usable radius_3 short_backward.
Proof.
  split; (split; [vm_compute; reflexivity|]; split; [apply literal; lia|]; split; [cbn; lia|]);
    intros m [<- |[<- |[<- |[]]]]; cbn [dm_len dm_dir]; (match goal with |- context [is_finite (d_of ?n ?e)] => destruct (literal n e ltac:(lia) ltac:(lia)) as [F B] end); (split; [exact F|split; [lra|discriminate]]).
Qed.

(** Refuted: a path that drives forward all the time has no direction at its end, because its length is rounded to more than the sum of its motions. *)
Theorem C135_direction_refuted : exists radius l r, usable radius l /\ is_ratio r /\ B2R (d_rs_length radius l) <> 0 /\ (forall m, In m l -> dm_dir m = Forward) /\ d_rs_direction radius l r = NoMotion.
Proof.
  exists radius_11, three_forward, d_one. split; [apply C135_usable|]. destruct StraightFloat_proofs.one_real as [F1 E1]. split; [split; [exact F1|rewrite E1; lra]|]. split; [|split].
  - assert (V : Beqb (d_rs_length radius_11 three_forward) d_zero = false) by (vm_compute; reflexivity). destruct (length_near radius_11 three_forward (proj1 C135_usable)) as (F & _). rewrite Beqb_correct in V by (auto; reflexivity). destruct (Req_bool_spec (B2R (d_rs_length radius_11 three_forward)) (B2R d_zero)) as [Y|Y]; [discriminate|exact Y].
  - intros m [<- |[<- |[<- |[]]]]; reflexivity.
  - vm_compute. reflexivity.
Qed.
Print Assumptions C135_direction_refuted.
(** Refuted: a change of direction before a short last motion is not reported. *)
Theorem C135_cusps_complete_refuted : exists radius l before p q after, usable radius l /\ B2R (d_rs_length radius l) <> 0 /\ l = before ++ p :: q :: after /\ dm_dir p <> dm_dir q /\ 0 < B2R (dm_len q) /\ d_rs_cusps radius l = [].
Proof.
  exists radius_3, short_backward, [DMotion SLeft Forward (d_of 5854679515581645 (-51))], (DMotion SStraight Forward (d_of 3152519739159347 (-52))), (DMotion SRight Backward (d_of 6646139978924579 (-119))), []. split; [apply C135_usable|]. split; [|split; [reflexivity|split; [discriminate|split; [apply literal; lia|vm_compute; reflexivity]]]].
  assert (V : Beqb (d_rs_length radius_3 short_backward) d_zero = false) by (vm_compute; reflexivity). destruct (length_near radius_3 short_backward (proj2 C135_usable)) as (F & _). rewrite Beqb_correct in V by (auto; reflexivity). destruct (Req_bool_spec (B2R (d_rs_length radius_3 short_backward)) (B2R d_zero)) as [Y|Y]; [discriminate|exact Y].
Qed.
Print Assumptions C135_cusps_complete_refuted.

(** In the middle of the first path: the third motion. *)
Example C135_middle : d_rs_direction radius_11 three_forward (d_of 1 (-1)) = Forward /\
  let x := d_rs_at (list steer) (fun x m _ => dm_steer m :: x) radius_11 three_forward [] (d_of 1 (-1)) in x = [SLeft; SStraight; SLeft].
Proof. split; vm_compute; reflexivity. Qed.
(** A change of direction that is reported. *)
Example C135_reported : length (d_rs_cusps radius_3 [DMotion SLeft Forward (d_of 5854679515581645 (-51)); DMotion SRight Backward (d_of 3152519739159347 (-52))]) = 1%nat.
Proof. vm_compute. reflexivity. Qed.
