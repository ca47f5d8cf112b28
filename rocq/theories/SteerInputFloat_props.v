(** Property C141, the steering inputs of Hybrid A* in double precision. *)
From Coq Require Import Reals ZArith Lra Lia.
From Flocq Require Import Core BinarySingleNaN.
From Verif Require Import Base CoordsFloat_model StraightFloat_model CoordsFloat_proofs StraightFloat_proofs SteerInputFloat_model SteerInputFloat_spec SteerInputFloat_proofs.
Local Open Scope R_scope.

(** The steering angle of a turning radius is always a number, not negative and not more than a right angle, up to rounding. *)
Theorem C141_number : forall dsq datan, trusted dsq datan -> forall W rear R0, measure W -> is_finite rear = true -> 0 <= B2R rear -> measure R0 ->
  let a := d_steering_angle dsq datan W rear R0 in is_finite a = true /\ 0 <= B2R a <= PI / 2 + bpow radix2 (-49).
Proof. exact angle_number. Qed.
Print Assumptions C141_number.

(** For a vehicle referred to its rear axle, as Hybrid A* makes it, steering by this angle turns with the radius asked for: the curvature, the tangent over
    the wheelbase, is the inverse of the radius up to a relative error of 2^-36. *)
Theorem C141_radius : forall dsq datan, trusted dsq datan -> forall W R0, measure W -> measure R0 -> let a := d_steering_angle dsq datan W d_zero R0 in
  Rabs (B2R a - atan (B2R W / B2R R0)) <= bpow radix2 (-47) * atan (B2R W / B2R R0) /\
  (B2R W / B2R R0 <= 16 -> 0 < B2R a < PI / 2 /\ Rabs (tan (B2R a) / B2R W - / B2R R0) <= bpow radix2 (-36) * / B2R R0).
Proof. intros dsq datan acc W R0 HW HR a. split; [exact (proj2 (proj2 (angle_near dsq datan acc W R0 HW HR)))|exact (curvature_limit dsq datan acc W R0 HW HR)]. Qed.
Print Assumptions C141_radius.

(** The inputs: zero and, for each number up to half of that of the motions, this number of halves of the angle and its opposite, up to rounding. *)
Theorem C141_inputs : forall dsq datan, trusted dsq datan -> forall W R0 n, measure W -> measure R0 -> (n < 2 ^ 30)%nat -> let a := d_steering_angle dsq datan W d_zero R0 in
  length (d_inputs dsq datan W R0 n) = (1 + 2 * (n / 2))%nat /\ In d_zero (d_inputs dsq datan W R0 n) /\
  (forall k, (1 <= k <= n / 2)%nat -> exists d, In d (d_inputs dsq datan W R0 n) /\ In (Bopp d) (d_inputs dsq datan W R0 n) /\ is_finite d = true /\
     Rabs (B2R d - INR k / 2 * B2R a) <= bpow radix2 (-52) * (INR k / 2 * B2R a) /\ (k = 2%nat -> B2R d = B2R a)) /\
  (forall d, In d (d_inputs dsq datan W R0 n) -> B2R d = 0 \/ exists k, (1 <= k <= n / 2)%nat /\ Rabs (Rabs (B2R d) - INR k / 2 * B2R a) <= bpow radix2 (-52) * (INR k / 2 * B2R a)).
Proof.
  intros dsq datan acc W R0 n HW HR Hn a. destruct (inputs_list dsq datan W R0 n Hn) as [L M]. split; [exact L|]. split; [apply M; left; reflexivity|]. assert (H2 : (n / 2 <= n)%nat) by (apply Nat.div_le_upper_bound; lia). split.
  - intros k Hk. destruct (input_near dsq datan acc W R0 HW HR (k - 1) ltac:(lia)) as (F & _ & N & _ & T). assert (E : INR (k - 1) + 1 = INR k) by (rewrite <- S_INR; f_equal; lia). rewrite E in N. exists (d_input dsq datan W R0 (k - 1)).
    split; [apply M; right; exists (k - 1)%nat; split; [lia|left; reflexivity]|]. split; [apply M; right; exists (k - 1)%nat; split; [lia|right; reflexivity]|]. split; [exact F|]. split; [exact N|]. intros ->. apply T. reflexivity.
  - intros d I. apply M in I. destruct I as [-> |(i & Hi & Hd)]; [left; reflexivity|right]. exists (S i). split; [lia|]. destruct (input_near dsq datan acc W R0 HW HR i ltac:(lia)) as (_ & P & N & _). rewrite S_INR.
    destruct Hd as [-> | ->]; [|rewrite B2R_Bopp, Rabs_Ropp]; rewrite (Rabs_pos_eq (B2R (d_input _ _ _ _ _))) by lra; exact N.
Qed.
Print Assumptions C141_inputs.

(** With up to five motions no input is more than the angle of the minimum turning radius, and no curvature more than that of this radius, up to
    rounding. *)
Theorem C141_limit_partial : forall dsq datan, trusted dsq datan -> forall W R0 n d, measure W -> measure R0 -> (n <= 5)%nat -> In d (d_inputs dsq datan W R0 n) ->
  is_finite d = true /\ Rabs (B2R d) <= B2R (d_steering_angle dsq datan W d_zero R0) /\
  (B2R W / B2R R0 <= 16 -> Rabs (tan (B2R d) / B2R W) <= (1 + bpow radix2 (-36)) * / B2R R0).
Proof.
  intros dsq datan acc W R0 n d HW HR Hn I. destruct (within_limit dsq datan acc W R0 HW HR n d Hn I) as [F L]. split; [exact F|]. split; [exact L|]. intros Hx. exact (inputs_curvature dsq datan acc W R0 HW HR n d Hn Hx I).
Qed.
Print Assumptions C141_limit_partial.

(** With more motions there is an input of about one and a half times this angle, whatever the vehicle. *)
Theorem C141_limit_refuted : forall dsq datan, trusted dsq datan -> forall W R0 n, measure W -> measure R0 -> (6 <= n < 2 ^ 30)%nat -> exists d, In d (d_inputs dsq datan W R0 n) /\
  1.4 * B2R (d_steering_angle dsq datan W d_zero R0) < B2R d.
Proof.
  intros dsq datan acc W R0 n HW HR Hn. destruct (C141_inputs dsq datan acc W R0 n HW HR (proj2 Hn)) as (_ & _ & K & _). assert (H3 : (3 <= n / 2)%nat) by (apply Nat.div_le_lower_bound; lia).
  destruct (K 3%nat ltac:(lia)) as (d & I & _ & _ & N & _). exists d. split; [exact I|]. destruct (angle_range dsq datan acc W R0 HW HR) as [_ B]. pose proof (bpow_gt_0 radix2 (-300)). change (bpow radix2 (-52)) with (/ 4503599627370496) in N. apply Rabs_le_inv in N. cbn [INR] in N. lra.
Qed.
Print Assumptions C141_limit_refuted.

(** The functions that round correctly are such a library; a wheelbase of two and a radius of eight are such lengths. *)
Example C141_met : trusted plain_sq plain_atan /\ measure (d_of 2 0) /\ measure (d_of 8 0) /\ B2R (d_of 2 0) / B2R (d_of 8 0) <= 16.
Proof.
  split; [exact plain_trusted|]. assert (E2 : B2R (d_of 2 0) = 2) by exact two_real. destruct (CellFloat_proofs.int_double 8 ltac:(lia)) as [F8 E8]. assert (L : bpow radix2 (-100) <= 1) by (change 1 with (bpow radix2 0); apply bpow_le; lia). assert (U : 16 <= bpow radix2 100) by (change 16 with (bpow radix2 4); apply bpow_le; lia).
  split; [split; [reflexivity|rewrite E2; lra]|]. split; [split; [exact F8|rewrite E8; lra]|]. rewrite E2, E8. lra.
Qed.
