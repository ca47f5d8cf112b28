(** Property C143, the collision term of the smoother in floating point. *)
From Coq Require Import Reals ZArith Lra Lia.
From Flocq Require Import Core BinarySingleNaN.
From Verif Require Import Base CoordsFloat_model StraightFloat_model CoordsFloat_proofs CellFloat_proofs CollisionFloat_model CollisionFloat_spec CollisionFloat_proofs.
Local Open Scope R_scope.

(** Full statement: what the obstacles add to the gradient of a sample is the gradient of the penalty over the reals, up to rounding, and never leads towards
    the obstacle: the sample moves against the gradient. Proved for samples at a distance of 2^-60 or more from the position of the obstacle. *)
Theorem C143_collision_partial : forall w U x y, amount w -> amount U -> usual x y -> let n := sqrt (B2R x * B2R x + B2R y * B2R y) in let g := f_collision w U x y in
  (is_finite (fst g) = true /\ B2R (fst g) * B2R x <= 0 /\ Rabs (B2R (fst g) - push (B2R w) (B2R U) n (B2R x)) <= / 524288 * (B2R w * B2R U) + bpow radix2 (-140)) /\
  (is_finite (snd g) = true /\ B2R (snd g) * B2R y <= 0 /\ Rabs (B2R (snd g) - push (B2R w) (B2R U) n (B2R y)) <= / 524288 * (B2R w * B2R U) + bpow radix2 (-140)).
Proof. exact term_near. Qed.
Print Assumptions C143_collision_partial.

(** False at the position of the obstacle itself: the gradient is not a number, whatever the weight, and neither is the position of the sample afterwards;
    the largest gradient, by which the smoother decides to stop, does not show it. *)
Theorem C143_at_obstacle_refuted : forall w U sx sy, amount w -> amount U -> 0 < B2R U -> let g := f_collision w U (B754_zero sx) (B754_zero sy) in
  g = (B754_nan, B754_nan) /\ (forall rate p, f_moved rate p (fst g) = B754_nan /\ f_moved rate p (snd g) = B754_nan) /\ (forall step, f_largest step g = step).
Proof.
  intros w U sx sy Aw AU P g. assert (E : g = (B754_nan, B754_nan)) by exact (term_at_obstacle w U sx sy Aw AU P). rewrite E. cbn [fst snd].
  split; [reflexivity|]. split; [intros rate p; split; apply moved_nan|exact largest_nan].
Qed.
Print Assumptions C143_at_obstacle_refuted.

(** A weight of one, a radius of ten and a way of three and four: the distance is five and the gradient (-3, -4). *)
Example C143_met : amount (s_of 1 0) /\ amount (s_of 10 0) /\ usual (d_of 3 0) (d_of 4 0) /\ 0 < B2R (s_of 10 0) /\ push 1 10 5 3 = -3 /\
  Beqb (fst (f_collision (s_of 1 0) (s_of 10 0) (d_of 3 0) (d_of 4 0))) (d_of (-3) 0) = true /\ Beqb (snd (f_collision (s_of 1 0) (s_of 10 0) (d_of 3 0) (d_of 4 0))) (d_of (-4) 0) = true.
Proof.
  destruct (of_int_real 1 ltac:(cbn; lia)) as [F1 E1]. destruct (of_int_real 10 ltac:(cbn; lia)) as [F10 E10]. destruct (int_double 3 ltac:(lia)) as [F3 E3]. destruct (int_double 4 ltac:(lia)) as [F4 E4].
  assert (U : 10 <= bpow radix2 30) by (rewrite p30; lra). assert (U' : bpow radix2 30 <= bpow radix2 60) by (apply bpow_le; lia). assert (L : bpow radix2 (-60) <= 1) by (change 1 with (bpow radix2 0); apply bpow_le; lia).
  split; [split; [exact F1|rewrite E1; lra]|]. split; [split; [exact F10|rewrite E10; lra]|]. split.
  - split; [exact F3|]. split; [exact F4|]. rewrite E3, E4. rewrite !Rabs_pos_eq by lra. split; [lra|]. split; [lra|]. replace (3 * 3 + 4 * 4) with (5 * 5) by ring. rewrite sqrt_square by lra. lra.
  - split; [rewrite E10; lra|]. split; [unfold push; destruct (Rlt_dec 5 10); [field|exfalso; lra]|]. split; vm_compute; reflexivity.
Qed.
