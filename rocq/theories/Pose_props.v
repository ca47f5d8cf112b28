(** C45 and C47: poses and angles. *)
From Coq Require Import Reals Lra Lia SpecFloat.
From Verif Require Import Base RealBase Pose_model PoseFloat_model Pose_spec Pose_proofs.
Local Open Scope R_scope.

(** C45: composing with a difference gives the pose back, and conversely. *)
Theorem C45_add_sub_inverse :
  forall a b, same_pose (pose_add b (pose_sub a b)) a /\ same_pose (pose_sub (pose_add a b) a) b.
Proof. intros a b. split; [apply add_sub|apply sub_add]. Qed.
Print Assumptions C45_add_sub_inverse.

(** C45: the heading too is the same if it is not at the ends of its range. *)
Theorem C45_add_sub_exact : forall a b, - PI < pth a < PI -> pose_add b (pose_sub a b) = a.
Proof. exact add_exact. Qed.
Print Assumptions C45_add_sub_exact.

(** C45: composition is associative with the zero pose as unit, and respects full turns of the headings. *)
Theorem C45_monoid :
  (forall a b c, same_pose (pose_add (pose_add a b) c) (pose_add a (pose_add b c))) /\
  (forall a, same_pose (pose_add zero_pose a) a) /\ (forall a, same_pose (pose_add a zero_pose) a) /\
  (forall a a' b b', same_pose a a' -> same_pose b b' -> same_pose (pose_add a b) (pose_add a' b')) /\
  (forall a a' b b', same_pose a a' -> same_pose b b' -> same_pose (pose_sub a b) (pose_sub a' b')).
Proof.
  split; [exact add_assoc|]. split; [exact add_zero_l|]. split; [exact add_zero_r|].
  split; [exact add_compat|exact sub_compat].
Qed.
Print Assumptions C45_monoid.

(** C45: headings of constructed, added and subtracted poses are in range and the same up to full turns. *)
Theorem C45_headings_in_range :
  (forall x y th, - PI <= pth (mk_pose x y th) <= PI /\ same_angle (pth (mk_pose x y th)) th) /\
  (forall a b, - PI <= pth (pose_add a b) <= PI) /\ (forall a b, - PI <= pth (pose_sub a b) <= PI).
Proof.
  split; [|split].
  - intros x y th. split; [apply wrap_range|apply wrap_same].
  - intros a b. destruct (add_fields a b) as (_ & _ & ->). apply wrap_range.
  - intros a b. destruct (sub_fields a b) as (_ & _ & ->). apply wrap_range.
Qed.
Print Assumptions C45_headings_in_range.

(** C45: allowing more iterations does not change the result of wrapping. *)
Theorem C45_wrap_fuel :
  forall t n m, (wrap_fuel t <= n)%nat -> (wrap_fuel t <= m)%nat -> while_below m (while_above n t) = wrap_theta t.
Proof. exact wrap_more. Qed.
Print Assumptions C45_wrap_fuel.

(** In double precision, wrapping a large finite heading does not terminate: subtracting a full turn from 10^300
    (about 2^996) changes nothing. *)
Theorem C45_wrap_terminates_refuted : exists t, finite64 t = true /\ forall fuel, above64 fuel t = None.
Proof.
  exists (d64 1 996). split; [reflexivity|]. assert (E : sub64 (d64 1 996) two_pi64 = d64 1 996) by (vm_compute; reflexivity).
  assert (L : SFltb pi64 (d64 1 996) = true) by (vm_compute; reflexivity).
  induction fuel as [|n IH]; [reflexivity|]. cbn [above64]. rewrite L, E. exact IH.
Qed.
Print Assumptions C45_wrap_terminates_refuted.

(** A pose of heading beyond pi composed with another one. *)
Example C45_case : - PI < pth (mk_pose 1 2 1) < PI /\ pth (mk_pose 1 2 1) = 1 /\
  pose_add (mk_pose 3 4 2) (pose_sub (mk_pose 1 2 1) (mk_pose 3 4 2)) = mk_pose 1 2 1.
Proof.
  pose proof PI_gt_1 as HP. assert (E : pth (mk_pose 1 2 1) = 1) by (apply wrap_keep; lra).
  split; [rewrite E; lra|]. split; [exact E|]. apply add_exact. rewrite E. lra.
Qed.

(** C47, in exact arithmetic. *)
Theorem C47_modulo_partial :
  forall x m, 0 < m -> 0 <= modulo x m < m /\ exists k : Z, modulo x m = x + IZR k * m.
Proof. exact modulo_spec. Qed.
Print Assumptions C47_modulo_partial.

Theorem C47_wrap_angle_partial : forall t, - PI <= wrap_angle t < PI /\ same_angle (wrap_angle t) t.
Proof. exact wrap_angle_spec. Qed.
Print Assumptions C47_wrap_angle_partial.

(** C47 does not hold in double precision: for x = -2^-60, Modulo(x, 2 pi) is 2 pi, outside [0, 2 pi). *)
Theorem C47_modulo_refuted : exists x, finite64 x = true /\ SFltb (modulo64 x two_pi64) two_pi64 = false.
Proof. exists (d64 (-1) (-60)). split; vm_compute; reflexivity. Qed.
Print Assumptions C47_modulo_refuted.

Example C47_case : modulo (-1) 3 = 2.
Proof.
  destruct (modulo_spec (-1) 3) as [H (k & Hk)]; [lra|]. assert (E : (k = 1)%Z); [|subst; lra].
  rewrite Hk in H. assert (0 < IZR k < 2) by lra. destruct H0 as [H0 H1]. apply (lt_IZR 0) in H0. apply (lt_IZR _ 2) in H1. lia.
Qed.
