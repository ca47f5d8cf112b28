(** Properties C95 and C96: the Reeds-Shepp solver among all curves of Reeds and Shepp, and the laws of its distance. *)
From Coq Require Import Reals Lra.
From Verif Require Import Base RealBase Pose_model Pose_spec Pose_proofs Straight_model Straight_spec Bicycle_model Bicycle_spec Rs_model Rs_spec Rs_proofs RsWord_proofs
  RsSolver_proofs RsCurve_spec RsCurve_proofs RsSym_proofs RsMetric_proofs.
Local Open Scope R_scope.

(** ** C95 *)

(** No curve of Reeds and Shepp that leads from the start to the goal is shorter than the distance: the formulas of the solver miss none. *)
Theorem C95_no_shorter_curve :
  forall start goal radius d l, 0 < radius -> shortest_distance start goal radius = Some d ->
  rs_curve l -> same_pose (drive radius l start) goal -> d <= motions_length l.
Proof. intros start goal radius d l Hr Hd. exact (rs_curve_le start goal radius d Hr Hd l). Qed.
Print Assumptions C95_no_shorter_curve.

(** No such curve costs less than the optimal path, whatever the multipliers and the cost of a change of direction. *)
Theorem C95_no_cheaper_curve :
  forall start goal radius reverse forward switching l g', 0 < radius -> rs_curve l -> lasting l -> same_pose (drive radius l start) goal ->
  holds_motions g' l ->
  exists g c c', optimal_path start goal radius reverse forward switching = Ok g /\ rs_cost (rs_new start g radius) switching reverse forward = Some c /\
  rs_cost (rs_new start g' radius) switching reverse forward = Some c' /\ c <= c'.
Proof. exact curve_cost. Qed.
Print Assumptions C95_no_cheaper_curve.

(** A car parks backward: to the right forward, then to the left backward, then straight back. *)
Example C95_parking : exists l goal g, rs_curve l /\ lasting l /\ same_pose (drive 2 l zero_pose) goal /\ holds_motions g l /\ motions_length l = PI / 4 + PI / 2 + 3.
Proof.
  pose proof PI_gt_1. exists [Rf (PI / 4); Lb (PI / 2); Sb 3; Rb 0], (drive 2 [Rf (PI / 4); Lb (PI / 2); Sb 3; Rb 0] zero_pose).
  assert (F : Forall proper [Rf (PI / 4); Lb (PI / 2); Sb 3; Rb 0]) by props. destruct (add_motions_holds _ g_new [] g_new_holds F) as (g & _ & Hg). { cbn. unfold num_motion. repeat constructor. }
  exists g. split; [|split; [|split; [apply same_pose_refl|split; [exact Hg|]]]].
  - exists [Lf (PI / 4); Rb (PI / 2); Sb 3; Lb 0]. split; [constructor; unfold full_turn; lra|]. right. right. left. reflexivity.
  - intros m Hm. cbn in Hm. destruct Hm as [<- |[<- |[]]]; cbn; lra.
  - cbn. lra.
Qed.

(** ** C96 *)

(** As far from the goal to the start as from the start to the goal. *)
Theorem C96_symmetric : forall a b radius, 0 < radius -> shortest_distance a b radius = shortest_distance b a radius.
Proof. exact symmetric. Qed.
Print Assumptions C96_symmetric.

(** No distance if and only if the poses are the same; a distance is never negative. *)
Theorem C96_zero : forall a b radius, 0 < radius -> (shortest_distance a b radius = Some 0 <-> same_pose a b).
Proof. exact distance_zero. Qed.
Print Assumptions C96_zero.
Theorem C96_nonnegative : forall a b radius d, 0 < radius -> shortest_distance a b radius = Some d -> 0 <= d.
Proof. exact distance_nonneg. Qed.
Print Assumptions C96_nonnegative.

(** The distance does not depend on how the headings are written, nor on where the two poses are placed in the plane. *)
Theorem C96_headings : forall a a' b b' radius, same_pose a a' -> same_pose b b' -> shortest_distance a b radius = shortest_distance a' b' radius.
Proof. exact distance_same. Qed.
Print Assumptions C96_headings.
Theorem C96_placed : forall m a b radius, shortest_distance (pose_add m a) (pose_add m b) radius = shortest_distance a b radius.
Proof. exact distance_placed. Qed.
Print Assumptions C96_placed.

(** Nor on the unit of length, as it is counted in radii; nor on the side, nor on the end of the car that is in front. *)
Theorem C96_scaled : forall s a b radius, 0 < s -> 0 < radius -> shortest_distance (enlarged s a) (enlarged s b) (s * radius) = shortest_distance a b radius.
Proof. exact distance_scaled. Qed.
Print Assumptions C96_scaled.
Theorem C96_mirrored : forall a b radius, shortest_distance (mirror_side a) (mirror_side b) radius = shortest_distance a b radius.
Proof. exact distance_mirror_side. Qed.
Print Assumptions C96_mirrored.
Theorem C96_about_face : forall a b radius, shortest_distance (about_face a) (about_face b) radius = shortest_distance a b radius.
Proof. exact distance_about_face. Qed.
Print Assumptions C96_about_face.

(** At least the angle to turn. *)
Theorem C96_heading_change : forall a b radius d, 0 < radius -> shortest_distance a b radius = Some d -> Rabs (pth (pose_sub b a)) <= d.
Proof. exact distance_heading. Qed.
Print Assumptions C96_heading_change.

(** To turn by a quarter on the circle takes a quarter of a turn exactly: the bound and the absence of a shorter curve meet. *)
Example C96_quarter_turn : shortest_distance zero_pose (Pose 2 2 (PI / 2)) 2 = Some (PI / 2) /\ shortest_distance (Pose 2 2 (PI / 2)) zero_pose 2 = Some (PI / 2).
Proof.
  assert (E : shortest_distance zero_pose (Pose 2 2 (PI / 2)) 2 = Some (PI / 2)).
  { pose proof PI_gt_1. destruct (distance_some zero_pose (Pose 2 2 (PI / 2)) 2) as (d & Ed). rewrite Ed. f_equal. apply Rle_antisym.
    - apply Rle_trans with (motions_length [Lf (PI / 2); Sf 0; Lf 0]); [|cbn; lra]. apply (C95_no_shorter_curve zero_pose (Pose 2 2 (PI / 2)) 2 d); auto; [lra| |].
      + exists [Lf (PI / 2); Sf 0; Lf 0]. split; [constructor; unfold half_turn; lra|left; reflexivity].
      + geo. repeat first [rewrite Rplus_0_l|rewrite Rplus_0_r]. rewrite sin_PI2, cos_PI2, sin_0, cos_0. split; [|split]; cbn [px py pth]; [ring|ring|apply same_angle_refl].
    - pose proof (C96_heading_change _ _ 2 _ ltac:(lra) Ed) as B. destruct (sub_fields (Pose 2 2 (PI / 2)) zero_pose) as (_ & _ & T). rewrite T in B. cbn [pth zero_pose] in B.
      rewrite Rminus_0_r, (wrap_keep (PI / 2)) in B by (split; lra). rewrite Rabs_right in B by lra. exact B. }
  split; auto. rewrite C96_symmetric by lra. exact E.
Qed.
