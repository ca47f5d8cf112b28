(** Properties C36 to C41, C44 and C64, of Reeds-Shepp paths and their solver. *)
From Coq Require Import Reals Lra Psatz.
From Coq Require Import ZifyBool ZifyNat ZifyN.
From Verif Require Import Base RealBase Pose_model Pose_spec Pose_proofs Straight_model Straight_spec Bicycle_model Bicycle_spec Bicycle_proofs SmootherGrad_proofs
  Composite_model Composite_spec Composite_proofs Composite_props Rs_model Rs_spec Rs_proofs RsWord_proofs RsSolver_proofs.
Local Open Scope R_scope.

(** ** C37: a path of a segment that holds the motions [l] *)

(** It starts at its initial pose, and ends at the final pose after all motions. *)
Theorem C37_ends :
  forall init g l radius, holds_motions g l -> 0 < radius ->
  same_pose (rs_at (rs_new init g radius) 0) init /\
  rs_at (rs_new init g radius) 1 = q_final (rs_new init g radius) /\
  same_pose (q_final (rs_new init g radius)) (drive radius l init) /\
  q_length (rs_new init g radius) = radius * motions_length l.
Proof. exact rs_ends. Qed.
Print Assumptions C37_ends.

(** In between, after the length [d], the car drives the motion reached there. *)
Theorem C37_drives_motions :
  forall init g l radius ratio before m s, holds_motions g l -> 0 < radius -> 0 <= ratio <= 1 ->
  reaches l (ratio * motions_length l) before m s ->
  same_pose (rs_at (rs_new init g radius) ratio) (driven radius (m_steer m) (drive radius before init) (signed (m_dir m) s)).
Proof.
  intros init g l r ratio before m s H Hr Hq Hm. rewrite <- (drive_for_reaches r l (proj2 (proj2 (proj2 H))) _ init _ _ _ Hm). now apply rs_at_drive.
Qed.
Print Assumptions C37_drives_motions.

(** A motion is reached after every length. *)
Theorem C37_motion_reached :
  forall l d, Forall proper l -> l <> [] -> 0 <= d <= motions_length l -> exists before m s, reaches l d before m s.
Proof. exact reaches_exists. Qed.
Print Assumptions C37_motion_reached.

(** Driving a motion: the heading gives the direction of the movement, with unit speed, and its rate of change is the inverse of the
    radius, to the left or to the right, or zero. Turns are on circles of this radius. *)
Theorem C37_turning_radius :
  forall radius st p s, radius <> 0 ->
  D (fun t => px (driven radius st p (t / radius))) s (cos (pth (driven radius st p (s / radius)))) /\
  D (fun t => py (driven radius st p (t / radius))) s (sin (pth (driven radius st p (s / radius)))) /\
  D (fun t => pth (driven radius st p (t / radius))) s (curvature radius st).
Proof. exact driven_equations. Qed.
Print Assumptions C37_turning_radius.

Theorem C37_circles :
  forall radius st p, 0 <= radius -> st <> SStraight -> exists center, forall s, on_circle center radius (position (driven radius st p s)).
Proof. exact driven_circle. Qed.
Print Assumptions C37_circles.

(** It never moves farther than the travelled length; hence it is continuous. *)
Theorem C37_no_jump :
  forall init g l radius a b, holds_motions g l -> 0 < radius -> 0 <= a <= 1 -> 0 <= b <= 1 ->
  distance (position (rs_at (rs_new init g radius) a)) (position (rs_at (rs_new init g radius) b)) <= Rabs (a - b) * q_length (rs_new init g radius).
Proof. exact rs_at_distance. Qed.
Print Assumptions C37_no_jump.

(** ** C38: every word that applies is a path to the goal *)
Theorem C38_word_reaches_goal :
  forall start goal radius w t u v len, 0 < radius -> applies start goal radius w t u v len ->
  exists g l, get_path w t u v = Ok g /\ holds_motions g l /\ l <> [] /\ motions_length l = len /\
  same_pose (drive radius l start) goal /\ same_pose (q_final (rs_new start g radius)) goal.
Proof. exact word_goal. Qed.
Print Assumptions C38_word_reaches_goal.

(** ** C39 *)

(** The distance is the smallest length of all words that apply, and some word always applies. *)
Theorem C39_shortest_distance :
  forall start goal radius, exists d w t u v,
  shortest_distance start goal radius = Some d /\ applies start goal radius w t u v d /\
  shortest_path start goal radius = get_path w t u v /\
  (forall w' t' u' v' len', applies start goal radius w' t' u' v' len' -> d <= len').
Proof. exact shortest_distance_spec. Qed.
Print Assumptions C39_shortest_distance.

(** The shortest path goes to the goal and its length is the distance times the radius, at least the Euclidean distance. *)
Theorem C39_shortest_path :
  forall start goal radius, 0 < radius -> exists d g l,
  shortest_distance start goal radius = Some d /\ shortest_path start goal radius = Ok g /\ holds_motions g l /\
  same_pose (q_final (rs_new start g radius)) goal /\ q_length (rs_new start g radius) = d * radius /\
  distance (position start) (position goal) <= d * radius.
Proof. exact shortest_path_spec. Qed.
Print Assumptions C39_shortest_path.

(** The optimal path is one of the words' and none of them costs less; so is that of a connection, which goes to the goal. *)
Theorem C39_optimal_path :
  forall start goal radius reverse forward switching, 0 < radius ->
  exists w g c, optimal_path start goal radius reverse forward switching = Ok g /\ (w < num_words)%nat /\ offered start goal radius w g /\
  rs_connect radius switching reverse forward start goal = Ok (rs_new start g radius) /\
  same_pose (q_final (rs_new start g radius)) goal /\
  rs_cost (rs_new start g radius) switching reverse forward = Some c /\
  (forall w' g', offered start goal radius w' g' -> exists c', g_cost g' radius reverse forward switching = Some c' /\ c <= c').
Proof. exact optimal_path_spec. Qed.
Print Assumptions C39_optimal_path.

(** If the multipliers are 1 and switching is free, the optimal path is as short as the shortest. *)
Theorem C39_optimal_shortest :
  forall start goal radius g d, 0 < radius -> optimal_path start goal radius 1 1 0 = Ok g -> shortest_distance start goal radius = Some d ->
  g_length g = d.
Proof. exact optimal_shortest. Qed.
Print Assumptions C39_optimal_shortest.

(** Straight ahead, the distance is exact; in particular no distance from a pose to itself. *)
Theorem C39_straight_ahead :
  forall start radius s, 0 < radius -> 0 <= s -> shortest_distance start (driven radius SStraight start s) radius = Some s.
Proof. exact shortest_ahead. Qed.
Print Assumptions C39_straight_ahead.

(** Refuted: the distance is not the length of the shortest path, but in units of the radius. *)
Theorem C39_distance_unscaled_refuted :
  exists start goal radius d g, 0 < radius /\ shortest_distance start goal radius = Some d /\ shortest_path start goal radius = Ok g /\
  q_length (rs_new start g radius) <> d /\ d < distance (position start) (position goal).
Proof. exact distance_unscaled. Qed.
Print Assumptions C39_distance_unscaled_refuted.

(** ** C40 *)

(** Missing for the full statement: a forward multiplier other than 1, together with a reverse multiplier 1 and a switching cost 0. *)
Theorem C40_cost_partial :
  forall init g l radius switching reverse forward, holds_motions g l -> l <> [] -> forward = 1 \/ reverse <> 1 \/ switching <> 0 ->
  rs_cost (rs_new init g radius) switching reverse forward = Some (documented_cost l radius reverse forward switching).
Proof. intros. unfold rs_cost, rs_new. cbn [q_segment q_radius]. now apply g_cost_spec. Qed.
Print Assumptions C40_cost_partial.

Definition ahead1 : rs_segment := RsSegment [Some (Sf 1); None; None; None; None] 1.
Lemma ahead1_holds : holds_motions ahead1 [Sf 1].
Proof. split; [reflexivity|]. split; [unfold num_motion; cbn [length]; lia|]. split; [cbn; lra|]. constructor; [split; cbn; [easy|lra]|constructor]. Qed.

(** Refuted: then the forward multiplier is ignored. *)
Theorem C40_forward_multiplier_refuted :
  exists g l radius switching reverse forward c, holds_motions g l /\ l <> [] /\
  g_cost g radius reverse forward switching = Some c /\ c <> documented_cost l radius reverse forward switching.
Proof.
  exists ahead1, [Sf 1], 1, 0, 1, 2, 1. split; [apply ahead1_holds|]. split; [easy|]. unfold g_cost, documented_cost. cbn.
  destruct (Reqb_spec 1 1); [|lra]. destruct (Reqb_spec 0 0); [|lra]. cbn. split; [f_equal; ring|lra].
Qed.
Print Assumptions C40_forward_multiplier_refuted.

(** Refuted: a motion without length counts as two changes of direction. *)
Definition pause : rs_segment := RsSegment [Some (Sf 1); Some (Sb 0); Some (Sf 1); None; None] 2.
Lemma pause_holds : holds_motions pause [Sf 1; Sb 0; Sf 1].
Proof. split; [reflexivity|]. split; [unfold num_motion; cbn [length]; lia|]. split; [cbn; lra|]. repeat (constructor; [split; cbn; [easy|lra]|]). constructor. Qed.

Theorem C40_pause_refuted :
  exists g l init radius switching c, holds_motions g l /\ 0 < radius /\
  (forall ratio, 0 <= ratio <= 1 -> same_pose (rs_at (rs_new init g radius) ratio) (Pose (ratio * q_length (rs_new init g radius)) 0 0)) /\
  g_cost g radius 1 1 switching = Some c /\ c <> q_length (rs_new init g radius).
Proof. exact (pause_cost pause pause_holds). Qed.
Print Assumptions C40_pause_refuted.

(** ** C41 *)
Theorem C41_involutions :
  forall g, timeflip (timeflip g) = g /\ reflect (reflect g) = g /\ timeflip (reflect g) = reflect (timeflip g) /\
  g_length (timeflip g) = g_length g /\ g_length (reflect g) = g_length g.
Proof. exact flips. Qed.
Print Assumptions C41_involutions.

(** All poses along the flipped path are the mirrored poses. *)
Theorem C41_mirror_images :
  forall init g l radius ratio, holds_motions g l -> 0 < radius -> 0 <= ratio <= 1 ->
  same_pose (rs_at (rs_new (mirror_time init) (timeflip g) radius) ratio) (mirror_time (rs_at (rs_new init g radius) ratio)) /\
  same_pose (rs_at (rs_new (mirror_side init) (reflect g) radius) ratio) (mirror_side (rs_at (rs_new init g radius) ratio)).
Proof. exact flips_at. Qed.
Print Assumptions C41_mirror_images.

(** The flipped segments hold the flipped motions. *)
Theorem C41_motions :
  forall g l, holds_motions g l ->
  holds_motions (timeflip g) (map (fun m => Motion (m_steer m) (flip_dir (m_dir m)) (m_len m)) l) /\
  holds_motions (reflect g) (map (fun m => Motion (flip_steer (m_steer m)) (m_dir m) (m_len m)) l).
Proof. intros g l H. split; [now apply timeflip_holds|now apply reflect_holds]. Qed.
Print Assumptions C41_motions.

(** ** C36 *)

(** The states of the truncated path; [m] is the motion that is cut. Missing for the full statement: states within this motion,
    unless it is the last of five. *)
Theorem C36_truncate_partial :
  forall init g before m after radius r q, holds_motions g (before ++ m :: after) -> 0 < radius -> 0 <= r <= 1 -> 0 <= q <= 1 ->
  motions_length before < r * motions_length (before ++ m :: after) <= motions_length before + m_len m ->
  q * (r * motions_length (before ++ m :: after)) <= motions_length before \/ length before = 4%nat ->
  same_pose (rs_at (rs_truncate (rs_new init g radius) r) q) (rs_at (rs_new init g radius) (r * q)).
Proof. intros init g before m after radius r q K Hr Hq Hs Hm Hc. now apply (truncate_at init g radius before m after r q). Qed.
Print Assumptions C36_truncate_partial.

(** The final state, the length and the initial state are right, for all ratios. *)
Theorem C36_truncate_ends :
  forall p r, q_final (rs_truncate p r) = rs_at p r /\ q_length (rs_truncate p r) = q_length p * r /\ q_init (rs_truncate p r) = q_init p.
Proof. exact truncate_state. Qed.
Print Assumptions C36_truncate_ends.

(** Refuted: for every path, the states within the cut motion are those of its beginning, unless it is the last of five. *)
Theorem C36_truncate_refuted :
  forall init g before m after radius r q, holds_motions g (before ++ m :: after) -> 0 < radius -> 0 <= r <= 1 -> 0 <= q <= 1 ->
  motions_length before < r * motions_length (before ++ m :: after) <= motions_length before + m_len m ->
  motions_length before <= q * (r * motions_length (before ++ m :: after)) -> (length before < 4)%nat ->
  same_pose (rs_at (rs_truncate (rs_new init g radius) r) q) (drive radius before init).
Proof. intros init g before m after radius r q K Hr Hq Hs Hm. now apply (truncate_at init g radius before m after r q). Qed.
Print Assumptions C36_truncate_refuted.

(** In particular the last state is not the final state, even without shortening the path. *)
Theorem C36_final_state_refuted :
  exists init g l radius, holds_motions g l /\ 0 < radius /\
  ~ same_pose (rs_at (rs_truncate (rs_new init g radius) 1) 1) (q_final (rs_truncate (rs_new init g radius) 1)).
Proof.
  exists (Pose 0 0 0), ahead1, [Sf 1], 1. split; [apply ahead1_holds|]. split; [lra|]. intros H. destruct (truncate_state (rs_new (Pose 0 0 0) ahead1 1) 1) as (E & _). rewrite E in H.
  pose proof (C36_truncate_refuted (Pose 0 0 0) ahead1 [] (Sf 1) [] 1 1 1 ahead1_holds ltac:(lra) ltac:(lra) ltac:(lra) ltac:(cbn; lra) ltac:(cbn; lra) ltac:(cbn; lia)) as K.
  destruct (C37_ends (Pose 0 0 0) ahead1 [Sf 1] 1 ahead1_holds ltac:(lra)) as (_ & F & G & _). rewrite <- F in G.
  destruct K as (K & _). destruct G as (G & _). destruct H as (H & _). rewrite K, G in H. cbn in H. rewrite cos_0 in H. lra.
Qed.
Print Assumptions C36_final_state_refuted.

(** ** C64: directions and cusps *)

(** The direction is that of the motion reached at this ratio, where it has driven some of it. *)
Theorem C64_direction_partial :
  forall init g l radius ratio, holds_motions g l -> 0 < radius -> 0 < motions_length l -> 0 < ratio <= 1 ->
  exists before m s, reaches l (ratio * motions_length l) before m s /\ 0 < s /\ rs_direction (rs_new init g radius) ratio = m_dir m.
Proof. exact direction_spec. Qed.
Print Assumptions C64_direction_partial.

(** The cusps are the ends of motions that are followed by one in the other direction. *)
Theorem C64_cusps_partial :
  forall init g l radius x, holds_motions g l -> 0 < radius -> 0 < motions_length l ->
  (In x (rs_cusps (rs_new init g radius)) <->
   exists before a b after, l = before ++ a :: b :: after /\ m_dir a <> m_dir b /\ x = motions_length (before ++ [a]) / motions_length l).
Proof. intros. now apply cusps_rs. Qed.
Print Assumptions C64_cusps_partial.

(** Hence, if no motion is without length, the cusps are exactly the ratios where the direction changes. *)
Theorem C64_cusps_are_changes :
  forall init g l radius x, holds_motions g l -> 0 < radius -> l <> [] -> (forall m, In m l -> 0 < m_len m) ->
  (In x (rs_cusps (rs_new init g radius)) <-> 0 < x < 1 /\ exists d1 d2, d1 <> d2 /\ exists e, 0 < e /\
     (forall y, x - e < y <= x -> 0 <= y -> rs_direction (rs_new init g radius) y = d1) /\
     (forall y, x < y < x + e -> y <= 1 -> rs_direction (rs_new init g radius) y = d2)).
Proof. exact cusps_changes. Qed.
Print Assumptions C64_cusps_are_changes.

(** Refuted: a motion without length gives a cusp although the car only drives ahead. *)
Theorem C64_pause_cusp_refuted :
  exists init g l radius, holds_motions g l /\ 0 < radius /\ In (1 / 2) (rs_cusps (rs_new init g radius)) /\
  (forall ratio, 0 <= ratio <= 1 -> rs_direction (rs_new init g radius) ratio = Forward).
Proof.
  exists (Pose 0 0 0), pause, [Sf 1; Sb 0; Sf 1], 1. split; [apply pause_holds|]. split; [lra|]. split.
  - apply (cusps_rs _ _ _ _ _ pause_holds); [lra|cbn; lra|]. exists [], (Sf 1), (Sb 0), [Sf 1]. split; auto. split; [easy|]. cbn. field.
  - intros ratio Hq. unfold rs_direction, rs_new, pause. cbn [q_length q_radius q_segment g_length g_motions]. destruct (Reqb_spec (2 * 1) 0); [lra|]. cbn.
    destruct (Rleb_spec (ratio * (2 * 1)) (0 + 1 * 1)); auto. destruct (Rleb_spec (ratio * (2 * 1)) (0 + 1 * 1 + 0 * 1)); [lra|]. destruct (Rleb_spec (ratio * (2 * 1)) (0 + 1 * 1 + 0 * 1 + 1 * 1)); auto; lra.
Qed.
Print Assumptions C64_pause_cusp_refuted.

(** Refuted: at the start, the direction may be that of a motion that has no length. *)
Theorem C64_initial_direction_refuted :
  exists init g l radius, holds_motions g l /\ 0 < radius /\ rs_direction (rs_new init g radius) 0 = Backward /\
  (forall ratio, 0 < ratio <= 1 -> rs_direction (rs_new init g radius) ratio = Forward).
Proof.
  exists (Pose 0 0 0), (RsSegment [Some (Sb 0); Some (Sf 1); None; None; None] 1), [Sb 0; Sf 1], 1. split.
  { split; [reflexivity|]. split; [unfold num_motion; cbn [length]; lia|]. split; [cbn; lra|]. repeat (constructor; [split; cbn; [easy|lra]|]). constructor. }
  split; [lra|]. unfold rs_direction, rs_new. cbn [q_length q_radius q_segment g_length g_motions]. destruct (Reqb_spec (1 * 1) 0); [lra|]. cbn. split.
  - destruct (Rleb_spec (0 * (1 * 1)) (0 + 0 * 1)); auto. lra.
  - intros ratio Hq. destruct (Rleb_spec (ratio * (1 * 1)) (0 + 0 * 1)); [lra|]. destruct (Rleb_spec (ratio * (1 * 1)) (0 + 0 * 1 + 1 * 1)); auto. lra.
Qed.
Print Assumptions C64_initial_direction_refuted.

(** ** C44 *)

(** Refuted: the cusp inside the second of two paths is given relative to this path. The direction of the composite changes at 2/3,
    but 1/2 is returned, where the car drives ahead. *)
Definition back_and_forth : rs_segment := RsSegment [Some (Sf 1); Some (Sb 1); None; None; None] 2.
Lemma back_holds : holds_motions back_and_forth [Sf 1; Sb 1].
Proof. split; [reflexivity|]. split; [unfold num_motion; cbn [length]; lia|]. split; [cbn; lra|]. repeat (constructor; [split; cbn; [easy|lra]|]). constructor. Qed.
Definition rs_parts : list rspath := [rs_new (Pose 0 0 0) ahead1 1; rs_new (Pose 1 0 0) back_and_forth 1].
Definition rs_composite : composite pose rspath := compose pose rspath q_length q_final (Pose 0 0 0) rs_parts.

Theorem C44_inner_cusp_refuted :
  let direction := k_direction pose rspath q_length rs_direction rs_composite in
  let cusps := k_cusps pose rspath q_length rs_direction rs_cusps rs_composite in
  (forall ratio, 0 <= ratio <= 2 / 3 -> direction ratio = Ok Forward) /\ (forall ratio, 2 / 3 < ratio < 1 -> direction ratio = Ok Backward) /\
  ~ In (2 / 3) cusps /\ In (1 / 2) cusps.
Proof.
  intros direction cusps. assert (Hp : forall p, In p rs_parts -> 0 <= q_length p) by (intros p [<-|[<-|[]]]; cbn; lra).
  assert (D1 : forall s, 0 <= s <= 1 -> rs_direction (rs_new (Pose 0 0 0) ahead1 1) s = Forward).
  { intros s Hs. unfold rs_direction, rs_new, ahead1. cbn [q_length q_radius q_segment g_length g_motions]. destruct (Reqb_spec (1 * 1) 0); [lra|]. cbn. destruct (Rleb_spec (s * (1 * 1)) (0 + 1 * 1)); auto; lra. }
  assert (D2 : forall s, 0 <= s <= 1 -> rs_direction (rs_new (Pose 1 0 0) back_and_forth 1) s = if Rleb s (1 / 2) then Forward else Backward).
  { intros s Hs. unfold rs_direction, rs_new, back_and_forth. cbn [q_length q_radius q_segment g_length g_motions]. destruct (Reqb_spec (2 * 1) 0); [lra|]. cbn.
    destruct (Rleb_spec (s * (2 * 1)) (0 + 1 * 1)), (Rleb_spec s (1 / 2)); auto; try lra. destruct (Rleb_spec (s * (2 * 1)) (0 + 1 * 1 + 1 * 1)); auto; lra. }
  assert (T : total rspath q_length rs_parts = 3) by (cbn; lra).
  assert (Dir : forall ratio, 0 <= ratio < 1 -> direction ratio = Ok (if Rleb ratio (2 / 3) then Forward else Backward)).
  { intros ratio Hq. destruct (make_direction pose rspath q_length q_final (fun p s => Ok (rs_at p s)) rs_truncate rs_direction (Pose 0 0 0) rs_parts ratio Hp) as (p & s & (b & a & E & Hs & Ea) & S1 & _ & Ed); [lra|lra|].
    unfold direction, rs_composite. rewrite Ed. f_equal. rewrite T in Ea. unfold rs_parts in E. destruct b as [|b1 [|b2 b]].
    - injection E as <- <-. rewrite D1 by lra. cbn in Ea. destruct (Rleb_spec ratio (2 / 3)); auto; lra.
    - injection E as <- <- <-. rewrite D2 by lra. cbn in Ea. destruct (Rleb_spec ratio (2 / 3)), (Rleb_spec s (1 / 2)); auto; lra.
    - destruct b; discriminate. }
  split. { intros ratio Hq. rewrite Dir by lra. destruct (Rleb_spec ratio (2 / 3)); auto; lra. }
  split. { intros ratio Hq. rewrite Dir by lra. destruct (Rleb_spec ratio (2 / 3)); auto; lra. }
  assert (C1 : forall x, In x (rs_cusps (rs_new (Pose 0 0 0) ahead1 1)) -> False).
  { intros x I. apply (cusps_rs _ _ _ _ _ ahead1_holds) in I; [|lra|cbn; lra]. destruct I as ([|? [|? ?]] & a & b & post & E & _); discriminate. }
  assert (C2 : forall x, In x (rs_cusps (rs_new (Pose 1 0 0) back_and_forth 1)) <-> x = 1 / 2).
  { intros x. rewrite (cusps_rs _ _ _ _ x back_holds) by (cbn; lra). split.
    - intros (pre & a & b & post & E & _ & ->). destruct pre as [|? [|? [|? ?]]]; try discriminate. injection E as <- <- <-. cbn. field.
    - intros ->. exists [], (Sf 1), (Sb 1), []. split; auto. split; [easy|]. cbn. field. }
  unfold cusps, rs_composite. rewrite !C44_cusps_partial by auto. split.
  - intros [(p & I & J)|(b & p & q & a & E & Hd & _)].
    + destruct I as [<-|[<-|[]]]; [eapply C1; eauto|]. apply C2 in J. lra.
    + apply Hd. destruct b as [|? [|? [|? ?]]]; try discriminate. injection E as <- <- <-. rewrite D1, D2 by lra. destruct (Rleb_spec 0 (1 / 2)); auto; lra.
  - left. exists (rs_new (Pose 1 0 0) back_and_forth 1). split; [cbn; auto|]. now apply C2.
Qed.
Print Assumptions C44_inner_cusp_refuted.

(** ** The hypotheses are met *)
Example some_word_applies : exists w t u v len, applies (Pose 0 0 0) (Pose 3 4 1) 2 w t u v len.
Proof. apply word_exists. Qed.
Example word_0_applies : applies (Pose 1 2 3) (driven 2 SStraight (Pose 1 2 3) 5) 2 0 0 5 0 5.
Proof. apply ahead_applies; lra. Qed.
Example motions_held : holds_motions back_and_forth [Sf 1; Sb 1] /\ reaches [Sf 1; Sb 1] (3 / 4 * motions_length [Sf 1; Sb 1]) [Sf 1] (Sb 1) (1 / 2).
Proof. split; [apply back_holds|]. split; [now exists []|]. cbn. split; lra. Qed.
(** Truncating in the fifth motion. *)
Example five_motions : motions_length [Lf 1; Rb 1; Sb 1; Lb 1] < 9 / 10 * motions_length [Lf 1; Rb 1; Sb 1; Lb 1; Rf 1] <= motions_length [Lf 1; Rb 1; Sb 1; Lb 1] + m_len (Rf 1).
Proof. cbn. lra. Qed.
