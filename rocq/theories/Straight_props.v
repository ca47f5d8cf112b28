(** C33: straight paths interpolate and truncate consistently. *)
From Coq Require Import Reals Lra.
From Verif Require Import Base RealBase Pose_model Coords_model Straight_model Straight_spec Straight_proofs.
Local Open Scope R_scope.

(** C33 for PathR2: the ends of a connection are the given points. *)
Theorem C33_R2_connects : forall a b, r_at (r_connect a b) 0 = a /\ r_at (r_connect a b) 1 = b /\
  r_init (r_connect a b) = a /\ r_final (r_connect a b) = b /\ r_length (r_connect a b) = distance a b.
Proof. intros a b. rewrite r_at_0, r_at_1. repeat split. Qed.
Print Assumptions C33_R2_connects.

(** C33 for PathR2: interpolation runs from the initial to the final state at constant speed. *)
Theorem C33_R2_interpolates : forall p, rbuilt p ->
  r_at p 0 = r_init p /\ r_at p 1 = r_final p /\
  (forall r q, distance (r_at p r) (r_at p q) = Rabs (q - r) * r_length p) /\
  (forall r, 0 <= r -> distance (r_init p) (r_at p r) = r * r_length p).
Proof.
  intros p B. split; [apply r_at_0|]. split; [apply r_at_1|]. split; [intros r q; apply r_at_distance, B|].
  intros r Hr. rewrite <- (r_at_0 p) at 1. rewrite (r_at_distance p 0 r B), Rminus_0_r, (Rabs_pos_eq r Hr). reflexivity.
Qed.
Print Assumptions C33_R2_interpolates.

(** C33 for PathR2: truncation keeps the initial part. *)
Theorem C33_R2_truncates : forall p r,
  (forall q, r_at (r_truncate p r) q = r_at p (q * r)) /\
  r_init (r_truncate p r) = r_init p /\ r_final (r_truncate p r) = r_at p r /\
  r_length (r_truncate p r) = r * r_length p /\
  (forall q, r_truncate (r_truncate p r) q = r_truncate p (r * q)).
Proof.
  intros p r. split; [intros q; apply r_truncate_at|]. repeat (split; [reflexivity|]).
  split; [cbn; ring|intros q; apply r_truncate_twice].
Qed.
Print Assumptions C33_R2_truncates.

(** C33 for PathSE2. *)
Theorem C33_SE2_connects : forall a b, s_at (s_connect a b) 0 = a /\ s_at (s_connect a b) 1 = b /\
  s_init (s_connect a b) = a /\ s_final (s_connect a b) = b /\
  s_length (s_connect a b) = distance (position a) (position b).
Proof. intros a b. rewrite s_at_0, s_at_1. repeat split. Qed.
Print Assumptions C33_SE2_connects.

Theorem C33_SE2_interpolates : forall p, sbuilt p ->
  s_at p 0 = s_init p /\ s_at p 1 = s_final p /\
  (forall r q, distance (position (s_at p r)) (position (s_at p q)) = Rabs (q - r) * s_length p) /\
  (forall r, 0 <= r -> distance (position (s_init p)) (position (s_at p r)) = r * s_length p) /\
  (forall r, pth (s_at p r) = pth (s_init p) + r * (pth (s_final p) - pth (s_init p))).
Proof.
  intros p B. split; [apply s_at_0|]. split; [apply s_at_1|]. split; [intros r q; apply s_at_distance, B|].
  split; [|intros r; cbn; ring].
  intros r Hr. rewrite <- (s_at_0 p) at 1. rewrite (s_at_distance p 0 r B), Rminus_0_r, (Rabs_pos_eq r Hr). reflexivity.
Qed.
Print Assumptions C33_SE2_interpolates.

Theorem C33_SE2_truncates : forall p r,
  (forall q, s_at (s_truncate p r) q = s_at p (q * r)) /\
  s_init (s_truncate p r) = s_init p /\ s_final (s_truncate p r) = s_at p r /\
  s_length (s_truncate p r) = r * s_length p /\
  (forall q, s_truncate (s_truncate p r) q = s_truncate p (r * q)).
Proof.
  intros p r. split; [intros q; apply s_truncate_at|]. repeat (split; [reflexivity|]).
  split; [cbn; ring|intros q; apply s_truncate_twice].
Qed.
Print Assumptions C33_SE2_truncates.

(** A negative ratio gives a path of negative length, so that the bound on the ratio is needed. *)
Theorem C33_negative_ratio_refuted :
  exists p r, rbuilt p /\ r_length (r_truncate p r) <> distance (r_init (r_truncate p r)) (r_final (r_truncate p r)).
Proof.
  exists (r_connect (0, 0) (1, 0)), (-1). split; [constructor|]. intros E.
  assert (L : r_length (r_truncate (r_connect (0, 0) (1, 0)) (-1)) = -1).
  { cbn. unfold pnorm, psub. cbn. replace (_ + _) with 1 by ring. rewrite sqrt_1. ring. }
  generalize (distance_pos (r_init (r_truncate (r_connect (0, 0) (1, 0)) (-1)))
                           (r_final (r_truncate (r_connect (0, 0) (1, 0)) (-1)))). lra.
Qed.
Print Assumptions C33_negative_ratio_refuted.

(** A path truncated twice. *)
Example C33_case : let p := r_truncate (r_truncate (r_connect (0, 0) (8, 4)) (1 / 2)) (1 / 2) in
  rbuilt p /\ r_at p 1 = (2, 1).
Proof. split; [repeat constructor; lra|]. unfold r_at. cbn. f_equal; field. Qed.
