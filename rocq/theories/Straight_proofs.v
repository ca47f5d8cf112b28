From Coq Require Import Reals Lra.
From Verif Require Import Base RealBase Pose_model Coords_model Straight_model Straight_spec.
Local Open Scope R_scope.

Lemma sqrt_scale k x y : sqrt ((k * x) * (k * x) + (k * y) * (k * y)) = Rabs k * sqrt (x * x + y * y).
Proof.
  replace ((k * x) * (k * x) + (k * y) * (k * y)) with (Rsqr k * (x * x + y * y)) by (unfold Rsqr; ring).
  rewrite sqrt_mult; [rewrite sqrt_Rsqr_abs; reflexivity|apply Rle_0_sqr|].
  generalize (Rle_0_sqr x) (Rle_0_sqr y). unfold Rsqr. lra.
Qed.

Lemma distance_sym a b : distance a b = distance b a.
Proof. unfold distance. f_equal. ring. Qed.

Lemma distance_self a : distance a a = 0.
Proof. unfold distance. replace (_ + _) with 0 by ring. apply sqrt_0. Qed.

Lemma distance_pos a b : 0 <= distance a b.
Proof. apply sqrt_pos. Qed.

Lemma r_length_built p : rbuilt p -> r_length p = distance (r_init p) (r_final p).
Proof.
  induction 1 as [a b|p r B IH Hr]; [reflexivity|]. cbn [r_truncate r_length r_init r_final]. rewrite IH.
  unfold distance, r_at. cbn [fst snd].
  replace ((1 - r) * fst (r_init p) + r * fst (r_final p) - fst (r_init p)) with (r * (fst (r_final p) - fst (r_init p))) by ring.
  replace ((1 - r) * snd (r_init p) + r * snd (r_final p) - snd (r_init p)) with (r * (snd (r_final p) - snd (r_init p))) by ring.
  rewrite sqrt_scale, (Rabs_pos_eq r Hr). ring.
Qed.

Lemma r_at_distance p r q : rbuilt p -> distance (r_at p r) (r_at p q) = Rabs (q - r) * r_length p.
Proof.
  intros B. rewrite (r_length_built p B). unfold distance, r_at. cbn [fst snd].
  rewrite <- sqrt_scale. f_equal. ring.
Qed.

Lemma r_at_0 p : r_at p 0 = r_init p.
Proof. unfold r_at. destruct (r_init p). cbn. f_equal; ring. Qed.
Lemma r_at_1 p : r_at p 1 = r_final p.
Proof. unfold r_at. destruct (r_final p). cbn. f_equal; ring. Qed.

Lemma r_truncate_at p r q : r_at (r_truncate p r) q = r_at p (q * r).
Proof. unfold r_truncate, r_at. cbn. f_equal; ring. Qed.

Lemma r_truncate_twice p r q : r_truncate (r_truncate p r) q = r_truncate p (r * q).
Proof.
  unfold r_truncate at 1 3. rewrite r_truncate_at. cbn [r_truncate r_init r_length].
  f_equal; [rewrite (Rmult_comm q r); reflexivity|ring].
Qed.

Lemma s_length_built p : sbuilt p -> s_length p = distance (position (s_init p)) (position (s_final p)).
Proof.
  induction 1 as [a b|p r B IH Hr]; [reflexivity|]. cbn [s_truncate s_length s_init s_final]. rewrite IH.
  unfold distance, s_at, position. cbn [fst snd px py].
  replace ((1 - r) * px (s_init p) + r * px (s_final p) - px (s_init p)) with (r * (px (s_final p) - px (s_init p))) by ring.
  replace ((1 - r) * py (s_init p) + r * py (s_final p) - py (s_init p)) with (r * (py (s_final p) - py (s_init p))) by ring.
  rewrite sqrt_scale, (Rabs_pos_eq r Hr). ring.
Qed.

Lemma s_at_distance p r q :
  sbuilt p -> distance (position (s_at p r)) (position (s_at p q)) = Rabs (q - r) * s_length p.
Proof.
  intros B. rewrite (s_length_built p B). unfold distance, s_at, position. cbn [fst snd px py].
  rewrite <- sqrt_scale. f_equal. ring.
Qed.

Lemma s_at_0 p : s_at p 0 = s_init p.
Proof. unfold s_at. destruct (s_init p). cbn. f_equal; ring. Qed.
Lemma s_at_1 p : s_at p 1 = s_final p.
Proof. unfold s_at. destruct (s_final p). cbn. f_equal; ring. Qed.

Lemma s_truncate_at p r q : s_at (s_truncate p r) q = s_at p (q * r).
Proof. unfold s_truncate, s_at. cbn. f_equal; ring. Qed.

Lemma s_truncate_twice p r q : s_truncate (s_truncate p r) q = s_truncate p (r * q).
Proof.
  unfold s_truncate at 1 3. rewrite s_truncate_at. cbn [s_truncate s_init s_length].
  f_equal; [rewrite (Rmult_comm q r); reflexivity|ring].
Qed.
