(** Proofs about shapes: regular polygons, circles, rectangles and their placement. *)
From Coq Require Import Reals Lra Lia.
From Verif Require Import Base RealBase Grid_model Coords_model Pose_model Straight_model Straight_spec Shape_model Shape_spec RsWord_proofs.
From Coq Require Import ZifyBool ZifyNat ZifyN.
Local Open Scope R_scope.

(** * Regular polygons. [h] is half the angle between two vertices. *)
Definition on_circle (r a : R) : point := (r * cos a, r * sin a).
Definition half_angle (n : nat) : R := PI / INR n.

Lemma regular_spec r count vs : regular_vertices r count = Ok vs ->
  (0 <= count)%Z /\ vs = map (fun i => on_circle r (2 * INR i * half_angle (Z.to_nat count))) (seq 0 (Z.to_nat count)).
Proof.
  unfold regular_vertices. destruct (Z.ltb_spec count 0) as [|L]; [discriminate|]. intros E. injection E as <-. split; [exact L|].
  apply map_ext. intros i. unfold on_circle, half_angle. rewrite INR_IZR_INZ with (n := Z.to_nat count), Z2Nat.id by exact L.
  replace (2 * PI * INR i / IZR count) with (2 * INR i * (PI / IZR count)) by (unfold Rdiv; ring). reflexivity.
Qed.

Definition rverts (r : R) (n : nat) : list point := map (fun i => on_circle r (2 * INR i * half_angle n)) (seq 0 n).
Lemma rverts_length r n : length (rverts r n) = n.
Proof. unfold rverts. now rewrite map_length, seq_length. Qed.
Lemma rverts_nth r n i a : nth_error (rverts r n) i = Some a -> (i < n)%nat /\ a = on_circle r (2 * INR i * half_angle n).
Proof.
  intros E. assert (L : (i < n)%nat) by (rewrite <- (rverts_length r n); apply nth_error_Some; congruence). split; [exact L|].
  unfold rverts in E. rewrite nth_error_map in E. rewrite nth_error_nth' with (d := 0%nat) in E by now rewrite seq_length.
  cbn [option_map] in E. rewrite seq_nth in E by exact L. rewrite Nat.add_0_l in E. congruence.
Qed.
Lemma rverts_get r n i : (i < n)%nat -> nth_error (rverts r n) i = Some (on_circle r (2 * INR i * half_angle n)).
Proof.
  intros L. unfold rverts. rewrite nth_error_map, nth_error_nth' with (d := 0%nat) by now rewrite seq_length.
  cbn [option_map]. now rewrite seq_nth, Nat.add_0_l by exact L.
Qed.

Lemma half_turns n : (0 < n)%nat -> INR n * half_angle n = PI.
Proof. intros L. unfold half_angle. field. apply not_0_INR. lia. Qed.

Lemma rverts_edge r n a b : edge (rverts r n) a b <->
  exists i, (i < n)%nat /\ a = on_circle r ((2 * INR i + 1) * half_angle n - half_angle n) /\ b = on_circle r ((2 * INR i + 1) * half_angle n + half_angle n).
Proof.
  unfold edge. rewrite rverts_length.
  assert (K : forall i, (i < n)%nat -> nth_error (rverts r n) (Nat.modulo (i + 1) n) = Some (on_circle r ((2 * INR i + 1) * half_angle n + half_angle n))).
  { intros i L. destruct (Nat.eq_dec (i + 1) n) as [E|E].
    - rewrite E, Nat.mod_same, rverts_get by lia. f_equal. cbn [INR]. unfold on_circle.
      replace ((2 * INR i + 1) * half_angle n + half_angle n) with (0 + 2 * INR 1 * PI).
      + rewrite cos_period, sin_period. rewrite Rmult_0_r, Rmult_0_l. reflexivity.
      + rewrite <- (half_turns n) by lia. rewrite <- E, plus_INR. cbn [INR]. ring.
    - rewrite Nat.mod_small, rverts_get by lia. f_equal. f_equal. rewrite plus_INR. cbn [INR]. ring. }
  split.
  - intros (i & L & Ea & Eb). exists i. split; [exact L|]. apply rverts_nth in Ea. destruct Ea as [_ ->]. rewrite (K i L) in Eb. injection Eb as <-.
    split; [f_equal; ring|reflexivity].
  - intros (i & L & -> & ->). exists i. split; [exact L|]. split; [|now apply K]. rewrite rverts_get by exact L. do 2 f_equal. ring.
Qed.

(** The edge around the middle angle [m]. *)
Lemma left_of_edge r h m q : left_of (on_circle r (m - h)) (on_circle r (m + h)) q <->
  0 <= 2 * r * sin h * (r * cos h - (cos m * fst q + sin m * snd q)).
Proof.
  unfold left_of, on_circle. cbn [fst snd]. rewrite !cos_minus, !sin_minus, !cos_plus, !sin_plus.
  match goal with |- 0 <= ?a <-> 0 <= ?b => replace a with b; [reflexivity|] end.
  pose proof (sin2_cos2 m) as S. unfold Rsqr in S. 
  assert (C : r * cos h = (cos m * cos m + sin m * sin m) * (r * cos h)) by (rewrite (Rplus_comm (cos m * cos m)), S; ring).
  rewrite C at 1. ring.
Qed.

Lemma along_edge r h m t : 
  let q := along (on_circle r (m - h)) (on_circle r (m + h)) t in
  fst q * fst q + snd q * snd q = r * r * (cos h * cos h + (2 * t - 1) * (2 * t - 1) * (sin h * sin h)).
Proof.
  cbn zeta. unfold along, on_circle. cbn [fst snd]. rewrite !cos_minus, !sin_minus, !cos_plus, !sin_plus.
  pose proof (sin2_cos2 m) as S. unfold Rsqr in S.
  match goal with |- _ = ?b => replace b with ((sin m * sin m + cos m * cos m) * b) by (rewrite S; ring) end. ring.
Qed.

Lemma half_angle_range n : (3 <= n)%nat -> 0 < half_angle n < PI / 2.
Proof.
  intros L. unfold half_angle. pose proof PI_RGT_0. assert (3 <= INR n) by (replace 3 with (INR 3) by (cbn; ring); apply le_INR; exact L).
  split; [apply Rdiv_lt_0_compat; lra|]. apply Rmult_lt_compat_l; [lra|]. apply Rinv_lt_contravar; lra.
Qed.
Lemma half_angle_trig n : (3 <= n)%nat -> 0 < sin (half_angle n) /\ 0 < cos (half_angle n).
Proof.
  intros L. pose proof (half_angle_range n L). pose proof PI_RGT_0. split; [apply sin_gt_0; lra|apply cos_gt_0; lra].
Qed.

Lemma unit_dot m x y : cos m * x + sin m * y <= sqrt (x * x + y * y).
Proof.
  apply Rsqr_incr_0_var; [|apply sqrt_pos]. rewrite Rsqr_sqrt by (pose proof (Rle_0_sqr x); pose proof (Rle_0_sqr y); unfold Rsqr in *; lra).
  pose proof (sin2_cos2 m) as S. unfold Rsqr in *. 
  assert (E : x * x + y * y = (cos m * x + sin m * y) * (cos m * x + sin m * y) + (cos m * y - sin m * x) * (cos m * y - sin m * x)).
  { replace (x * x + y * y) with ((sin m * sin m + cos m * cos m) * (x * x + y * y)) by (rewrite S; ring). ring. }
  rewrite E. pose proof (Rle_0_sqr (cos m * y - sin m * x)). unfold Rsqr in *. lra.
Qed.

(** The disc inside the polygon. *)
Lemma disc_inside r n q : (3 <= n)%nat -> 0 < r -> sqrt (fst q * fst q + snd q * snd q) <= r * cos (half_angle n) -> in_polygon (rverts r n) q.
Proof.
  intros L Hr Hq a b E. apply rverts_edge in E. destruct E as (i & Hi & -> & ->). apply left_of_edge.
  destruct (half_angle_trig n L). pose proof (unit_dot ((2 * INR i + 1) * half_angle n) (fst q) (snd q)).
  apply Rmult_le_pos; [|lra]. apply Rmult_le_pos; lra.
Qed.

(** The outline between the two circles. *)
Lemma outline_between r n q : (3 <= n)%nat -> 0 < r -> on_outline (rverts r n) q ->
  r * cos (half_angle n) <= sqrt (fst q * fst q + snd q * snd q) <= r.
Proof.
  intros L Hr (a & b & t & E & Ht & ->). apply rverts_edge in E. destruct E as (i & Hi & -> & ->). rewrite along_edge.
  set (h := half_angle n) in *. destruct (half_angle_trig n L) as [Hs Hc]. fold h in Hs, Hc. pose proof (sin2_cos2 h) as S. unfold Rsqr in S.
  assert (T : 0 <= (2 * t - 1) * (2 * t - 1) <= 1) by (split; [apply Rle_0_sqr|nra]).
  set (u := (2 * t - 1) * (2 * t - 1)) in *. clearbody u.
  assert (Q1 : 0 < sin h * sin h) by (apply Rmult_lt_0_compat; lra). assert (Q2 : 0 < r * r) by (apply Rmult_lt_0_compat; lra).
  set (s2 := sin h * sin h) in *. set (c2 := cos h * cos h) in *. set (w := u * s2) in *. assert (W : 0 <= w <= s2) by (unfold w; split; nra).
  assert (Q3 : 0 <= c2) by (unfold c2; apply Rle_0_sqr). assert (Q4 : 0 <= r * r * (c2 + w)) by (apply Rmult_le_pos; lra).
  split.
  - apply Rsqr_incr_0_var; [|apply sqrt_pos]. rewrite Rsqr_sqrt by exact Q4. unfold Rsqr.
    replace (r * cos h * (r * cos h)) with (r * r * c2) by (unfold c2; ring). apply Rmult_le_compat_l; lra.
  - apply Rsqr_incr_0_var; [|lra]. rewrite Rsqr_sqrt by exact Q4. unfold Rsqr. rewrite <- (Rmult_1_r (r * r)) at 2. apply Rmult_le_compat_l; lra.
Qed.

(** Cosines of the odd multiples. *)
Lemma cos_odd n j : (3 <= n)%nat -> (1 <= Z.abs j <= 2 * Z.of_nat n - 1)%Z -> cos (IZR j * half_angle n) <= cos (half_angle n).
Proof.
  intros L Hj. pose proof (half_angle_range n L) as Hh. pose proof (half_turns n ltac:(lia)) as T. pose proof PI_RGT_0.
  assert (E : cos (IZR j * half_angle n) = cos (IZR (Z.abs j) * half_angle n)).
  { destruct (Z.abs_eq_or_opp j) as [->| ->]; [reflexivity|]. rewrite opp_IZR. replace (- IZR j * half_angle n) with (- (IZR j * half_angle n)) by ring. now rewrite cos_neg. }
  rewrite E. set (k := Z.abs j) in *. assert (K1 : 1 <= IZR k) by (apply (IZR_le 1); lia).
  assert (K2 : IZR k <= 2 * INR n - 1). { rewrite INR_IZR_INZ. rewrite <- mult_IZR, <- minus_IZR. apply IZR_le. lia. }
  destruct (Rle_dec (IZR k * half_angle n) PI) as [A|A].
  - apply cos_decr_1; nra.
  - replace (cos (IZR k * half_angle n)) with (cos (2 * PI - IZR k * half_angle n)).
    + apply cos_decr_1; nra.
    + rewrite <- cos_neg. replace (- (2 * PI - IZR k * half_angle n)) with (IZR k * half_angle n - 2 * INR 1 * PI) by (cbn [INR]; ring).
      rewrite <- (cos_period (IZR k * half_angle n - 2 * INR 1 * PI) 1). f_equal. ring.
Qed.

Lemma regular_convex r n : (3 <= n)%nat -> 0 < r -> convex (rverts r n).
Proof.
  intros L Hr v Hv a b E. apply rverts_edge in E. destruct E as (i & Hi & -> & ->). apply left_of_edge.
  apply In_nth_error in Hv. destruct Hv as (k & Ek). apply rverts_nth in Ek. destruct Ek as [Hk ->]. unfold on_circle. cbn [fst snd].
  destruct (half_angle_trig n L). set (h := half_angle n) in *.
  replace (cos ((2 * INR i + 1) * h) * (r * cos (2 * INR k * h)) + sin ((2 * INR i + 1) * h) * (r * sin (2 * INR k * h)))
    with (r * cos (IZR (2 * (Z.of_nat k - Z.of_nat i) - 1) * h)).
  - assert (cos (IZR (2 * (Z.of_nat k - Z.of_nat i) - 1) * h) <= cos h) by (apply cos_odd; lia).
    apply Rmult_le_pos; [apply Rmult_le_pos; lra|]. nra.
  - replace (IZR (2 * (Z.of_nat k - Z.of_nat i) - 1) * h) with (2 * INR k * h - (2 * INR i + 1) * h).
    + rewrite cos_minus. ring.
    + rewrite minus_IZR, mult_IZR, minus_IZR, <- !INR_IZR_INZ. ring.
Qed.

(** The polygon inside the circle through its vertices. *)
Lemma inside_disc r n q : (3 <= n)%nat -> 0 < r -> in_polygon (rverts r n) q -> sqrt (fst q * fst q + snd q * snd q) <= r.
Proof.
  intros L Hr Hq. pose proof (half_angle_range n L) as Hh. destruct (half_angle_trig n L) as [Hs Hc]. pose proof (half_turns n ltac:(lia)) as T.
  set (h := half_angle n) in *. set (d := sqrt (fst q * fst q + snd q * snd q)) in *.
  destruct (atan2_polar (snd q) (fst q)) as [Px Py]. fold d in Px, Py. set (a := Rs_model.atan2 (snd q) (fst q)) in *.
  (* the angle in [0, 2 PI) up to turns, and the edge that faces it *)
  set (k := Rfloor (a / (2 * h))). pose proof (Rfloor_spec (a / (2 * h))) as Hk. fold k in Hk.
  assert (Ha : IZR k * (2 * h) <= a < (IZR k + 1) * (2 * h)).
  { assert (a = a / (2 * h) * (2 * h)) by (field; lra). split; nra. }
  set (i := Z.to_nat (k mod Z.of_nat n)). assert (Hi : (i < n)%nat) by (unfold i; lia).
  assert (Ei : Z.of_nat i = (k - Z.of_nat n * (k / Z.of_nat n))%Z) by (unfold i; lia).
  assert (M : forall x, cos (x + 2 * IZR (k / Z.of_nat n) * PI) = cos x /\ sin (x + 2 * IZR (k / Z.of_nat n) * PI) = sin x).
  { intros x. destruct (Z_le_gt_dec 0 (k / Z.of_nat n)) as [G|G].
    - replace (IZR (k / Z.of_nat n)) with (INR (Z.to_nat (k / Z.of_nat n))) by (rewrite INR_IZR_INZ, Z2Nat.id by lia; reflexivity).
      split; [apply cos_period|apply sin_period].
    - replace (IZR (k / Z.of_nat n)) with (- INR (Z.to_nat (- (k / Z.of_nat n)))) by (rewrite INR_IZR_INZ, Z2Nat.id by lia; rewrite opp_IZR; ring).
      rewrite <- (cos_period (x + _) (Z.to_nat (- (k / Z.of_nat n)))), <- (sin_period (x + _) (Z.to_nat (- (k / Z.of_nat n)))).
      split; f_equal; ring. }
  set (m := (2 * INR i + 1) * h).
  assert (Em : (2 * IZR k + 1) * h = m + 2 * IZR (k / Z.of_nat n) * PI).
  { unfold m. rewrite INR_IZR_INZ, Ei, minus_IZR, mult_IZR, <- INR_IZR_INZ. rewrite <- T. ring. }
  assert (E : edge (rverts r n) (on_circle r (m - h)) (on_circle r (m + h))) by (apply rverts_edge; exists i; auto).
  specialize (Hq _ _ E). apply left_of_edge in Hq. rewrite <- Px, <- Py in Hq.
  replace (cos m * (d * cos a) + sin m * (d * sin a)) with (d * cos (a - (2 * IZR k + 1) * h)) in Hq.
  - assert (cos h <= cos (a - (2 * IZR k + 1) * h)).
    { destruct (Rle_dec 0 (a - (2 * IZR k + 1) * h)).
      - apply cos_decr_1; nra.
      - rewrite <- (cos_neg (a - _)). apply cos_decr_1; nra. }
    assert (0 <= r * cos h - d * cos (a - (2 * IZR k + 1) * h)).
    { apply Rmult_le_reg_l with (2 * r * sin h); [|rewrite Rmult_0_r; exact Hq]. apply Rmult_lt_0_compat; lra. }
    assert (0 <= d) by apply sqrt_pos. assert (d * cos h <= r * cos h) by nra. apply Rmult_le_reg_r with (cos h); lra.
  - rewrite Em, cos_minus. destruct (M m) as [-> ->]. ring.
Qed.

(** * Placement. *)
Lemma place_along p a b t : place p (along a b t) = along (place p a) (place p b) t.
Proof. unfold place, along, rot_x, rot_y. cbn [fst snd]. f_equal; ring. Qed.

Lemma place_left p a b q : left_of (place p a) (place p b) (place p q) <-> left_of a b q.
Proof.
  unfold left_of, place, rot_x, rot_y. cbn [fst snd]. pose proof (sin2_cos2 (pth p)) as S. unfold Rsqr in S.
  match goal with |- 0 <= ?a <-> 0 <= ?b => replace a with ((sin (pth p) * sin (pth p) + cos (pth p) * cos (pth p)) * b) by ring end.
  now rewrite S, Rmult_1_l.
Qed.

Lemma place_distance p a b : distance (place p a) (place p b) = distance a b.
Proof.
  unfold distance, place, rot_x, rot_y. cbn [fst snd]. f_equal. pose proof (sin2_cos2 (pth p)) as S. unfold Rsqr in S.
  match goal with |- ?a = ?b => replace a with ((sin (pth p) * sin (pth p) + cos (pth p) * cos (pth p)) * b) by ring end. rewrite S. ring.
Qed.

Lemma place_origin p : place p (0, 0) = position p.
Proof. unfold place, position, rot_x, rot_y. cbn [fst snd]. f_equal; ring. Qed.

Lemma place_onto p q : exists q0, q = place p q0.
Proof.
  set (dx := fst q - px p). set (dy := snd q - py p). pose proof (sin2_cos2 (pth p)) as S. unfold Rsqr in S.
  exists (cos (pth p) * dx + sin (pth p) * dy, cos (pth p) * dy - sin (pth p) * dx). unfold place, rot_x, rot_y. cbn [fst snd]. destruct q as [x y]. cbn [fst snd] in *.
  f_equal.
  - replace x with (dx + px p) at 1 by (unfold dx; ring). rewrite <- (Rmult_1_l dx) at 1. rewrite <- S. ring.
  - replace y with (dy + py p) at 1 by (unfold dy; ring). rewrite <- (Rmult_1_l dy) at 1. rewrite <- S. ring.
Qed.

Lemma place_edge p vs a b : edge (map (place p) vs) a b <-> exists a0 b0, edge vs a0 b0 /\ a = place p a0 /\ b = place p b0.
Proof.
  unfold edge. rewrite map_length. split.
  - intros (j & L & Ea & Eb). rewrite nth_error_map in Ea, Eb.
    destruct (nth_error vs j) as [a0|] eqn:Ea0; [|discriminate]. destruct (nth_error vs (Nat.modulo (j + 1) (length vs))) as [b0|] eqn:Eb0; [|discriminate].
    cbn in Ea, Eb. injection Ea as <-. injection Eb as <-. eauto 10.
  - intros (a0 & b0 & (j & L & Ea & Eb) & -> & ->). exists j. rewrite !nth_error_map, Ea, Eb. auto.
Qed.

Lemma place_polygon p vs q : in_polygon (map (place p) vs) (place p q) <-> in_polygon vs q.
Proof.
  split; intros H a b E.
  - apply (place_left p). apply H. apply place_edge. eauto.
  - apply place_edge in E. destruct E as (a0 & b0 & E & -> & ->). apply place_left. now apply H.
Qed.

Lemma place_outline p vs q : on_outline (map (place p) vs) q <-> exists q0, on_outline vs q0 /\ q = place p q0.
Proof.
  split.
  - intros (a & b & t & E & Ht & ->). apply place_edge in E. destruct E as (a0 & b0 & E & -> & ->). exists (along a0 b0 t).
    split; [exists a0, b0, t; auto|]. now rewrite place_along.
  - intros (q0 & (a & b & t & E & Ht & ->) & ->). exists (place p a), (place p b), t. rewrite place_along. split; [|auto]. apply place_edge. eauto.
Qed.

Lemma norm_distance q : sqrt (fst q * fst q + snd q * snd q) = distance (0, 0) q.
Proof. unfold distance. cbn [fst snd]. f_equal. ring. Qed.

(** * The shapes of the library, placed. *)
Lemma regular_placed p r count vs : regular_vertices r count = Ok vs -> (3 <= count)%Z -> 0 < r ->
  convex (map (place p) vs) /\ length vs = Z.to_nat count /\
  (forall q, distance (position p) q <= r * cos (PI / IZR count) -> in_polygon (map (place p) vs) q) /\
  (forall q, in_polygon (map (place p) vs) q -> distance (position p) q <= r) /\
  (forall q, on_outline (map (place p) vs) q -> r * cos (PI / IZR count) <= distance (position p) q <= r) /\
  (forall v, In v vs -> distance (position p) (place p v) = r).
Proof.
  intros E Hc Hr. apply regular_spec in E. destruct E as [_ ->]. set (n := Z.to_nat count). assert (L : (3 <= n)%nat) by lia.
  fold (rverts r n). assert (Eh : half_angle n = PI / IZR count) by (unfold half_angle, n; now rewrite INR_IZR_INZ, Z2Nat.id by lia). rewrite <- Eh.
  assert (D : forall q0, distance (position p) (place p q0) = sqrt (fst q0 * fst q0 + snd q0 * snd q0)).
  { intros q0. now rewrite norm_distance, <- place_origin, place_distance. }
  split; [|split; [|split; [|split; [|split]]]].
  - intros v Hv. apply in_map_iff in Hv. destruct Hv as (v0 & <- & Hv). apply place_polygon. now apply regular_convex.
  - apply rverts_length.
  - intros q. destruct (place_onto p q) as [q0 ->]. rewrite D. intros Hq. apply place_polygon. now apply disc_inside.
  - intros q. destruct (place_onto p q) as [q0 ->]. rewrite D. intros Hq. apply place_polygon in Hq. now apply inside_disc with n.
  - intros q. rewrite place_outline. intros (q0 & Hq & ->). rewrite D. now apply outline_between.
  - intros v Hv. rewrite D. apply In_nth_error in Hv. destruct Hv as (k & Ek). apply rverts_nth in Ek. destruct Ek as [_ ->]. unfold on_circle. cbn [fst snd].
    set (x := 2 * INR k * half_angle n). pose proof (sin2_cos2 x) as S. unfold Rsqr in S.
    replace (r * cos x * (r * cos x) + r * sin x * (r * sin x)) with (Rsqr r); [apply sqrt_Rsqr; lra|]. unfold Rsqr.
    replace (r * r) with (r * r * (sin x * sin x + cos x * cos x)) by (rewrite S; ring). ring.
Qed.

Lemma circle_placed p r count vs : circle_vertices r count = Ok vs -> (3 <= count)%Z -> 0 < r ->
  convex (map (place p) vs) /\ length vs = Z.to_nat count /\
  (forall q, distance (position p) q <= r -> in_polygon (map (place p) vs) q) /\
  (forall q, in_polygon (map (place p) vs) q -> distance (position p) q <= r / cos (PI / IZR count)) /\
  (forall q, on_outline (map (place p) vs) q -> r <= distance (position p) q <= r / cos (PI / IZR count)).
Proof.
  intros E Hc Hr. unfold circle_vertices in E.
  assert (C : 0 < cos (PI / IZR count)).
  { destruct (half_angle_trig (Z.to_nat count) ltac:(lia)) as [_ C]. unfold half_angle in C. rewrite INR_IZR_INZ, Z2Nat.id in C by lia. exact C. }
  assert (Hr' : 0 < r * (1 / cos (PI / IZR count))) by (apply Rmult_lt_0_compat; [lra|apply Rdiv_lt_0_compat; lra]).
  destruct (regular_placed p _ _ _ E Hc Hr') as (A1 & A2 & A3 & A4 & A5 & _).
  assert (E1 : r * (1 / cos (PI / IZR count)) * cos (PI / IZR count) = r) by (field; lra).
  assert (E2 : r * (1 / cos (PI / IZR count)) = r / cos (PI / IZR count)) by (field; lra).
  rewrite E1 in A3, A5. rewrite E2 in A4, A5. auto.
Qed.

Lemma rectangle_spec dx dy q : 0 < dx -> 0 < dy ->
  (in_polygon (rectangle_vertices dx dy) q <-> - (dx / 2) <= fst q <= dx / 2 /\ - (dy / 2) <= snd q <= dy / 2).
Proof.
  intros Hx Hy. unfold in_polygon, rectangle_vertices. split.
  - intros H.
    assert (E0 : edge (rectangle_vertices dx dy) (dx / 2, dy / 2) (- (dx / 2), dy / 2)) by (exists 0%nat; cbn; auto with arith).
    assert (E1 : edge (rectangle_vertices dx dy) (- (dx / 2), dy / 2) (- (dx / 2), - (dy / 2))) by (exists 1%nat; cbn; auto with arith).
    assert (E2 : edge (rectangle_vertices dx dy) (- (dx / 2), - (dy / 2)) (dx / 2, - (dy / 2))) by (exists 2%nat; cbn; auto with arith).
    assert (E3 : edge (rectangle_vertices dx dy) (dx / 2, - (dy / 2)) (dx / 2, dy / 2)) by (exists 3%nat; cbn; auto with arith).
    apply H in E0, E1, E2, E3. unfold left_of in *. cbn [fst snd] in *. nra.
  - intros H a b (j & L & Ea & Eb). cbn [length] in *. unfold left_of.
    destruct j as [|[|[|[|j]]]]; cbn in Ea, Eb; try (exfalso; cbn in L; lia); injection Ea as <-; injection Eb as <-; cbn [fst snd]; nra.
Qed.

Lemma div_unit x d : 0 < d -> 0 <= x <= d -> 0 <= x / d <= 1.
Proof.
  intros Hd Hx. split.
  - apply Rmult_le_pos; [lra|]. left. now apply Rinv_0_lt_compat.
  - apply Rmult_le_reg_r with d; [lra|]. unfold Rdiv. rewrite Rmult_assoc, Rinv_l; lra.
Qed.

Lemma rectangle_outline dx dy q : 0 < dx -> 0 < dy ->
  (on_outline (rectangle_vertices dx dy) q <->
   (- (dx / 2) <= fst q <= dx / 2 /\ - (dy / 2) <= snd q <= dy / 2) /\ (Rabs (fst q) = dx / 2 \/ Rabs (snd q) = dy / 2)).
Proof.
  intros Hx Hy. split.
  - intros (a & b & t & (j & L & Ea & Eb) & Ht & ->). cbn [length rectangle_vertices] in *. unfold along.
    destruct j as [|[|[|[|j]]]]; cbn in Ea, Eb; try (exfalso; cbn in L; lia); injection Ea as <-; injection Eb as <-; cbn [fst snd]; (split; [nra|]).
    + right. replace (dy / 2 + t * (dy / 2 - dy / 2)) with (dy / 2) by ring. apply Rabs_pos_eq. lra.
    + left. replace (- (dx / 2) + t * (- (dx / 2) - - (dx / 2))) with (- (dx / 2)) by ring. rewrite Rabs_Ropp. apply Rabs_pos_eq. lra.
    + right. replace (- (dy / 2) + t * (- (dy / 2) - - (dy / 2))) with (- (dy / 2)) by ring. rewrite Rabs_Ropp. apply Rabs_pos_eq. lra.
    + left. replace (dx / 2 + t * (dx / 2 - dx / 2)) with (dx / 2) by ring. apply Rabs_pos_eq. lra.
  - intros [[Bx By] Hq]. destruct q as [x y]. cbn [fst snd] in *.
    destruct Hq as [Hq|Hq]; unfold Rabs in Hq; destruct (Rcase_abs _) as [N|N].
    + exists (- (dx / 2), dy / 2), (- (dx / 2), - (dy / 2)), ((dy / 2 - y) / dy). split; [exists 1%nat; cbn; auto with arith|].
      split; [apply div_unit; lra|].
      unfold along. cbn [fst snd]. f_equal; [lra|field; lra].
    + exists (dx / 2, - (dy / 2)), (dx / 2, dy / 2), ((y + dy / 2) / dy). split; [exists 3%nat; cbn; auto with arith|].
      split; [apply div_unit; lra|].
      unfold along. cbn [fst snd]. f_equal; [lra|field; lra].
    + exists (- (dx / 2), - (dy / 2)), (dx / 2, - (dy / 2)), ((x + dx / 2) / dx). split; [exists 2%nat; cbn; auto with arith|].
      split; [apply div_unit; lra|].
      unfold along. cbn [fst snd]. f_equal; [field; lra|lra].
    + exists (dx / 2, dy / 2), (- (dx / 2), dy / 2), ((dx / 2 - x) / dx). split; [exists 0%nat; cbn; auto with arith|].
      split; [apply div_unit; lra|].
      unfold along. cbn [fst snd]. f_equal; [field; lra|lra].
Qed.
