(** A path that keeps its distance from the outline of a polygon does not enter it. *)
From Coq Require Import Reals Lra.
From Verif Require Import Base RealBase Coords_model Pose_model Straight_model Straight_spec Straight_proofs Validator_proofs
  Shape_model Shape_spec Shape_proofs.
From Coq Require Import ZifyBool ZifyNat ZifyN.
Local Open Scope R_scope.

(** * Affine functions on a segment *)
Definition aff (u v t : R) : R := u + t * (v - u).

Lemma aff_pos u v t s : 0 <= aff u v t -> 0 <= v -> t <= s <= 1 -> 0 <= aff u v s.
Proof.
  unfold aff. intros A B C. destruct (Rle_dec u v) as [L|L].
  - assert (t * (v - u) <= s * (v - u)) by (apply Rmult_le_compat_r; lra). lra.
  - assert ((1 - s) * (u - v) >= 0) by (apply Rle_ge, Rmult_le_pos; lra). nra.
Qed.

Lemma enter_line {A} (u v : A -> R) (l : list A) : (forall a, In a l -> 0 <= v a) -> (exists a, In a l /\ u a < 0) ->
  exists t, 0 <= t <= 1 /\ (forall a, In a l -> 0 <= aff (u a) (v a) t) /\ exists a, In a l /\ aff (u a) (v a) t = 0.
Proof.
  induction l as [|a l IH]; intros Hv (b & Ib & Hb); [easy|].
  assert (Hva := Hv a (or_introl eq_refl)). assert (Hvl : forall c, In c l -> 0 <= v c) by (intros c Ic; apply Hv; now right).
  (* where the first constraint starts to hold *)
  assert (Z : forall t0, 0 <= t0 <= 1 -> aff (u a) (v a) t0 < 0 -> exists t, t0 <= t <= 1 /\ aff (u a) (v a) t = 0).
  { intros t0 Ht0 H0. unfold aff in *. assert (P : 0 < v a - u a) by nra. exists (- u a / (v a - u a)).
    assert (Q : - u a / (v a - u a) * (v a - u a) = - u a) by (field; lra). set (t := - u a / (v a - u a)) in *. clearbody t. split; [|lra]. nra. }
  destruct (Exists_dec (fun c => u c < 0) l) as [X|X]; [intros c; apply Rlt_dec| |].
  - apply Exists_exists in X. destruct (IH Hvl X) as (t & Ht & Hall & c & Ic & Hc).
    destruct (Rle_dec 0 (aff (u a) (v a) t)) as [P|P].
    + exists t. split; auto. split; [intros d [<-|Id]; auto|]. exists c. split; auto. now right.
    + apply Rnot_le_lt in P. destruct (Z t Ht P) as (s & Hs & Es). exists s. split; [lra|]. split.
      * intros d [<-|Id]; [lra|]. apply (aff_pos _ _ t); auto.
      * exists a. split; auto. now left.
  - assert (Xl : forall c, In c l -> 0 <= u c).
    { intros c Ic. destruct (Rle_dec 0 (u c)); auto. destruct X. apply Exists_exists. exists c. split; auto. lra. }
    assert (Hua : u a < 0). { destruct Ib as [<-|Ib]; auto. specialize (Xl b Ib). lra. }
    destruct (Z 0 ltac:(lra)) as (s & Hs & Es). { unfold aff. lra. }
    exists s. split; auto. split.
    + intros d [<-|Id]; [lra|]. specialize (Xl d Id). apply (aff_pos _ _ 0); auto. unfold aff. lra.
    + exists a. split; auto. now left.
Qed.

(** * Polygons *)
Definition edge_list (vs : list point) : list (point * point) :=
  flat_map (fun j => match nth_error vs j, nth_error vs (Nat.modulo (j + 1) (length vs)) with Some a, Some b => [(a, b)] | _, _ => [] end) (seq 0 (length vs)).

Lemma edge_list_spec vs a b : In (a, b) (edge_list vs) <-> edge vs a b.
Proof.
  unfold edge_list, edge. rewrite in_flat_map. split.
  - intros (j & Hj & H). apply in_seq in Hj. exists j. split; [lia|].
    destruct (nth_error vs j); [|easy]. destruct (nth_error vs _); [|easy]. destruct H as [H|[]]. injection H as -> ->. auto.
  - intros (j & Hj & Ea & Eb). exists j. split; [apply in_seq; lia|]. rewrite Ea, Eb. now left.
Qed.

Definition cross (e : point * point) (q : point) : R :=
  (fst (snd e) - fst (fst e)) * (snd q - snd (fst e)) - (snd (snd e) - snd (fst e)) * (fst q - fst (fst e)).

Lemma cross_along e a b t : cross e (along a b t) = aff (cross e a) (cross e b) t.
Proof. unfold cross, along, aff. cbn [fst snd]. ring. Qed.

(** A point of the polygon on the line of an edge is on the outline. *)
Definition sharp (vs : list point) : Prop := forall a b q, edge vs a b -> in_polygon vs q -> cross (a, b) q = 0 -> on_outline vs q.

Lemma enter_outline vs a b : sharp vs -> ~ in_polygon vs a -> in_polygon vs b -> exists t, 0 <= t <= 1 /\ on_outline vs (along a b t).
Proof.
  intros Hs Ha Hb.
  destruct (enter_line (fun e => cross e a) (fun e => cross e b) (edge_list vs)) as (t & Ht & Hall & [c d] & Ie & E).
  - intros [c d] Ie. apply edge_list_spec in Ie. exact (Hb c d Ie).
  - destruct (Exists_dec (fun e => cross e a < 0) (edge_list vs)) as [X|X]; [intros e; apply Rlt_dec|now apply Exists_exists|].
    destruct Ha. intros c d Ed. unfold left_of. destruct (Rle_dec 0 (cross (c, d) a)) as [L|L]; [exact L|]. destruct X. apply Exists_exists.
    exists (c, d). split; [now apply edge_list_spec|]. lra.
  - exists t. split; auto. apply edge_list_spec in Ie. apply (Hs c d); auto.
    + intros c' d' Ed. specialize (Hall (c', d')). rewrite <- cross_along in Hall. apply Hall. now apply edge_list_spec.
    + now rewrite cross_along.
Qed.

Lemma distance_along a b t : 0 <= t <= 1 -> distance a (along a b t) <= distance a b.
Proof.
  intros Ht. unfold distance, along. cbn [fst snd]. apply sqrt_le_1_alt.
  replace (fst a + t * (fst b - fst a) - fst a) with (t * (fst b - fst a)) by ring.
  replace (snd a + t * (snd b - snd a) - snd a) with (t * (snd b - snd a)) by ring.
  set (x := fst b - fst a). set (y := snd b - snd a). assert (0 <= x * x) by apply Rle_0_sqr. assert (0 <= y * y) by apply Rle_0_sqr.
  assert (t * t <= 1) by nra. assert (0 <= t * t) by apply Rle_0_sqr. set (t2 := t * t) in *.
  replace (t * x * (t * x)) with (t2 * (x * x)) by (unfold t2; ring). replace (t * y * (t * y)) with (t2 * (y * y)) by (unfold t2; ring). nra.
Qed.

(** * A path of unit speed *)
Lemma stays_outside vs (G : R -> point -> Prop) len m : sharp vs -> 0 < m ->
  (forall s, 0 <= s <= len -> exists q, G s q) ->
  (forall s t a b, 0 <= s <= len -> 0 <= t <= len -> G s a -> G t b -> distance a b <= Rabs (s - t)) ->
  (forall s q z, 0 <= s <= len -> G s q -> on_outline vs z -> m <= distance q z) ->
  (exists q, G 0 q /\ ~ in_polygon vs q) ->
  forall s q, 0 <= s <= len -> G s q -> ~ in_polygon vs q.
Proof.
  intros Hsh Hm Htot Hlip Hcl (q0 & G0 & N0).
  assert (K : forall n s q, 0 <= s <= len -> s <= INR n * (m / 2) -> G s q -> ~ in_polygon vs q).
  { induction n as [|n IH]; intros s q Hs Hn Gq Hin.
    - cbn in Hn. assert (s = 0) by lra. subst s. pose proof (Hlip 0 0 q0 q ltac:(lra) ltac:(lra) G0 Gq) as D.
      rewrite Rminus_0_r, Rabs_R0 in D. destruct (enter_outline vs q0 q Hsh N0 Hin) as (t & Ht & Ho).
      pose proof (distance_along q0 q t Ht). pose proof (Hcl 0 q0 _ ltac:(lra) G0 Ho). lra.
    - rewrite S_INR in Hn. destruct (Rle_dec s (INR n * (m / 2))) as [L|L]; [exact (IH s q Hs L Gq Hin)|].
      assert (P : 0 <= INR n * (m / 2)) by (apply Rmult_le_pos; [apply pos_INR|lra]).
      destruct (Htot (INR n * (m / 2)) ltac:(lra)) as (p & Gp).
      pose proof (IH (INR n * (m / 2)) p ltac:(lra) ltac:(lra) Gp) as Np.
      destruct (enter_outline vs p q Hsh Np Hin) as (t & Ht & Ho). pose proof (distance_along p q t Ht).
      pose proof (Hcl _ _ _ ltac:(split; [exact P|lra]) Gp Ho). pose proof (Hlip _ s p q ltac:(split; [exact P|lra]) Hs Gp Gq) as D.
      rewrite Rabs_minus_sym, Rabs_pos_eq in D by lra. lra. }
  intros s q Hs Gq. set (n := Z.to_nat (up (s / (m / 2)))). apply (K n s q Hs); auto.
  pose proof (archimed (s / (m / 2))) as [A _]. assert (P : 0 <= s / (m / 2)) by (apply Rmult_le_pos; [lra|]; left; apply Rinv_0_lt_compat; lra).
  assert (Q : s = s / (m / 2) * (m / 2)) by (field; lra). assert (up (s / (m / 2)) >= 0)%Z by (apply Z.le_ge, le_IZR; lra).
  unfold n. rewrite INR_IZR_INZ, Z2Nat.id by lia. rewrite Q at 1. apply Rmult_le_compat_r; lra.
Qed.

(** * The shapes of the library are sharp *)
Lemma sharp_placed p vs : sharp vs -> sharp (map (place p) vs).
Proof.
  intros H a b q E Hq Z. apply place_edge in E. destruct E as (a0 & b0 & E & -> & ->). destruct (place_onto p q) as (q0 & ->).
  apply place_polygon in Hq. apply place_outline. exists q0. split; auto. apply (H a0 b0); auto.
  rewrite <- Z. unfold cross, place, rot_x, rot_y. cbn [fst snd]. pose proof (sin2_cos2 (pth p)) as S. unfold Rsqr in S.
  match goal with |- ?a = ?b => replace b with ((sin (pth p) * sin (pth p) + cos (pth p) * cos (pth p)) * a) by ring end. rewrite S. ring.
Qed.

Lemma rectangle_sharp dx dy : 0 < dx -> 0 < dy -> sharp (rectangle_vertices dx dy).
Proof.
  intros Hx Hy a b q (j & L & Ea & Eb) Hq Z. apply rectangle_spec in Hq; auto. apply rectangle_outline; auto. split; auto.
  unfold cross in Z. cbn [fst snd] in Z. cbn [length rectangle_vertices] in *.
  destruct j as [|[|[|[|j]]]]; cbn in Ea, Eb; try (exfalso; cbn in L; lia); injection Ea as <-; injection Eb as <-; cbn [fst snd] in Z.
  - right. assert (snd q = dy / 2) as -> by nra. apply Rabs_pos_eq. lra.
  - left. assert (fst q = - (dx / 2)) as -> by nra. rewrite Rabs_Ropp. apply Rabs_pos_eq. lra.
  - right. assert (snd q = - (dy / 2)) as -> by nra. rewrite Rabs_Ropp. apply Rabs_pos_eq. lra.
  - left. assert (fst q = dx / 2) as -> by nra. apply Rabs_pos_eq. lra.
Qed.

Lemma cross_edge r h m q : cross (on_circle r (m - h), on_circle r (m + h)) q = 2 * r * sin h * (r * cos h - (cos m * fst q + sin m * snd q)).
Proof.
  unfold cross, on_circle. cbn [fst snd]. rewrite !cos_minus, !sin_minus, !cos_plus, !sin_plus.
  pose proof (sin2_cos2 m) as S. unfold Rsqr in S.
  assert (C : r * cos h = (cos m * cos m + sin m * sin m) * (r * cos h)) by (rewrite (Rplus_comm (cos m * cos m)), S; ring).
  rewrite C at 1. ring.
Qed.

(** The constraint of the edge at the angle [a], up to a whole turn. *)
Lemma facing r n q (j : Z) : (3 <= n)%nat -> 0 < r -> in_polygon (rverts r n) q -> (-1 <= j <= 2 * Z.of_nat n + 1)%Z -> Z.odd j = true ->
  cos (IZR j * half_angle n) * fst q + sin (IZR j * half_angle n) * snd q <= r * cos (half_angle n).
Proof.
  intros L Hr Hq Hj Ho. destruct (half_angle_trig n L) as [Hs Hc]. pose proof (half_turns n ltac:(lia)) as T. set (h := half_angle n) in *.
  assert (K : forall i, (i < n)%nat -> cos ((2 * INR i + 1) * h) * fst q + sin ((2 * INR i + 1) * h) * snd q <= r * cos h).
  { intros i Hi. assert (E : edge (rverts r n) (on_circle r ((2 * INR i + 1) * h - h)) (on_circle r ((2 * INR i + 1) * h + h))) by (apply rverts_edge; eauto).
    apply Hq, left_of_edge in E. assert (0 < 2 * r * sin h) by (repeat apply Rmult_lt_0_compat; lra).
    destruct (Rle_dec (cos ((2 * INR i + 1) * h) * fst q + sin ((2 * INR i + 1) * h) * snd q) (r * cos h)); auto. nra. }
  assert (Tn : INR n = IZR (Z.of_nat n)) by apply INR_IZR_INZ.
  destruct (Z.eq_dec j (-1)) as [->|N1]; [|destruct (Z.eq_dec j (2 * Z.of_nat n + 1)) as [->|N2]].
  - specialize (K (n - 1)%nat ltac:(lia)). rewrite minus_INR in K by lia. cbn [INR] in K.
    replace ((2 * (INR n - 1) + 1) * h) with (IZR (-1) * h + 2 * INR 1 * PI) in K by (rewrite <- T; cbn [INR]; ring).
    rewrite cos_period, sin_period in K. exact K.
  - specialize (K O ltac:(lia)). cbn [INR] in K. replace (IZR (2 * Z.of_nat n + 1) * h) with ((2 * 0 + 1) * h + 2 * INR 1 * PI).
    + rewrite cos_period, sin_period. exact K.
    + rewrite plus_IZR, mult_IZR, <- Tn, <- T. cbn [INR]. ring.
  - assert (J := Z.div2_odd j). rewrite Ho in J. cbn [Z.b2z] in J. specialize (K (Z.to_nat (Z.div2 j)) ltac:(lia)).
    rewrite INR_IZR_INZ, Z2Nat.id in K by lia. rewrite J, plus_IZR, mult_IZR. exact K.
Qed.

Lemma regular_sharp r n : (3 <= n)%nat -> 0 < r -> sharp (rverts r n).
Proof.
  intros L Hr a b q E Hq Z. assert (E' := E). apply rverts_edge in E. destruct E as (i & Hi & -> & ->).
  destruct (half_angle_trig n L) as [Hs Hc].
  pose proof (facing r n q (2 * Z.of_nat i + 1 + 2) L Hr Hq ltac:(lia)) as F1. pose proof (facing r n q (2 * Z.of_nat i + 1 - 2) L Hr Hq ltac:(lia)) as F2.
  specialize (F1 ltac:(replace (2 * Z.of_nat i + 1 + 2)%Z with (1 + 2 * (Z.of_nat i + 1))%Z by lia; now rewrite Z.odd_add_mul_2)).
  specialize (F2 ltac:(replace (2 * Z.of_nat i + 1 - 2)%Z with (1 + 2 * (Z.of_nat i - 1))%Z by lia; now rewrite Z.odd_add_mul_2)).
  rewrite plus_IZR, plus_IZR, mult_IZR, <- INR_IZR_INZ in F1. rewrite minus_IZR, plus_IZR, mult_IZR, <- INR_IZR_INZ in F2.
  rewrite cross_edge in Z. set (h := half_angle n) in *. set (m := (2 * INR i + 1) * h) in *.
  replace ((2 * INR i + 1 + 2) * h) with (m + 2 * h) in F1 by (unfold m; ring). replace ((2 * INR i + 1 - 2) * h) with (m - 2 * h) in F2 by (unfold m; ring).
  rewrite cos_plus, sin_plus, cos_2a_sin, sin_2a in F1. rewrite cos_minus, sin_minus, cos_2a_sin, sin_2a in F2.
  set (x := fst q) in *. set (y := snd q) in *. set (N := cos m * x + sin m * y) in *. set (T := cos m * y - sin m * x).
  assert (P : 0 < 2 * r * sin h) by (repeat apply Rmult_lt_0_compat; lra).
  assert (EN : N = r * cos h) by nra.
  assert (T1 : T <= r * sin h).
  { replace ((cos m * (1 - 2 * sin h * sin h) - sin m * (2 * sin h * cos h)) * x + (sin m * (1 - 2 * sin h * sin h) + cos m * (2 * sin h * cos h)) * y)
      with (N * (1 - 2 * sin h * sin h) + 2 * sin h * cos h * T) in F1 by (unfold N, T; ring).
    rewrite EN in F1. assert (Q : 0 < 2 * (sin h * cos h)) by (repeat apply Rmult_lt_0_compat; lra).
    apply Rmult_le_reg_l with (2 * (sin h * cos h)); [exact Q|]. replace (2 * (sin h * cos h) * (r * sin h)) with (r * cos h - r * cos h * (1 - 2 * sin h * sin h)) by ring. lra. }
  assert (T2 : - T <= r * sin h).
  { replace ((cos m * (1 - 2 * sin h * sin h) + sin m * (2 * sin h * cos h)) * x + (sin m * (1 - 2 * sin h * sin h) - cos m * (2 * sin h * cos h)) * y)
      with (N * (1 - 2 * sin h * sin h) - 2 * sin h * cos h * T) in F2 by (unfold N, T; ring).
    rewrite EN in F2. assert (Q : 0 < 2 * (sin h * cos h)) by (repeat apply Rmult_lt_0_compat; lra).
    apply Rmult_le_reg_l with (2 * (sin h * cos h)); [exact Q|]. replace (2 * (sin h * cos h) * (r * sin h)) with (r * cos h - r * cos h * (1 - 2 * sin h * sin h)) by ring. lra. }
  exists (on_circle r (m - h)), (on_circle r (m + h)), ((T + r * sin h) / (2 * r * sin h)). split; auto. split; [apply div_unit; lra|].
  set (t := (T + r * sin h) / (2 * r * sin h)). assert (Et : t * (2 * r * sin h) = T + r * sin h) by (unfold t; field; lra).
  assert (S : sin m * sin m + cos m * cos m = 1) by apply sin2_cos2.
  assert (X : x = cos m * N - sin m * T). { rewrite <- (Rmult_1_l x) at 1. rewrite <- S. unfold N, T. ring. }
  assert (Y : y = sin m * N + cos m * T). { rewrite <- (Rmult_1_l y) at 1. rewrite <- S. unfold N, T. ring. }
  unfold along, on_circle. cbn [fst snd]. rewrite !cos_minus, !sin_minus, !cos_plus, !sin_plus.
  rewrite (surjective_pairing q). fold x y. clearbody T. rewrite EN in X, Y. f_equal.
  - rewrite X. replace T with (t * (2 * r * sin h) - r * sin h) by lra. ring.
  - rewrite Y. replace T with (t * (2 * r * sin h) - r * sin h) by lra. ring.
Qed.

Lemma regular_vertices_sharp r count vs : regular_vertices r count = Ok vs -> (3 <= count)%Z -> 0 < r -> sharp vs.
Proof. intros E Hc Hr. apply regular_spec in E. destruct E as [_ ->]. apply regular_sharp; [lia|exact Hr]. Qed.

Lemma circle_vertices_sharp r count vs : circle_vertices r count = Ok vs -> (3 <= count)%Z -> 0 < r -> sharp vs.
Proof.
  intros E Hc Hr. unfold circle_vertices in E.
  assert (C : 0 < cos (PI / IZR count)).
  { destruct (half_angle_trig (Z.to_nat count) ltac:(lia)) as [_ C]. unfold half_angle in C. rewrite INR_IZR_INZ, Z2Nat.id in C by lia. exact C. }
  apply (regular_vertices_sharp _ _ _ E Hc). apply Rmult_lt_0_compat; auto. apply Rdiv_lt_0_compat; lra.
Qed.
