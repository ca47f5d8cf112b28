(** Driving Reeds-Shepp motions. *)
From Coq Require Import Reals Lra Psatz.
From Verif Require Import Base RealBase Pose_model Pose_spec Pose_proofs Coords_model Straight_model Straight_spec Straight_proofs
  Bicycle_model Bicycle_spec Bicycle_proofs SmootherGrad_proofs Rs_model Rs_spec.
From Verif Require Validator_proofs.
From Coq Require Import ZifyBool ZifyNat ZifyN.
Local Open Scope R_scope.

(** ** Motions *)
Lemma driven_compat r st p q s : same_pose p q -> same_pose (driven r st p s) (driven r st q s).
Proof.
  intros (Hx & Hy & Ha). pose proof (same_angle_cos _ _ Ha) as Hc. pose proof (same_angle_sin _ _ Ha) as Hs.
  destruct st; cbn; unfold same_pose; cbn; rewrite ?sin_plus, ?cos_plus, ?sin_minus, ?cos_minus, Hx, Hy, Hc, Hs; split; auto; split; auto.
  - apply same_angle_add; auto. apply same_angle_refl.
  - apply same_angle_sub; auto. apply same_angle_refl.
Qed.

Lemma driven_0 r st p : driven r st p 0 = p.
Proof. destruct p as [x y t]. destruct st; cbn; rewrite ?Rplus_0_r, ?Rminus_0_r; f_equal; ring. Qed.

Lemma drive_cons r m l p : drive r (m :: l) p = drive r l (driven r (m_steer m) p (signed (m_dir m) (m_len m))).
Proof. reflexivity. Qed.

Lemma drive_compat r l : forall p q, same_pose p q -> same_pose (drive r l p) (drive r l q).
Proof.
  induction l as [|m l IH]; intros p q H; auto. apply IH. now apply driven_compat.
Qed.

Lemma sin_half a : 2 * sin (a / 2) * cos (a / 2) = sin a.
Proof. rewrite <- sin_2a. f_equal. lra. Qed.
Lemma cos_half a : 2 * sin (a / 2) * sin (a / 2) = 1 - cos a.
Proof. replace a with (2 * (a / 2)) at 3 by lra. rewrite cos_2a_sin. lra. Qed.

Lemma move_driven r p m s : same_pose (rs_move r p m s) (driven r (m_steer m) p (signed (m_dir m) s)).
Proof.
  unfold rs_move. assert (Hs : forall d : direction, match d with Backward => - s | _ => s end = signed d s) by (intros []; reflexivity).
  assert (Hx : forall a, 2 * sin (a / 2) * r * cos (a / 2) = r * sin a) by (intros a; rewrite <- (sin_half a); ring).
  assert (Hy : forall a, 2 * sin (a / 2) * r * sin (a / 2) = r * (1 - cos a)) by (intros a; rewrite <- (cos_half a); ring).
  destruct (m_steer m).
  - unfold rs_turn. rewrite Hs. cbv zeta. rewrite Hx, Hy. set (a := signed (m_dir m) s). destruct (add_fields p (mk_pose (r * sin a) (r * (1 - cos a)) a)) as (Ex & Ey & _).
    pose proof (add_same_angle p (mk_pose (r * sin a) (r * (1 - cos a)) a)) as Et. cbn [px py pth mk_pose] in *.
    split; [|split]; cbn [driven px py pth].
    + rewrite Ex, sin_plus. ring.
    + rewrite Ey, cos_plus. ring.
    + eapply same_angle_trans; [exact Et|]. apply same_angle_add; [apply same_angle_refl|apply wrap_same].
  - unfold rs_straight. rewrite Hs. cbn. split; [|split]; cbn; [ring|ring|apply wrap_same].
  - unfold rs_turn. rewrite Hs. cbv zeta. rewrite Hx, Hy. set (a := signed (m_dir m) s). destruct (add_fields p (mk_pose (r * sin a) (- (r * (1 - cos a))) (- a))) as (Ex & Ey & _).
    pose proof (add_same_angle p (mk_pose (r * sin a) (- (r * (1 - cos a))) (- a))) as Et. cbn [px py pth mk_pose] in *.
    split; [|split]; cbn [driven px py pth].
    + rewrite Ex, sin_minus. ring.
    + rewrite Ey, cos_minus. ring.
    + eapply same_angle_trans; [exact Et|]. apply same_angle_add; [apply same_angle_refl|apply wrap_same].
Qed.

Lemma move_compat r p q m s : same_pose p q -> same_pose (rs_move r p m s) (driven r (m_steer m) q (signed (m_dir m) s)).
Proof. intros H. eapply same_pose_trans; [apply move_driven|]. now apply driven_compat. Qed.

Lemma signed_0 d : signed d 0 = 0.
Proof. destruct d; cbn; lra. Qed.

(** ** The pose after a length *)
Fixpoint drive_for (r : R) (l : list motion) (d : R) (p : pose) : pose :=
  match l with
  | [] => p
  | m :: t => if Rleb d (m_len m) then driven r (m_steer m) p (signed (m_dir m) d)
              else drive_for r t (d - m_len m) (driven r (m_steer m) p (signed (m_dir m) (m_len m)))
  end.

Lemma drive_for_compat r l : forall d p q, same_pose p q -> same_pose (drive_for r l d p) (drive_for r l d q).
Proof.
  induction l as [|m l IH]; intros d p q H; auto. cbn. destruct (Rleb d (m_len m)); [now apply driven_compat|]. apply IH. now apply driven_compat.
Qed.

Lemma drive_for_0 r l p : Forall proper l -> drive_for r l 0 p = p.
Proof.
  intros [|m t [_ H] _]; auto. cbn. destruct (Rleb_spec 0 (m_len m)); [|lra]. rewrite signed_0. apply driven_0.
Qed.

Lemma length_pos l : Forall proper l -> 0 <= motions_length l.
Proof. induction 1 as [|m l [_ H] _ IH]; cbn; lra. Qed.

Lemma motions_length_app a b : motions_length (a ++ b) = motions_length a + motions_length b.
Proof. induction a; cbn in *; lra. Qed.

Lemma drive_zero r l : Forall proper l -> motions_length l = 0 -> forall p, drive r l p = p.
Proof.
  induction 1 as [|m l [_ H] F IH]; intros E p; auto. cbn in *. pose proof (length_pos l F). assert (m_len m = 0) as -> by lra.
  rewrite signed_0, driven_0. apply IH. lra.
Qed.

Lemma drive_for_reaches r l : Forall proper l -> forall d p before m s, reaches l d before m s ->
  drive_for r l d p = driven r (m_steer m) (drive r before p) (signed (m_dir m) s).
Proof.
  induction 1 as [|b l [Hd Hb] F IH]; intros d p before m s ((after & E) & Hs & El).
  { destruct before; discriminate. }
  destruct before as [|b' bs]; injection E as -> E.
  - cbn in El. cbn. destruct (Rleb_spec d (m_len m)) as [_|N]; [|lra]. do 2 f_equal. lra.
  - cbn in El. cbn [drive_for]. subst l. apply Forall_app in F as [F1 F2]. pose proof (length_pos bs F1) as P. destruct (Rleb_spec d (m_len b')) as [L|N].
    + assert (Z : motions_length bs = 0) by lra. assert (s = 0) as -> by lra. assert (d = m_len b') as -> by lra. rewrite signed_0, driven_0.
      change (drive r (b' :: bs) p) with (drive r bs (driven r (m_steer b') p (signed (m_dir b') (m_len b')))). now rewrite drive_zero.
    + cbn. apply IH. split; [eauto|]. split; auto. lra.
Qed.

Lemma drive_for_all r l : Forall proper l -> forall p, drive_for r l (motions_length l) p = drive r l p.
Proof.
  induction 1 as [|m l [Hd H] F IH]; intros p; auto. cbn. pose proof (length_pos l F). destruct (Rleb_spec (m_len m + motions_length l) (m_len m)) as [L|N].
  - assert (Z : motions_length l = 0) by lra. rewrite Z, Rplus_0_r. symmetry. now apply drive_zero.
  - replace (m_len m + motions_length l - m_len m) with (motions_length l) by ring. apply IH.
Qed.

Lemma interp_drive r l : 0 < r -> Forall proper l -> forall d len p q, len <= d -> same_pose p q ->
  same_pose (interp_loop r d l len p) (drive_for r l ((d - len) / r) q).
Proof.
  intros Hr. induction 1 as [|m l [Hd Hm] F IH]; intros d len p q Hl Hp; auto. cbn [interp_loop drive_for].
  assert (Q : 0 <= (d - len) / r) by (apply Rmult_le_pos; [lra|left; now apply Rinv_0_lt_compat]).
  destruct (Reqb_spec (m_len m * r) 0) as [Z|N].
  - assert (Z' : m_len m = 0) by nra. rewrite Z'. destruct (Rleb_spec ((d - len) / r) 0) as [L|N].
    + assert (E : (d - len) / r = 0) by lra. rewrite E, signed_0, driven_0. eapply same_pose_trans; [apply IH; eauto|]. rewrite E, drive_for_0; auto. apply same_pose_refl.
    + rewrite Rminus_0_r, signed_0, driven_0. now apply IH.
  - assert (Pm : 0 < m_len m) by nra. assert (Pr : 0 < m_len m * r) by nra. assert (M : (d - len) / (m_len m * r) = (d - len) / r / m_len m) by (field; lra).
    assert (K : (d - len) / r * r = d - len) by (field; lra).
    destruct (Rleb_spec d (len + m_len m * r)) as [L|L].
    + destruct (Rleb_spec ((d - len) / r) (m_len m)) as [L'|L']; [|nra]. rewrite Rmin_left.
      2:{ apply Rmult_le_reg_r with (m_len m * r); auto. replace ((d - len) / (m_len m * r) * (m_len m * r)) with (d - len) by (field; lra). lra. }
      rewrite M. replace (m_len m * ((d - len) / r / m_len m)) with ((d - len) / r) by (field; lra). now apply move_compat.
    + destruct (Rleb_spec ((d - len) / r) (m_len m)) as [L'|L']; [nra|]. rewrite Rmin_right.
      2:{ apply Rmult_le_reg_r with (m_len m * r); auto. replace ((d - len) / (m_len m * r) * (m_len m * r)) with (d - len) by (field; lra). lra. }
      rewrite Rmult_1_r. replace ((d - len) / r - m_len m) with ((d - (len + m_len m * r)) / r) by (field; lra). apply IH; [lra|]. now apply move_compat.
Qed.

(** ** Segments *)
Lemma valid_motions_app l k : Forall proper l -> valid_motions (map Some l ++ repeat None k) = l.
Proof. induction 1 as [|m l [H _] F IH]; cbn; [now destruct k|]. destruct (m_dir m); [now rewrite IH|now rewrite IH|easy]. Qed.

Lemma holds_valid g l : holds_motions g l -> valid_motions (g_motions g) = l.
Proof. intros (E & _ & _ & F). rewrite E. now apply valid_motions_app. Qed.

Lemma first_invalid_app l k : Forall proper l -> first_invalid (map Some l ++ repeat None (S k)) = Some (length l).
Proof. induction 1 as [|m l [H _] F IH]; cbn in *; auto. destruct (m_dir m); [now rewrite IH|now rewrite IH|easy]. Qed.

Lemma vset_at {A} (l : list A) a x r : vset (l ++ a :: r) (length l) x = Ok (l ++ x :: r).
Proof.
  unfold vset. rewrite app_length. cbn [length]. destruct (Nat.ltb_spec (length l) (length l + S (length r))); [|lia]. f_equal.
  rewrite firstn_app, Nat.sub_diag, firstn_all, firstn_O, app_nil_r. f_equal. f_equal. rewrite skipn_app.
  replace (S (length l) - length l)%nat with 1%nat by lia. rewrite skipn_all2 by lia. reflexivity.
Qed.

Lemma add_motion_holds g l m : holds_motions g l -> proper m -> (length l < num_motion)%nat ->
  exists g', add_motion g m = Ok g' /\ holds_motions g' (l ++ [m]).
Proof.
  intros (E & Hn & Hl & F) [Hd Hm] Hlt. unfold add_motion. rewrite E.
  destruct (num_motion - length l)%nat as [|k] eqn:K; [lia|]. rewrite first_invalid_app by auto.
  cbn [repeat]. replace (length l) with (length (map Some l)) by apply map_length. rewrite vset_at. cbn [bind]. eexists. split; [reflexivity|].
  split; [|split; [|split]]; cbn [g_motions g_length].
  - rewrite app_length. cbn [length]. replace (num_motion - (length l + 1))%nat with k by lia. rewrite map_app, <- app_assoc. reflexivity.
  - rewrite app_length. cbn [length]. lia.
  - rewrite Hl, motions_length_app. cbn. rewrite Rabs_right by lra. lra.
  - apply Forall_app. split; auto. constructor; [split; auto|constructor].
Qed.

Lemma g_new_holds : holds_motions g_new [].
Proof. split; [reflexivity|]. split; [cbn; lia|]. split; [reflexivity|constructor]. Qed.

Lemma add_motions_holds l' : forall g l, holds_motions g l -> Forall proper l' -> (length l + length l' <= num_motion)%nat ->
  exists g', add_motions g l' = Ok g' /\ holds_motions g' (l ++ l').
Proof.
  induction l' as [|m l' IH]; intros g l H F Hn.
  - exists g. rewrite app_nil_r. auto.
  - inversion F as [|? ? F1 F2]; subst. cbn in Hn. destruct (add_motion_holds g l m H F1 ltac:(lia)) as (g' & E & H').
    destruct (IH g' (l ++ [m]) H' F2) as (g'' & E' & H''). { rewrite app_length. cbn. lia. }
    exists g''. unfold add_motions in *. cbn [fold_left bind]. rewrite E. split; auto. rewrite <- app_assoc in H''. exact H''.
Qed.

(** ** Paths *)
Lemma rs_at_drive init g l r ratio : holds_motions g l -> 0 < r -> 0 <= ratio <= 1 ->
  same_pose (rs_at (rs_new init g r) ratio) (drive_for r l (ratio * motions_length l) init).
Proof.
  intros H Hr Hq. pose proof (holds_valid g l H) as V. destruct H as (_ & _ & Hl & F). pose proof (length_pos l F) as P.
  unfold rs_at, rs_new, rs_interp. cbn [q_init q_length q_segment q_radius]. rewrite V, Hl. destruct (Reqb_spec (motions_length l * r) 0) as [Z|N].
  - assert (motions_length l = 0) as -> by nra. rewrite Rmult_0_r, drive_for_0; auto. apply same_pose_refl.
  - eapply same_pose_trans; [apply (interp_drive r l Hr F _ 0 init init)|]; [nra|apply same_pose_refl|].
    replace ((ratio * (motions_length l * r) - 0) / r) with (ratio * motions_length l) by (field; lra). apply same_pose_refl.
Qed.

(** ** Distances, circles, equations of motion *)
Lemma driven_distance r st p s1 s2 : 0 <= r ->
  distance (position (driven r st p s1)) (position (driven r st p s2)) <= r * Rabs (s1 - s2).
Proof.
  intros Hr. assert (G : forall x y d, 0 <= d -> x * x + y * y <= d * d -> sqrt (x * x + y * y) <= d).
  { intros x y d Hd H. rewrite <- (sqrt_square d) by auto. now apply sqrt_le_1_alt. }
  assert (A : 0 <= r * Rabs (s1 - s2)) by (apply Rmult_le_pos; auto; apply Rabs_pos).
  assert (C : forall a b, (r * (sin a - sin b)) * (r * (sin a - sin b)) + (r * (cos a - cos b)) * (r * (cos a - cos b)) <= (r * Rabs (a - b)) * (r * Rabs (a - b))).
  { intros a b. pose proof (chord_sq a b) as H. assert (B : Rabs (a - b) * Rabs (a - b) = (a - b) * (a - b)) by (unfold Rabs; destruct (Rcase_abs (a - b)); ring).
    replace (r * (sin a - sin b) * (r * (sin a - sin b)) + r * (cos a - cos b) * (r * (cos a - cos b))) with (r * r * ((sin a - sin b) * (sin a - sin b) + (cos a - cos b) * (cos a - cos b))) by ring.
    replace (r * Rabs (a - b) * (r * Rabs (a - b))) with (r * r * (Rabs (a - b) * Rabs (a - b))) by ring. rewrite B. apply Rmult_le_compat_l; auto. nra. }
  unfold distance, position. destruct st; cbn [driven px py fst snd]; apply G; auto.
  - pose proof (C (pth p + s1) (pth p + s2)) as H. replace (pth p + s1 - (pth p + s2)) with (s1 - s2) in H by ring. nra.
  - assert (B : Rabs (s1 - s2) * Rabs (s1 - s2) = (s1 - s2) * (s1 - s2)) by (unfold Rabs; destruct (Rcase_abs (s1 - s2)); ring).
    pose proof (sincos (pth p)) as T.
    assert (r * r * ((s1 - s2) * (s1 - s2)) * (sin (pth p) * sin (pth p) + cos (pth p) * cos (pth p)) = r * r * (Rabs (s1 - s2) * Rabs (s1 - s2))) as E by (rewrite T, B; ring). nra.
  - pose proof (C (pth p - s1) (pth p - s2)) as H. replace (pth p - s1 - (pth p - s2)) with (- (s1 - s2)) in H by ring. rewrite Rabs_Ropp in H. nra.
Qed.

Lemma drive_for_distance r l : 0 <= r -> Forall proper l -> forall d1 d2 p, 0 <= d1 <= d2 ->
  distance (position (drive_for r l d1 p)) (position (drive_for r l d2 p)) <= r * (d2 - d1).
Proof.
  intros Hr. induction 1 as [|m l [Hd Hm] F IH]; intros d1 d2 p H; cbn [drive_for].
  - rewrite distance_self. nra.
  - assert (S : forall d x y, Rabs (signed d x - signed d y) = Rabs (x - y)).
    { intros [] x y; cbn; auto. rewrite <- Rabs_Ropp. f_equal. ring. }
    destruct (Rleb_spec d1 (m_len m)) as [L1|L1], (Rleb_spec d2 (m_len m)) as [L2|L2]; try lra.
    + eapply Rle_trans; [apply driven_distance; auto|]. rewrite S, Rabs_left1 by lra. apply Rmult_le_compat_l; auto. lra.
    + pose proof (driven_distance r (m_steer m) p (signed (m_dir m) d1) (signed (m_dir m) (m_len m)) Hr) as A. rewrite S, Rabs_left1 in A by lra.
      set (q := driven r (m_steer m) p (signed (m_dir m) (m_len m))) in *. pose proof (IH 0 (d2 - m_len m) q ltac:(lra)) as B. rewrite drive_for_0 in B by auto.
      pose proof (Validator_proofs.distance_triangle (position (driven r (m_steer m) p (signed (m_dir m) d1))) (position q) (position (drive_for r l (d2 - m_len m) q))). nra.
    + pose proof (IH (d1 - m_len m) (d2 - m_len m) (driven r (m_steer m) p (signed (m_dir m) (m_len m))) ltac:(lra)) as B. nra.
Qed.

Lemma rs_at_distance init g l r a b : holds_motions g l -> 0 < r -> 0 <= a <= 1 -> 0 <= b <= 1 ->
  distance (position (rs_at (rs_new init g r) a)) (position (rs_at (rs_new init g r) b)) <= Rabs (a - b) * q_length (rs_new init g r).
Proof.
  intros H Hr Ha Hb. destruct (rs_at_drive init g l r a H Hr Ha) as (Xa & Ya & _). destruct (rs_at_drive init g l r b H Hr Hb) as (Xb & Yb & _).
  destruct H as (_ & _ & Hl & F). pose proof (length_pos l F) as P. unfold position at 1 2. rewrite Xa, Ya, Xb, Yb.
  change (distance (position (drive_for r l (a * motions_length l) init)) (position (drive_for r l (b * motions_length l) init)) <= Rabs (a - b) * (g_length g * r)). rewrite Hl.
  destruct (Rle_dec a b) as [L|L].
  - pose proof (drive_for_distance r l (Rlt_le _ _ Hr) F (a * motions_length l) (b * motions_length l) init ltac:(nra)). rewrite Rabs_left1 by lra. nra.
  - pose proof (drive_for_distance r l (Rlt_le _ _ Hr) F (b * motions_length l) (a * motions_length l) init ltac:(nra)). rewrite distance_sym, Rabs_right by lra. nra.
Qed.

(** The equations of motion, with respect to the length driven: unit speed in the direction of the heading, which turns with the
    curvature of the steering. *)
Lemma driven_equations r st p s : r <> 0 ->
  D (fun t => px (driven r st p (t / r))) s (cos (pth (driven r st p (s / r)))) /\
  D (fun t => py (driven r st p (t / r))) s (sin (pth (driven r st p (s / r)))) /\
  D (fun t => pth (driven r st p (t / r))) s (curvature r st).
Proof.
  intros Hr. assert (Q : forall k, D (fun t => k + t / r) s (/ r)).
  { intros k. eapply D_eq; [apply D_plus; [apply D_c|]|]; [eapply D_eq; [apply (D_mult (fun t => t) (fun _ => / r)); [apply D_id|apply D_c]|reflexivity]|]. cbn beta. ring. }
  assert (Q' : forall k, D (fun t => k - t / r) s (- / r)).
  { intros k. eapply D_eq; [apply D_minus; [apply D_c|]|]; [eapply D_eq; [apply (D_mult (fun t => t) (fun _ => / r)); [apply D_id|apply D_c]|reflexivity]|]. cbn beta. ring. }
  destruct st; cbn [driven px py pth curvature]; (split; [|split]); auto.
  - eapply D_eq; [apply D_plus; [apply D_c|apply D_mult; [apply D_c|apply D_minus; [apply D_sin, Q|apply D_c]]]|]. cbn beta. field. auto.
  - eapply D_eq; [apply D_plus; [apply D_c|apply D_mult; [apply D_c|apply D_minus; [apply D_c|apply D_cos, Q]]]|]. cbn beta. field. auto.
  - apply D_ext with (f := fun t => px p + t * cos (pth p)); [intros t; field; auto|apply D_affine].
  - apply D_ext with (f := fun t => py p + t * sin (pth p)); [intros t; field; auto|apply D_affine].
  - apply D_c.
  - eapply D_eq; [apply D_plus; [apply D_c|apply D_mult; [apply D_c|apply D_minus; [apply D_c|apply D_sin, Q']]]|]. cbn beta. field. auto.
  - eapply D_eq; [apply D_plus; [apply D_c|apply D_mult; [apply D_c|apply D_minus; [apply D_cos, Q'|apply D_c]]]|]. cbn beta. field. auto.
Qed.

Lemma driven_circle r st p : 0 <= r -> st <> SStraight -> exists c, forall s, on_circle c r (position (driven r st p s)).
Proof.
  intros Hr Hst. destruct st; [|easy|].
  - exists (px p - r * sin (pth p), py p + r * cos (pth p)). intros s. unfold on_circle, distance, position. cbn [driven px py fst snd].
    transitivity (sqrt (r * r)); [f_equal|now apply sqrt_square]. pose proof (sincos (pth p + s)) as T. replace (r * r) with (r * r * (sin (pth p + s) * sin (pth p + s) + cos (pth p + s) * cos (pth p + s))) by (rewrite T; ring). clear T. ring.
  - exists (px p + r * sin (pth p), py p - r * cos (pth p)). intros s. unfold on_circle, distance, position. cbn [driven px py fst snd].
    transitivity (sqrt (r * r)); [f_equal|now apply sqrt_square]. pose proof (sincos (pth p - s)) as T. replace (r * r) with (r * r * (sin (pth p - s) * sin (pth p - s) + cos (pth p - s) * cos (pth p - s))) by (rewrite T; ring). clear T. ring.
Qed.

(** ** Symmetries *)
Lemma driven_mirror_time r st p s : driven r st (mirror_time p) (- s) = mirror_time (driven r st p s).
Proof.
  unfold mirror_time. destruct st; cbn.
  - replace (- pth p + - s) with (- (pth p + s)) by ring. rewrite !sin_neg, !cos_neg. f_equal; ring.
  - rewrite sin_neg, cos_neg. f_equal; ring.
  - replace (- pth p - - s) with (- (pth p - s)) by ring. rewrite !sin_neg, !cos_neg. f_equal; ring.
Qed.
Lemma driven_mirror_side r st p s : driven r (flip_steer st) (mirror_side p) s = mirror_side (driven r st p s).
Proof.
  unfold mirror_side. destruct st; cbn.
  - replace (- pth p - s) with (- (pth p + s)) by ring. rewrite !sin_neg, !cos_neg. f_equal; ring.
  - rewrite sin_neg, cos_neg. f_equal; ring.
  - replace (- pth p + s) with (- (pth p - s)) by ring. rewrite !sin_neg, !cos_neg. f_equal; ring.
Qed.
Definition mtf (m : motion) : motion := Motion (m_steer m) (flip_dir (m_dir m)) (m_len m).
Definition mrf (m : motion) : motion := Motion (flip_steer (m_steer m)) (m_dir m) (m_len m).

Lemma drive_mirror_time r l : Forall proper l -> forall p, drive r (map mtf l) (mirror_time p) = mirror_time (drive r l p).
Proof.
  induction 1 as [|m l [Hd _] F IH]; intros p; auto. cbn [map]. rewrite !drive_cons, <- IH. f_equal. rewrite <- driven_mirror_time. cbn [mtf m_steer m_dir m_len]. f_equal. destruct (m_dir m); cbn; [ring|ring|easy].
Qed.
Lemma drive_mirror_side r l : forall p, drive r (map mrf l) (mirror_side p) = mirror_side (drive r l p).
Proof. induction l as [|m l IH]; intros p; auto. cbn [map]. rewrite !drive_cons, <- IH. f_equal. apply driven_mirror_side. Qed.

Lemma motions_length_map f l : (forall m, m_len (f m) = m_len m) -> motions_length (map f l) = motions_length l.
Proof. intros H. induction l as [|m l IH]; cbn; auto. now rewrite H, IH. Qed.

Lemma holds_map f g l : (forall m, m_len (f m) = m_len m) -> (forall m, m_dir m <> NoMotion -> m_dir (f m) <> NoMotion) -> holds_motions g l ->
  holds_motions (RsSegment (map (option_map f) (g_motions g)) (g_length g)) (map f l).
Proof.
  intros Hf Hd (E & Hn & Hl & F). split; [|split; [|split]]; cbn [g_motions g_length].
  - rewrite E, map_app, !map_map, map_length. f_equal. clear. generalize (num_motion - length l)%nat as k. induction k as [|k IH]; cbn; auto. f_equal. exact IH.
  - now rewrite map_length.
  - now rewrite motions_length_map.
  - apply Forall_map. eapply Forall_impl; [|exact F]. intros m [A B]. split; auto. now rewrite Hf.
Qed.
Lemma timeflip_holds g l : holds_motions g l -> holds_motions (timeflip g) (map mtf l).
Proof. intros H. apply (holds_map mtf); auto. intros m Hm. cbn. destruct (m_dir m); cbn; easy. Qed.
Lemma reflect_holds g l : holds_motions g l -> holds_motions (reflect g) (map mrf l).
Proof. intros H. apply (holds_map mrf); auto. Qed.

(** ** Placing and scaling *)
Definition scaled (r : R) (p : pose) : pose := Pose (r * px p) (r * py p) (pth p).

Lemma driven_scaled r st p s : driven r st (scaled r p) s = scaled r (driven 1 st p s).
Proof. destruct st; cbn; unfold scaled; cbn; f_equal; ring. Qed.
Lemma drive_scaled r l : forall p, drive r l (scaled r p) = scaled r (drive 1 l p).
Proof. induction l as [|m l IH]; intros p; auto. rewrite !drive_cons, driven_scaled. apply IH. Qed.

Lemma driven_placed r st a p s : same_pose (driven r st (pose_add a p) s) (pose_add a (driven r st p s)).
Proof.
  destruct (add_fields a p) as (X & Y & _). pose proof (add_same_angle a p) as T. destruct (add_fields a (driven r st p s)) as (X' & Y' & _).
  pose proof (add_same_angle a (driven r st p s)) as T'. pose proof (same_angle_cos _ _ T) as C. pose proof (same_angle_sin _ _ T) as S.
  split; [|split].
  - rewrite X'. destruct st; cbn [driven px py pth]; rewrite ?sin_plus, ?cos_plus, ?sin_minus, ?cos_minus, X, ?C, ?S, ?sin_plus, ?cos_plus; ring.
  - rewrite Y'. destruct st; cbn [driven px py pth]; rewrite ?sin_plus, ?cos_plus, ?sin_minus, ?cos_minus, Y, ?C, ?S, ?sin_plus, ?cos_plus; ring.
  - apply same_angle_sym. eapply same_angle_trans; [exact T'|]. apply same_angle_sym. destruct st; cbn [driven pth]; auto.
    + replace (pth a + (pth p + s)) with (pth a + pth p + s) by ring. apply same_angle_add; auto. apply same_angle_refl.
    + replace (pth a + (pth p - s)) with (pth a + pth p - s) by ring. apply same_angle_sub; auto. apply same_angle_refl.
Qed.
Lemma drive_placed r l a : forall p, same_pose (drive r l (pose_add a p)) (pose_add a (drive r l p)).
Proof.
  induction l as [|m l IH]; intros p; [apply same_pose_refl|]. rewrite !drive_cons. eapply same_pose_trans; [apply drive_compat, driven_placed|]. apply IH.
Qed.

(** Driving motions that lead from the origin to the goal seen from the start, in units of the radius. *)
Lemma drive_reaches r l start goal : r <> 0 ->
  same_pose (drive 1 l zero_pose) (mk_pose (px (pose_sub goal start) / r) (py (pose_sub goal start) / r) (pth (pose_sub goal start))) ->
  same_pose (drive r l start) goal.
Proof.
  intros Hr (Hx & Hy & Ht). set (d := pose_sub goal start) in *. cbn [px py pth mk_pose] in Hx, Hy, Ht. eapply same_pose_trans; [apply drive_compat, same_pose_sym, add_zero_r|].
  eapply same_pose_trans; [apply drive_placed|]. assert (Z : zero_pose = scaled r zero_pose) by (unfold scaled, zero_pose; cbn; f_equal; ring). rewrite Z, drive_scaled.
  eapply same_pose_trans; [|apply add_sub]. apply add_compat; [apply same_pose_refl|]. fold d. split; [|split]; cbn [scaled px py pth].
  - rewrite Hx. field. auto.
  - rewrite Hy. field. auto.
  - eapply same_angle_trans; [exact Ht|apply wrap_same].
Qed.
