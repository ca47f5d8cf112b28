(** Laws of the Reeds-Shepp distance. *)
From Coq Require Import Reals Lra Psatz.
From Verif Require Import Base RealBase Pose_model Pose_spec Pose_proofs Straight_model Straight_spec Bicycle_model Bicycle_spec Bicycle_proofs Rs_model Rs_spec Rs_proofs
  RsWord_proofs RsSolver_proofs RsComplete_proofs RsCurve_spec RsCurve_proofs.
From Coq Require Import ZifyBool ZifyNat ZifyN.
Local Open Scope R_scope.

(** ** Ranges of the lengths that the formulas give *)
Definition in_range (b : nat) (t u v : R) : Prop :=
  match b with
  | 0%nat => 0 <= t <= PI /\ 0 <= u /\ half_turn v
  | 1%nat => half_turn t /\ 0 <= u /\ half_turn v
  | 2%nat => 0 <= t <= PI /\ 0 <= u <= PI /\ 0 <= v <= PI
  | 3%nat | 4%nat => full_turn t /\ 0 <= u <= PI /\ full_turn v
  | 5%nat => full_turn t /\ (0 <= u < PI / 3 \/ u = PI / 3 /\ t = 5 * PI / 6 \/ PI / 2 < u <= 2 * PI / 3) /\ full_turn v
  | 6%nat => full_turn t /\ 0 <= u <= PI / 2 /\ full_turn v
  | _ => full_turn t /\ 0 <= u /\ full_turn v
  end.

Lemma acos_first x : 0 <= x <= 1 -> 0 <= acos x <= PI / 2.
Proof.
  intros H. pose proof (acos_bound x) as B. pose proof PI_gt_1. split; [lra|]. destruct (Rle_lt_dec (acos x) (PI / 2)); auto.
  assert (cos (acos x) < 0) by (apply cos_lt_0; lra). rewrite cos_acos in *; lra.
Qed.

Lemma turns_keep x : 0 <= x < 2 * PI -> turns x = x.
Proof. intros H. apply turns_unique; auto. apply same_angle_refl. Qed.

Lemma turns_full x : full_turn (turns x).
Proof. exact (proj1 (turns_spec x)). Qed.

Ltac invalid := repeat match goal with |- context [angle_invalid ?a] => let E := fresh "V" in destruct (angle_invalid a) eqn:E; [discriminate|apply valid_angle in E]; cbn [orb] end.

Lemma formula_range b goal t u v len : formula b goal = Lengths t u v len -> in_range b t u v.
Proof.
  pose proof PI_gt_1 as Hp. destruct b as [|[|[|[|[|[|[|[|[|[|[|[|b]]]]]]]]]]]]; cbn [formula in_range]; [..|discriminate].
  - unfold LfSfLf. cbv zeta. set (x := px goal - _). set (y := py goal - 1 + _). pose proof (wrap_angle_spec (pth goal - atan2 y x)) as [W _].
    destruct (angle_invalid (atan2 y x)) eqn:E1; [discriminate|]. destruct (angle_invalid (wrap_angle (pth goal - atan2 y x))) eqn:E2; [discriminate|]. apply valid_angle in E1, E2. cbn [orb].
    intros E. injection E as <- <- <- _. split; [lra|]. split; [apply sqrt_pos|]. unfold half_turn. lra.
  - unfold LfSfRf. cbv zeta. set (x := px goal + _). set (y := py goal - 1 - _). destruct (Rltb (x * x + y * y - 4) 0); [discriminate|]. set (T := wrap_angle _).
    assert (W : - PI <= T < PI) by (apply wrap_angle_spec). pose proof (wrap_angle_spec (T - pth goal)) as [W' _].
    destruct (angle_invalid T) eqn:E1; [discriminate|]. destruct (angle_invalid (wrap_angle (T - pth goal))) eqn:E2; [discriminate|]. apply valid_angle in E1, E2. cbn [orb].
    intros E. injection E as <- <- <- _. unfold half_turn. split; [lra|]. split; [apply sqrt_pos|]. lra.
  - unfold LfRbLf. cbv zeta. set (x := px goal - _). set (y := py goal - 1 + _). destruct (Rltb 4 (sqrt (x * x + y * y))); [discriminate|].
    set (T := turns (_ + _ + _)). set (U := turns (PI - _)). set (V := turns (_ - T - U)).
    destruct (angle_invalid T) eqn:E1; [discriminate|]. destruct (angle_invalid U) eqn:E2; [discriminate|]. destruct (angle_invalid V) eqn:E3; [discriminate|]. apply valid_angle in E1, E2, E3. cbn [orb].
    intros E. injection E as <- <- <- _. lra.
  - unfold LfRbLb. cbv zeta. set (x := px goal - _). set (y := py goal - 1 + _). destruct (Rltb_spec 4 (sqrt (x * x + y * y))) as [B|B]; [discriminate|].
    pose proof (sqrt_pos (x * x + y * y)). pose proof (acos_first (sqrt (x * x + y * y) / 4) ltac:(lra)).
    intros E. injection E as <- <- <- _. split; [apply turns_full|]. split; [rewrite turns_keep; lra|apply turns_full].
  - unfold LfRfLb. cbv zeta. set (x := px goal - _). set (y := py goal - 1 + _). destruct (Rltb_spec 4 (sqrt (x * x + y * y))) as [B|B]; [discriminate|].
    destruct (Reqb _ 0); [discriminate|]. intros E. injection E as <- <- <- _. split; [apply turns_full|]. split; [apply acos_bound|apply turns_full].
  - unfold LfRufLubRb. cbv zeta. set (x := px goal + _). set (y := py goal - 1 - _). destruct (Rltb_spec 4 (sqrt (x * x + y * y))) as [B|B]; [discriminate|].
    pose proof (sqrt_pos (x * x + y * y)) as P. destruct (Rltb_spec 2 (sqrt (x * x + y * y))) as [B'|B'].
    + set (z := sqrt (x * x + y * y) / 4 - 1 / 2). pose proof (acos_first z ltac:(unfold z; lra)) as A. pose proof (cos_acos z ltac:(unfold z; lra)) as C.
      assert (A1 : acos z < PI / 2). { destruct (Req_dec (acos z) (PI / 2)) as [F|F]; [|lra]. rewrite F, cos_PI2 in C. unfold z in C. lra. }
      assert (A2 : PI / 3 <= acos z). { destruct (Rle_lt_dec (PI / 3) (acos z)); auto. assert (cos (PI / 3) < cos (acos z)) by (apply cos_decreasing_1; lra). rewrite cos_PI3 in *. unfold z in *. lra. }
      intros E. injection E as <- <- <- _. split; [apply turns_full|]. split; [right; right; rewrite turns_keep; lra|apply turns_full].
    + set (z := sqrt (x * x + y * y) / 4 + 1 / 2). pose proof (acos_first z ltac:(unfold z; lra)) as A. pose proof (cos_acos z ltac:(unfold z; lra)) as C.
      assert (A2 : acos z <= PI / 3). { destruct (Rle_lt_dec (acos z) (PI / 3)); auto. assert (cos (acos z) < cos (PI / 3)) by (apply cos_decreasing_1; lra). rewrite cos_PI3 in *. unfold z in *. lra. }
      intros E. injection E as <- <- <- _. split; [apply turns_full|]. split; [|apply turns_full]. rewrite (turns_keep (acos z)) by lra.
      destruct (Req_dec (acos z) (PI / 3)) as [F|F]; [|left; lra]. right. left. split; auto. rewrite F in *. rewrite cos_PI3 in C. assert (Q : sqrt (x * x + y * y) = 0) by (unfold z in C; lra).
      apply sqrt_eq_0 in Q; [|nra]. assert (x = 0) by nra. assert (y = 0) by nra. rewrite H, H0. assert (atan2 0 0 = 0) as ->. { unfold atan2. destruct (Rltb_spec 0 0); [lra|auto]. } rewrite turns_keep; lra.
  - unfold LfRubLubRf. cbv zeta. set (x := px goal + _). set (y := py goal - 1 - _). destruct (Rltb 6 (sqrt (x * x + y * y))); [discriminate|]. set (z := 5 / 4 - _).
    destruct (Rltb_spec z 0); [discriminate|]. destruct (Rltb_spec 1 z); [discriminate|]. cbn [orb]. pose proof (acos_first z ltac:(lra)).
    intros E. injection E as <- <- <- _. split; [apply turns_full|]. split; [lra|apply turns_full].
  - unfold LfRbpi2SbLb. cbv zeta. set (x := px goal - _). set (y := py goal - 1 + _). destruct (Rltb (x * x + y * y) 4); [discriminate|].
    destruct (Rltb_spec (sqrt (x * x + y * y - 4) - 2) 0); [discriminate|]. intros E. injection E as <- <- <- _. split; [apply turns_full|]. split; [lra|apply turns_full].
  - unfold LfRbpi2SbRb. cbv zeta. set (x := px goal + _). set (y := py goal - 1 - _). destruct (Rltb_spec (sqrt (x * x + y * y)) 2); [discriminate|].
    intros E. injection E as <- <- <- _. split; [apply turns_full|]. split; [lra|apply turns_full].
  - unfold LfSfRfpi2Lb. cbv zeta. set (x := px goal - _). set (y := py goal - 1 + _). destruct (Rltb (x * x + y * y) 4); [discriminate|].
    destruct (Rltb_spec (sqrt (x * x + y * y - 4) - 2) 0); [discriminate|]. intros E. injection E as <- <- <- _. split; [apply turns_full|]. split; [lra|apply turns_full].
  - unfold LfSfLfpi2Rb. cbv zeta. set (x := px goal + _). set (y := py goal - 1 - _). destruct (Rltb_spec (sqrt (x * x + y * y)) 2); [discriminate|].
    intros E. injection E as <- <- <- _. split; [apply turns_full|]. split; [lra|apply turns_full].
  - unfold LfRbpi2SbLbpi2Rf. cbv zeta. set (x := px goal + _). set (y := py goal - 1 - _). destruct (Rltb (x * x + y * y) 16); [discriminate|].
    destruct (Rltb_spec (sqrt (x * x + y * y - 4) - 4) 0); [discriminate|]. intros E. injection E as <- <- <- _. split; [apply turns_full|]. split; [lra|apply turns_full].
Qed.

(** ** Driving back *)
Definition reversed (l : list motion) : list motion := rev (map mtf l).

Lemma driven_back r st p s : driven r st (driven r st p s) (- s) = p.
Proof.
  destruct p as [x y th]. destruct st; cbn [driven px py pth]; f_equal; try ring; replace (th + s + - s) with th by ring; replace (th - s - - s) with th by ring; ring.
Qed.

Lemma drive_app r a b p : drive r (a ++ b) p = drive r b (drive r a p).
Proof. unfold drive. apply fold_left_app. Qed.

Lemma drive_back r l : Forall proper l -> forall p, drive r (reversed l) (drive r l p) = p.
Proof.
  unfold reversed. induction 1 as [|m l [Hd _] F IH]; intros p; auto. cbn [map rev]. rewrite drive_cons, drive_app, IH, drive_cons. cbn [drive fold_left mtf m_steer m_dir m_len].
  replace (signed (flip_dir (m_dir m)) (m_len m)) with (- signed (m_dir m) (m_len m)) by (destruct (m_dir m); cbn; [ring|ring|easy]). apply driven_back.
Qed.

Lemma mtf_mtf l : map mtf (map mtf l) = l.
Proof. rewrite map_map. rewrite <- (map_id l) at 2. apply map_ext. intros [s [] x]; reflexivity. Qed.
Lemma mrf_mrf l : map mrf (map mrf l) = l.
Proof. rewrite map_map. rewrite <- (map_id l) at 2. apply map_ext. intros [[] e x]; reflexivity. Qed.
Lemma mtf_mrf l : map mtf (map mrf l) = map mrf (map mtf l).
Proof. rewrite !map_map. reflexivity. Qed.

Lemma reversed_vary k l : reversed (vary k l) = vary k (reversed l).
Proof. unfold reversed. destruct k as [|[|[|k]]]; cbn [vary]; rewrite ?mtf_mrf, ?map_rev; auto. Qed.

Lemma vary_vary a b l : exists k, (k < 4)%nat /\ vary a (vary b l) = vary k l.
Proof.
  destruct a as [|[|[|a]]]; destruct b as [|[|[|b]]]; cbn [vary]; rewrite ?mtf_mrf, ?mtf_mtf, ?mrf_mrf;
    first [exists 0%nat; split; [lia|reflexivity]|exists 1%nat; split; [lia|reflexivity]|exists 2%nat; split; [lia|reflexivity]|exists 3%nat; split; [lia|reflexivity]].
Qed.

(** ** Symmetry *)
Section Symmetry.
Variables (a b : pose) (r da db : R).
Hypothesis (Hr : 0 < r) (Ha : shortest_distance a b r = Some da) (Hb : shortest_distance b a r = Some db).

Lemma back_le k l k' l' : (k < 4)%nat -> Forall proper l -> same_pose (drive r (vary k l) a) b -> reversed l = vary k' l' -> left_curve l' -> db <= motions_length l'.
Proof.
  intros Hk F H E C. destruct (vary_vary k k' l') as (j & Hj & Ej). apply (curve_le b a r db Hr Hb j l' Hj C). rewrite <- Ej, <- E, <- reversed_vary.
  eapply same_pose_trans; [apply drive_compat, same_pose_sym; exact H|]. rewrite drive_back by now apply vary_proper. apply same_pose_refl.
Qed.

Lemma symmetric_le : db <= da.
Proof.
  destruct (shortest_distance_spec a b r) as (d' & w & t & u & v & E1 & A & _ & M). assert (d' = da) as -> by congruence. clear E1.
  destruct A as [Hw E]. set (k := Nat.modulo w 4) in *. set (n := Nat.div w 4) in *. assert (Hk : (k < 4)%nat) by (apply Nat.mod_upper_bound; lia).
  assert (E' : formula n (goal_of k a b r) = Lengths t u v da) by exact E. clear E. pose proof (formula_range _ _ _ _ _ _ E') as Rg.
  destruct (base_word_ok _ _ _ _ _ _ E') as (l & El & (F & Hl & Hgoal) & _).
  assert (H : same_pose (drive r (vary k l) a) b).
  { pose proof (same_pose_trans _ _ _ Hgoal (goal_of_same k a b r Hk)) as H0. apply (unvary_compat k) in H0. rewrite unvary_unvary, <- drive_vary, unvary_zero in H0 by auto.
    apply drive_reaches; [lra|]. destruct H0 as (X & Y & T). split; [|split]; cbn [px py pth mk_pose] in *; auto. eapply same_angle_trans; [exact T|]. apply same_angle_sym, wrap_same. }
  clear Hgoal. rewrite <- Hl. pose proof PI_gt_1 as Hp. destruct (vary_vary k 1 l) as (k1 & Hk1 & Ek1). destruct (vary_vary k 2 l) as (k2 & Hk2 & Ek2).
  destruct n as [|[|[|[|[|[|[|[|[|[|[|[|n]]]]]]]]]]]]; [..|discriminate]; cbn [base_motions] in El; injection El as <-; cbn [in_range] in Rg; destruct Rg as (Rt & Ru & Rv); cbn [motions_length m_len Lf Lb Rf Rb Sf Sb].
  - destruct (Req_dec t PI) as [->|Hn].
    2:{ apply Rle_trans with (motions_length [Lf v; Sf u; Lf t]); [|cbn; lra]. apply (back_le k [Lf t; Sf u; Lf v] 1); auto. constructor; unfold half_turn in *; lra. }
    unfold half_turn in *. destruct (Req_dec u 0) as [->|Hu].
    { apply Rle_trans with (motions_length [Lf v; Rb 0; Lf PI]); [|cbn; lra]. apply (back_le k [Lf PI; Rb 0; Lf v] 1); auto; [props| |constructor; lra].
      eapply same_pose_trans; [|exact H]. apply same_effect; auto; [props|]. rewrite lrl_turn, lsl_turn. apply same_pose_refl. }
    destruct (Req_dec v 0) as [->|Hv].
    { (* the pose of the one seen from the other is the same *)
      assert (P : same_pose (drive r (vary k [Lf PI; Sf u; Lf 0]) b) a).
      { assert (FR : Forall proper (reversed [Lf PI; Sf u; Lf 0])) by (apply Forall_rev, proper_mtf; exact F). apply same_pose_trans with (drive r (vary k (reversed [Lf PI; Sf u; Lf 0])) b).
        - apply same_effect; auto. change (reversed [Lf PI; Sf u; Lf 0]) with [Lb 0; Sb u; Lb PI]. geo. repeat first [rewrite Ropp_0|rewrite Rplus_0_l|rewrite Rplus_0_r]. rewrite ?sin_0, ?cos_0, ?sin_neg, ?cos_neg, ?sin_PI, ?cos_PI. split; [|split]; cbn [px py pth]; [ring|ring|exists 1%Z; ring].
        - rewrite <- reversed_vary. eapply same_pose_trans; [apply drive_compat, same_pose_sym; exact H|]. rewrite drive_back by now apply vary_proper. apply same_pose_refl. }
      apply variant_seen in P; auto. apply c0 in P; [|lra|lra|lra]. apply (formula_le b a r db 0 k) in P; auto; try lia; lra. }
    exfalso. destruct (vary_vary k 1 [Lf 0; Sf u; Lf (PI - v)]) as (j & Hj & Ej).
    assert (P : same_pose (drive r (vary j [Lf 0; Sf u; Lf (PI - v)]) a) b).
    { rewrite <- Ej. eapply same_pose_trans; [|exact H]. apply same_effect; auto; [apply vary_proper; props|]. change (vary 1 [Lf 0; Sf u; Lf (PI - v)]) with [Lb 0; Sb u; Lb (PI - v)]. geo.
      repeat first [rewrite Ropp_0|rewrite Rplus_0_l|rewrite Rplus_0_r]. rewrite ?sin_0, ?cos_0. replace (- (PI - v)) with (v - PI) by ring. replace (PI + v) with (v + PI) by ring. rewrite neg_sin, neg_cos, sin_minus, cos_minus, sin_PI, cos_PI. split; [|split]; cbn [px py pth]; [ring|ring|exists (-1)%Z; ring]. }
    apply variant_seen in P; auto; [|props]. apply c0 in P; [|lra|lra|lra]. apply (formula_le a b r da 0 j) in P; auto; try lia. cbn [motions_length m_len Lf Sf] in Hl. lra.
  - apply Rle_trans with (motions_length [Lf v; Sf u; Rf t]); [|cbn; lra]. apply (back_le k [Lf t; Sf u; Rf v] 3); auto. constructor; auto.
  - apply Rle_trans with (motions_length [Lf v; Rb u; Lf t]); [|cbn; lra]. apply (back_le k [Lf t; Rb u; Lf v] 1); auto. constructor; auto.
  - apply Rle_trans with (motions_length [Lf v; Rf u; Lb t]); [|cbn; lra]. apply (back_le k [Lf t; Rb u; Lb v] 0); auto. constructor; auto.
  - apply Rle_trans with (motions_length [Lf v; Rb u; Lb t]); [|cbn; lra]. apply (back_le k [Lf t; Rf u; Lb v] 0); auto. constructor; auto.
  - destruct Ru as [Ru|Ru]; [apply Rle_trans with (motions_length [Lf v; Rf u; Lb u; Rb t]); [|cbn; lra]; apply (back_le k [Lf t; Rf u; Lb u; Rb v] 2); auto; constructor; auto|].
    destruct (vary_vary k 2 [Lf v; Rf u; Lb u; Rb t]) as (j & Hj & Ej).
    assert (P : same_pose (drive r (vary j [Lf v; Rf u; Lb u; Rb t]) b) a).
    { rewrite <- Ej. change (vary 2 [Lf v; Rf u; Lb u; Rb t]) with (reversed [Lf t; Rf u; Lb u; Rb v]). rewrite <- reversed_vary.
      eapply same_pose_trans; [apply drive_compat, same_pose_sym; exact H|]. rewrite drive_back by now apply vary_proper. apply same_pose_refl. }
    unfold full_turn in *. assert (0 <= u) by (destruct Ru as [[-> _]|Ru]; lra). apply variant_seen in P; auto; [|props]. destruct Ru as [[-> ->]|Ru].
    + apply c5'' in P; [|lra]. apply (formula_le b a r db 5 j) in P; auto; try lia; lra.
    + apply c5' in P; [|lra|lra|lra]. apply (formula_le b a r db 5 j) in P; auto; try lia; lra.
  - apply Rle_trans with (motions_length [Lf v; Rb u; Lb u; Rf t]); [|cbn; lra]. apply (back_le k [Lf t; Rb u; Lb u; Rf v] 3); auto. constructor; auto.
  - apply Rle_trans with (motions_length [Lf v; Sf u; Rf (PI / 2); Lb t]); [|cbn; lra]. apply (back_le k [Lf t; Rb (PI / 2); Sb u; Lb v] 0); auto. constructor; auto.
  - apply Rle_trans with (motions_length [Lf v; Sf u; Lf (PI / 2); Rb t]); [|cbn; lra]. apply (back_le k [Lf t; Rb (PI / 2); Sb u; Rb v] 2); auto. constructor; auto.
  - apply Rle_trans with (motions_length [Lf v; Rb (PI / 2); Sb u; Lb t]); [|cbn; lra]. apply (back_le k [Lf t; Sf u; Rf (PI / 2); Lb v] 0); auto. constructor; auto.
  - apply Rle_trans with (motions_length [Lf v; Rb (PI / 2); Sb u; Rb t]); [|cbn; lra]. apply (back_le k [Lf t; Sf u; Lf (PI / 2); Rb v] 2); auto. constructor; auto.
  - apply Rle_trans with (motions_length [Lf v; Rb (PI / 2); Sb u; Lb (PI / 2); Rf t]); [|cbn; lra]. apply (back_le k [Lf t; Rb (PI / 2); Sb u; Lb (PI / 2); Rf v] 3); auto. constructor; auto.
Qed.
End Symmetry.

Lemma distance_some a b r : exists d, shortest_distance a b r = Some d.
Proof. destruct (shortest_distance_spec a b r) as (d & w & t & u & v & E & _). eauto. Qed.

Lemma symmetric a b r : 0 < r -> shortest_distance a b r = shortest_distance b a r.
Proof.
  intros Hr. destruct (distance_some a b r) as (da & Ea). destruct (distance_some b a r) as (db & Eb). rewrite Ea, Eb. f_equal.
  apply Rle_antisym; [apply (symmetric_le b a r db da)|apply (symmetric_le a b r da db)]; auto.
Qed.
