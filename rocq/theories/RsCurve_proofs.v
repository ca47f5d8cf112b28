(** No curve of Reeds and Shepp is shorter than the shortest path of the solver; symmetry of the distance. *)
From Coq Require Import Reals Lra Psatz.
From Verif Require Import Base RealBase Pose_model Pose_spec Pose_proofs Straight_model Straight_spec Bicycle_model Bicycle_spec Bicycle_proofs Rs_model Rs_spec Rs_proofs
  RsWord_proofs RsSolver_proofs RsComplete_proofs RsCurve_spec.
From Coq Require Import ZifyBool ZifyNat ZifyN.
Local Open Scope R_scope.

(** ** The four variants of a list of motions *)
Definition vary (k : nat) (l : list motion) : list motion :=
  match k with 0 => l | 1 => map mtf l | 2 => map mrf l | _ => map mrf (map mtf l) end%nat.

Lemma vary_length k l : motions_length (vary k l) = motions_length l.
Proof. destruct k as [|[|[|k]]]; cbn [vary]; rewrite ?motions_length_map; auto. Qed.
Lemma vary_proper k l : Forall proper l -> Forall proper (vary k l).
Proof.
  intros F. assert (G : forall l, Forall proper l -> Forall proper (map mrf l)). { intros x Fx. apply Forall_map. eapply Forall_impl; [|exact Fx]. intros m [A B]. split; auto. }
  destruct k as [|[|[|k]]]; cbn [vary]; auto using proper_mtf.
Qed.

Definition unvary (k : nat) (p : pose) : pose := match k with 0 => p | 1 => mirror_time p | 2 => mirror_side p | _ => mirror_side (mirror_time p) end%nat.
Lemma unvary_unvary k p : unvary k (unvary k p) = p.
Proof. destruct k as [|[|[|k]]]; destruct p; cbn [unvary]; unfold mirror_side, mirror_time; cbn; f_equal; ring. Qed.
Lemma unvary_zero k : unvary k zero_pose = zero_pose.
Proof. destruct k as [|[|[|k]]]; cbn [unvary]; now rewrite ?zero_mirror_time, ?zero_mirror_side. Qed.
Lemma unvary_compat k p q : same_pose p q -> same_pose (unvary k p) (unvary k q).
Proof. intros H. destruct k as [|[|[|k]]]; cbn [unvary]; auto using mirror_time_compat, mirror_side_compat. Qed.
Lemma drive_vary r k l p : Forall proper l -> drive r (vary k l) (unvary k p) = unvary k (drive r l p).
Proof.
  intros F. destruct k as [|[|[|k]]]; cbn [vary unvary]; auto using drive_mirror_time, drive_mirror_side.
  now rewrite drive_mirror_side, drive_mirror_time.
Qed.

(** The goal seen from the start, for each variant. *)
Definition goal_of (k : nat) (start goal : pose) (r : R) : pose := nth k (goal_array start goal r) (Pose 0 0 0).

Lemma goal_of_same k start goal r : (k < 4)%nat -> same_pose (goal_of k start goal r) (unvary k (Pose (px (pose_sub goal start) / r) (py (pose_sub goal start) / r) (pth (pose_sub goal start)))).
Proof.
  intros Hk. unfold goal_of, goal_array. set (d := pose_sub goal start).
  destruct k as [|[|[|[|k]]]]; [| | | |lia]; unfold unvary, mirror_time, mirror_side; cbn [nth px py pth mk_pose]; (split; [|split]; cbn [px py pth]; try reflexivity); rewrite ?Ropp_involutive; apply wrap_same.
Qed.

Lemma drive_seen r l start goal : 0 < r -> same_pose (drive r l start) goal ->
  same_pose (drive 1 l zero_pose) (Pose (px (pose_sub goal start) / r) (py (pose_sub goal start) / r) (pth (pose_sub goal start))).
Proof.
  intros Hr H. assert (Z : zero_pose = scaled r zero_pose) by (unfold scaled, zero_pose; cbn; f_equal; ring).
  assert (P : same_pose (pose_sub goal start) (scaled r (drive 1 l zero_pose))).
  { eapply same_pose_trans; [apply sub_compat; [apply same_pose_sym; exact H|apply same_pose_refl]|].
    eapply same_pose_trans; [apply sub_compat; [|apply same_pose_refl]|apply sub_add]. rewrite <- drive_scaled, <- Z.
    eapply same_pose_trans; [|apply drive_placed]. apply drive_compat, same_pose_sym, add_zero_r. }
  destruct P as (X & Y & T). cbn [scaled px py pth] in X, Y, T. split; [|split]; cbn [px py pth]; [rewrite X; field; lra|rewrite Y; field; lra|now apply same_angle_sym].
Qed.

Lemma variant_seen r k l start goal : 0 < r -> (k < 4)%nat -> Forall proper l -> same_pose (drive r (vary k l) start) goal ->
  same_pose (drive 1 l zero_pose) (goal_of k start goal r).
Proof.
  intros Hr Hk F H. apply drive_seen in H; auto. eapply same_pose_trans; [|apply same_pose_sym, goal_of_same; auto].
  rewrite <- (unvary_unvary k (drive 1 l zero_pose)). apply unvary_compat. rewrite <- drive_vary by auto. rewrite unvary_zero. exact H.
Qed.

(** Two lists that lead from the origin to the same pose do so from everywhere, and so do their variants. *)
Lemma same_effect l l' k r p : Forall proper l -> Forall proper l' -> same_pose (drive 1 l zero_pose) (drive 1 l' zero_pose) ->
  same_pose (drive r (vary k l) p) (drive r (vary k l') p).
Proof.
  intros F F' H. assert (Z : zero_pose = scaled r zero_pose) by (unfold scaled, zero_pose; cbn; f_equal; ring).
  assert (G : forall x, Forall proper x -> same_pose (drive r (vary k x) p) (pose_add p (unvary k (scaled r (drive 1 x zero_pose))))).
  { intros x Fx. eapply same_pose_trans; [apply drive_compat, same_pose_sym, add_zero_r|]. eapply same_pose_trans; [apply drive_placed|].
    rewrite <- drive_scaled, <- Z, <- drive_vary, unvary_zero by auto. apply same_pose_refl. }
  eapply same_pose_trans; [apply G; auto|]. eapply same_pose_trans; [|apply same_pose_sym, G; auto]. apply add_compat; [apply same_pose_refl|]. apply unvary_compat.
  destruct H as (X & Y & T). split; [|split]; cbn [scaled px py pth]; auto; congruence.
Qed.

(** ** The formulas by number *)
Definition formula (b : nat) (goal : pose) : lengths :=
  match b with
  | 0 => LfSfLf goal | 1 => LfSfRf goal | 2 => LfRbLf goal | 3 => LfRbLb goal
  | 4 => LfRfLb goal | 5 => LfRufLubRb goal | 6 => LfRubLubRf goal | 7 => LfRbpi2SbLb goal
  | 8 => LfRbpi2SbRb goal | 9 => LfSfRfpi2Lb goal | 10 => LfSfLfpi2Rb goal | 11 => LfRbpi2SbLbpi2Rf goal
  | _ => Infinite
  end%nat.

Lemma formula_applies start goal r b k t u v len : (b < 12)%nat -> (k < 4)%nat -> formula b (goal_of k start goal r) = Lengths t u v len ->
  applies start goal r (4 * b + k) t u v len.
Proof.
  intros Hb Hk E. split; [unfold num_words; lia|]. unfold motion_lengths. assert (Nat.div (4 * b + k) 4 = b) as -> by (rewrite Nat.mul_comm, Nat.div_add_l, Nat.div_small by lia; lia).
  assert (Nat.modulo (4 * b + k) 4 = k) as ->. { rewrite Nat.add_comm, Nat.mul_comm, Nat.mod_add, Nat.mod_small by lia. reflexivity. } exact E.
Qed.

Lemma formula_le start goal r d b k t u v len : shortest_distance start goal r = Some d -> (b < 12)%nat -> (k < 4)%nat ->
  formula b (goal_of k start goal r) = Lengths t u v len -> d <= len.
Proof.
  intros E Hb Hk H. destruct (shortest_distance_spec start goal r) as (d' & w & t' & u' & v' & E1 & _ & _ & M). assert (d' = d) as -> by congruence.
  eapply M. eapply formula_applies; eauto.
Qed.

Section Curves.
Variables (start goal : pose) (r d : R).
Hypothesis (Hr : 0 < r) (Hd : shortest_distance start goal r = Some d).

(** A turn only. *)
Lemma turn_le k s : (k < 4)%nat -> 0 <= s <= 2 * PI -> same_pose (drive r (vary k [Lf s]) start) goal -> d <= s.
Proof.
  intros Hk Hs H. apply variant_seen in H; auto; [|props]. destruct (Rlt_le_dec s PI) as [L|L].
  - apply turn0 in H; [|lra]. apply (formula_le start goal r d 0 k) in H; auto; [lra|lia].
  - apply turn1 in H; [|lra]. apply (formula_le start goal r d 2 k) in H; auto; [lra|lia].
Qed.

Lemma lsl_turn t v : drive 1 [Lf t; Sf 0; Lf v] zero_pose = drive 1 [Lf (t + v)] zero_pose.
Proof. geo. f_equal; rewrite ?Rplus_0_l; ring. Qed.
Lemma lrl_turn t v : drive 1 [Lf t; Rb 0; Lf v] zero_pose = drive 1 [Lf (t + v)] zero_pose.
Proof. geo. rewrite Ropp_0, !Rminus_0_r. f_equal; rewrite ?Rplus_0_l; ring. Qed.

Lemma turn_lr_le (m : motion) k t v : (k < 4)%nat -> m = Rb 0 \/ m = Rf 0 -> full_turn t -> full_turn v -> same_pose (drive r (vary k [Lf t; m; Lb v]) start) goal -> d <= t + v.
Proof.
  intros Hk Hm [Ht1 Ht2] [Hv1 Hv2] H. pose proof PI_gt_1. assert (Fm : proper m) by (destruct Hm as [-> | ->]; split; cbn; [easy|lra|easy|lra]).
  assert (F : Forall proper [Lf t; m; Lb v]). { constructor; [split; cbn; [easy|lra]|]. constructor; auto. props. }
  destruct (Rle_lt_dec v t) as [L|L].
  - apply Rle_trans with (t - v); [|lra]. apply (turn_le k); [auto|lra|]. eapply same_pose_trans; [|exact H]. apply same_effect; auto; [props|].
    replace (drive 1 [Lf (t - v)] zero_pose) with (drive 1 [Lf t; m; Lb v] zero_pose); [apply same_pose_refl|]. destruct Hm as [-> | ->]; geo; rewrite ?Ropp_0, !Rminus_0_r; replace (0 + t + - v) with (0 + (t - v)) by ring; f_equal; ring.
  - apply Rle_trans with (v - t); [|lra]. pose (k' := match k with 0 => 1 | 1 => 0 | 2 => 3 | _ => 2 end%nat).
    assert (Ek : vary k' [Lf (v - t)] = vary k [Lb (v - t)]) by (destruct k as [|[|[|k]]]; reflexivity).
    apply (turn_le k'); [unfold k'; destruct k as [|[|[|k]]]; lia|lra|]. rewrite Ek. eapply same_pose_trans; [|exact H]. apply same_effect; auto; [props|].
    replace (drive 1 [Lb (v - t)] zero_pose) with (drive 1 [Lf t; m; Lb v] zero_pose); [apply same_pose_refl|]. destruct Hm as [-> | ->]; geo; rewrite ?Ropp_0, !Rminus_0_r; replace (0 + t + - v) with (0 + - (v - t)) by ring; f_equal; ring.
Qed.

Lemma left_proper l : left_curve l -> Forall proper l.
Proof. pose proof PI_gt_1 as Hp. intros Hc. destruct Hc; unfold half_turn, full_turn in *; props. Qed.

(** Lengths found by the formula of the shape, and otherwise shorter turns. *)
Lemma curve_le k l : (k < 4)%nat -> left_curve l -> same_pose (drive r (vary k l) start) goal -> d <= motions_length l.
Proof.
  intros Hk Hc H. pose proof (left_proper l Hc) as F. pose proof PI_gt_1. pose proof (variant_seen r k l start goal Hr Hk F H) as G. unfold half_turn, full_turn in *.
  destruct Hc as [t u v Ht Hu Hv|t u v Ht Hu Hv|t u v Ht Hu Hv|t u v Ht Hu Hv|t u v Ht Hu Hv|t u v Ht Hu Hv|t u v Ht Hu Hv|t u v Ht Hu Hv|t u v Ht Hu Hv|t u v Ht Hu Hv|t u v Ht Hu Hv|t u v Ht Hu Hv];
    unfold half_turn, full_turn in *; cbn [motions_length m_len Lf Lb Rf Rb Sf Sb].
  - destruct (Req_dec u 0) as [->|Hn].
    + replace (t + (0 + (v + 0))) with (t + v) by ring. apply (turn_le k); [auto|lra|]. eapply same_pose_trans; [|exact H]. apply same_effect; auto; [props|]. rewrite lsl_turn. apply same_pose_refl.
    + apply c0 in G; [|lra|lra|lra]. apply (formula_le start goal r d 0 k) in G; auto; try lia; lra.
  - apply c1 in G; [|lra|lra|lra]. apply (formula_le start goal r d 1 k) in G; auto; try lia; lra.
  - destruct (Req_dec u 0) as [->|Hn].
    + replace (t + (0 + (v + 0))) with (t + v) by ring. apply (turn_le k); [auto|lra|]. eapply same_pose_trans; [|exact H]. apply same_effect; auto; [props|]. rewrite lrl_turn. apply same_pose_refl.
    + apply c2 in G; [|lra|lra|lra]. apply (formula_le start goal r d 2 k) in G; auto; try lia; lra.
  - destruct (Req_dec u 0) as [->|Hn].
    + replace (t + (0 + (v + 0))) with (t + v) by ring. apply (turn_lr_le (Rb 0) k); auto.
    + apply c3 in G; [|lra|lra|lra]. apply (formula_le start goal r d 3 k) in G; auto; try lia; lra.
  - destruct (Req_dec u 0) as [->|Hn].
    + replace (t + (0 + (v + 0))) with (t + v) by ring. apply (turn_lr_le (Rf 0) k); auto.
    + apply c4 in G; [|lra|lra|lra]. apply (formula_le start goal r d 4 k) in G; auto; try lia; lra.
  - apply c5 in G; [|lra|lra|lra]. apply (formula_le start goal r d 5 k) in G; auto; try lia; lra.
  - apply c6 in G; [|lra|lra|lra]. apply (formula_le start goal r d 6 k) in G; auto; try lia; lra.
  - apply c7 in G; [|lra|lra|lra]. apply (formula_le start goal r d 7 k) in G; auto; try lia; lra.
  - apply c8 in G; [|lra|lra|lra]. apply (formula_le start goal r d 8 k) in G; auto; try lia; lra.
  - apply c9 in G; [|lra|lra|lra]. apply (formula_le start goal r d 9 k) in G; auto; try lia; lra.
  - apply c10 in G; [|lra|lra|lra]. apply (formula_le start goal r d 10 k) in G; auto; try lia; lra.
  - apply c11 in G; [|lra|lra|lra]. apply (formula_le start goal r d 11 k) in G; auto; try lia; lra.
Qed.

Lemma rs_curve_le l : rs_curve l -> same_pose (drive r l start) goal -> d <= motions_length l.
Proof.
  intros (b & Hb & Hl) H. assert (exists k, (k < 4)%nat /\ l = vary k b) as (k & Hk & ->).
  { destruct Hl as [-> |[-> |[-> | ->]]]; [exists 0%nat|exists 1%nat|exists 2%nat|exists 3%nat]; (split; [lia|reflexivity]). }
  rewrite vary_length. apply (curve_le k); auto.
Qed.
End Curves.
