(** Laws of the Reeds-Shepp distance: what it depends on, zero, bounds; and the cheapest curve. *)
From Coq Require Import Reals Lra Psatz.
From Verif Require Import Base RealBase Pose_model Pose_spec Pose_proofs Straight_model Straight_spec Bicycle_model Bicycle_spec Bicycle_proofs Rs_model Rs_spec Rs_proofs
  RsWord_proofs RsSolver_proofs RsComplete_proofs RsCurve_spec RsCurve_proofs RsSym_proofs.
From Coq Require Import ZifyBool ZifyNat ZifyN.
Local Open Scope R_scope.

(** ** Dependence on the goal as seen from the start *)
Lemma formula_compat b g g' : same_pose g g' -> formula b g = formula b g'.
Proof.
  destruct g as [x y th], g' as [x' y' th']. intros (X & Y & T). cbn [px py pth] in *. subst x' y'. pose proof (same_angle_sin _ _ T) as S. pose proof (same_angle_cos _ _ T) as C.
  destruct b as [|[|[|[|[|[|[|[|[|[|[|[|b]]]]]]]]]]]]; cbn [formula]; auto;
    unfold LfSfLf, LfSfRf, LfRbLf, LfRbLb, LfRfLb, LfRufLubRb, LfRubLubRf, LfRbpi2SbLb, LfRbpi2SbRb, LfSfRfpi2Lb, LfSfLfpi2Rb, LfRbpi2SbLbpi2Rf; cbn [px py pth]; rewrite <- S, <- C; cbv zeta.
  - rewrite (wrap_angle_same (th - _) (th' - atan2 (y - 1 + cos th) (x - sin th))) by (apply same_angle_sub; auto using same_angle_refl). reflexivity.
  - set (q := wrap_angle (_ + _)). rewrite (wrap_angle_same (q - th) (q - th')) by (apply same_angle_sub; auto using same_angle_refl). reflexivity.
  - set (q := turns (PI / 2 + _ + _)). set (p := turns (PI - _)). rewrite (turns_same (th - q - p) (th' - q - p)) by (repeat apply same_angle_sub; auto using same_angle_refl). reflexivity.
  - set (q := turns (PI / 2 + _ + _)). set (p := turns (PI - _)). rewrite (turns_same (q + p - th) (q + p - th')) by (repeat apply same_angle_sub; auto using same_angle_refl). reflexivity.
  - set (q := turns (PI / 2 - _ + _)). set (p := acos _). rewrite (turns_same (q - p - th) (q - p - th')) by (repeat apply same_angle_sub; auto using same_angle_refl). reflexivity.
  - destruct (Rltb 4 _); auto. destruct (Rltb 2 _).
    + set (q := turns (PI / 2 + _ - _)). set (p := turns (PI - _)). rewrite (turns_same (th - q + 2 * p) (th' - q + 2 * p)) by (apply same_angle_add; [apply same_angle_sub|]; auto using same_angle_refl). reflexivity.
    + set (q := turns (PI / 2 + _ + _)). set (p := turns (acos _)). rewrite (turns_same (th - q + 2 * p) (th' - q + 2 * p)) by (apply same_angle_add; [apply same_angle_sub|]; auto using same_angle_refl). reflexivity.
  - set (q := turns (PI / 2 + _ + _)). rewrite (turns_same (q - th) (q - th')) by (repeat apply same_angle_sub; auto using same_angle_refl). reflexivity.
  - set (q := turns (PI / 2 + _ + _)). rewrite (turns_same (q + PI / 2 - th) (q + PI / 2 - th')) by (repeat apply same_angle_sub; auto using same_angle_refl). reflexivity.
  - set (q := turns (PI / 2 + _)). rewrite (turns_same (th - q - PI / 2) (th' - q - PI / 2)) by (repeat apply same_angle_sub; auto using same_angle_refl). reflexivity.
  - set (q := turns (PI / 2 + _ - _)). rewrite (turns_same (q - PI / 2 - th) (q - PI / 2 - th')) by (repeat apply same_angle_sub; auto using same_angle_refl). reflexivity.
  - set (q := turns (atan2 _ _)). rewrite (turns_same (- q - PI / 2 + th) (- q - PI / 2 + th')) by (apply same_angle_add; auto using same_angle_refl). reflexivity.
  - set (q := turns (PI / 2 + _ + _)). rewrite (turns_same (q - th) (q - th')) by (repeat apply same_angle_sub; auto using same_angle_refl). reflexivity.
Qed.

Lemma seen_le a b r a' b' r' d d' : shortest_distance a b r = Some d -> shortest_distance a' b' r' = Some d' ->
  (forall k, (k < 4)%nat -> exists k', (k' < 4)%nat /\ same_pose (goal_of k a b r) (goal_of k' a' b' r')) -> d' <= d.
Proof.
  intros E E' H. destruct (shortest_distance_spec a b r) as (d0 & w & t & u & v & E1 & [Hw A] & _ & _). assert (d0 = d) as -> by congruence.
  destruct (H (Nat.modulo w 4)) as (k' & Hk' & S). { apply Nat.mod_upper_bound; lia. }
  assert (F : formula (Nat.div w 4) (goal_of (Nat.modulo w 4) a b r) = Lengths t u v d) by exact A. rewrite (formula_compat _ _ _ S) in F.
  apply (formula_le a' b' r' d' _ k' t u v d) in F; auto. unfold num_words in Hw. apply Nat.div_lt_upper_bound; lia.
Qed.

Definition seen (a b : pose) (r : R) : pose := Pose (px (pose_sub b a) / r) (py (pose_sub b a) / r) (pth (pose_sub b a)).

Lemma seen_same a b r a' b' r' j : (j < 4)%nat -> same_pose (unvary j (seen a b r)) (seen a' b' r') ->
  forall k, (k < 4)%nat -> exists k', (k' < 4)%nat /\ same_pose (goal_of k a b r) (goal_of k' a' b' r').
Proof.
  intros Hj S k Hk. assert (exists k', (k' < 4)%nat /\ forall p, unvary k p = unvary k' (unvary j p)) as (k' & Hk' & E).
  { destruct j as [|[|[|[|j]]]]; [| | | |lia]; destruct k as [|[|[|[|k]]]]; try lia;
      first [exists 0%nat; split; [lia|intros [? ? ?]; unfold unvary, mirror_time, mirror_side; cbn; rewrite ?Ropp_involutive; reflexivity]
            |exists 1%nat; split; [lia|intros [? ? ?]; unfold unvary, mirror_time, mirror_side; cbn; rewrite ?Ropp_involutive; reflexivity]
            |exists 2%nat; split; [lia|intros [? ? ?]; unfold unvary, mirror_time, mirror_side; cbn; rewrite ?Ropp_involutive; reflexivity]
            |exists 3%nat; split; [lia|intros [? ? ?]; unfold unvary, mirror_time, mirror_side; cbn; rewrite ?Ropp_involutive; reflexivity]]. }
  exists k'. split; auto. eapply same_pose_trans; [apply goal_of_same; auto|]. eapply same_pose_trans; [|apply same_pose_sym, goal_of_same; auto]. fold (seen a b r). fold (seen a' b' r').
  rewrite E. now apply unvary_compat.
Qed.

Lemma seen_equal a b r a' b' r' j : (j < 4)%nat -> same_pose (unvary j (seen a b r)) (seen a' b' r') -> shortest_distance a b r = shortest_distance a' b' r'.
Proof.
  intros Hj S. destruct (distance_some a b r) as (d & E). destruct (distance_some a' b' r') as (d' & E'). rewrite E, E'. f_equal. apply Rle_antisym.
  - eapply seen_le; [exact E'|exact E|]. apply seen_same with j; auto. apply (unvary_compat j) in S. rewrite unvary_unvary in S. now apply same_pose_sym.
  - eapply seen_le; [exact E|exact E'|]. now apply seen_same with j.
Qed.

Lemma seen_i a b r a' b' r' j : (j < 4)%nat -> same_pose (unvary j (seen a b r)) (seen a' b' r') -> shortest_distance a' b' r' = shortest_distance a b r.
Proof. intros. symmetry. eapply seen_equal; eauto. Qed.

Lemma distance_same a a' b b' r : same_pose a a' -> same_pose b b' -> shortest_distance a b r = shortest_distance a' b' r.
Proof.
  intros A B. apply seen_equal with 0%nat; [lia|]. cbn [unvary]. destruct (sub_compat _ _ _ _ B A) as (X & Y & T). unfold seen. split; [|split]; cbn [px py pth]; auto; congruence.
Qed.

Lemma sub_placed m a b : same_pose (pose_sub (pose_add m b) (pose_add m a)) (pose_sub b a).
Proof.
  eapply same_pose_trans; [apply sub_compat; [|apply same_pose_refl]|apply sub_add].
  eapply same_pose_trans; [apply add_compat; [apply same_pose_refl|apply same_pose_sym, add_sub]|]. apply same_pose_sym, add_assoc.
Qed.

Lemma distance_placed m a b r : shortest_distance (pose_add m a) (pose_add m b) r = shortest_distance a b r.
Proof.
  symmetry. apply seen_equal with 0%nat; [lia|]. destruct (sub_placed m a b) as (X & Y & T). unfold seen. split; [|split]; cbn [unvary px py pth]; [congruence|congruence|]. now apply same_angle_sym.
Qed.

Lemma distance_scaled s a b r : 0 < s -> 0 < r -> shortest_distance (scaled s a) (scaled s b) (s * r) = shortest_distance a b r.
Proof.
  intros Hs Hr. symmetry. apply seen_equal with 0%nat; [lia|]. unfold seen. destruct (sub_fields b a) as (X & Y & _). destruct (sub_fields (scaled s b) (scaled s a)) as (X' & Y' & _).
  split; [|split]; cbn [unvary px py pth]; [rewrite X, X'; cbn [scaled px py pth]; field; lra|rewrite Y, Y'; cbn [scaled px py pth]; field; lra|].
  eapply same_angle_trans; [apply sub_same_angle|]. apply same_angle_sym. exact (sub_same_angle (scaled s b) (scaled s a)).
Qed.

Lemma distance_mirror_side a b r : shortest_distance (mirror_side a) (mirror_side b) r = shortest_distance a b r.
Proof.
  symmetry. apply seen_equal with 2%nat; [lia|]. unfold seen. destruct (sub_fields b a) as (X & Y & _). destruct (sub_fields (mirror_side b) (mirror_side a)) as (X' & Y' & _).
  split; [|split]; unfold unvary, mirror_side; cbn [px py pth]; fold (mirror_side a); fold (mirror_side b).
  - rewrite X, X'. unfold mirror_side. cbn [px py pth]. rewrite cos_neg, sin_neg. unfold Rdiv. ring.
  - rewrite Y, Y'. unfold mirror_side. cbn [px py pth]. rewrite cos_neg, sin_neg. unfold Rdiv. ring.
  - eapply same_angle_trans; [apply same_angle_opp, sub_same_angle|]. apply same_angle_sym. eapply same_angle_trans; [apply sub_same_angle|]. exists 0%Z. cbn. ring.
Qed.

(** Both cars about_face to face the other way. *)
Lemma distance_about_face a b r : shortest_distance (about_face a) (about_face b) r = shortest_distance a b r.
Proof.
  symmetry. apply seen_equal with 3%nat; [lia|]. unfold seen. destruct (sub_fields b a) as (X & Y & _). destruct (sub_fields (about_face b) (about_face a)) as (X' & Y' & _).
  
  split; [|split]; unfold unvary, mirror_side, mirror_time; cbn [px py pth].
  - rewrite X, X'. unfold about_face. cbn [px py pth]. rewrite neg_cos, neg_sin. unfold Rdiv. ring.
  - rewrite Y, Y'. unfold about_face. cbn [px py pth]. rewrite neg_cos, neg_sin. unfold Rdiv. ring.
  - rewrite Ropp_involutive. eapply same_angle_trans; [apply sub_same_angle|]. apply same_angle_sym. eapply same_angle_trans; [apply sub_same_angle|]. unfold about_face. cbn [pth]. exists 0%Z. cbn. ring.
Qed.

(** ** Zero and bounds *)
Lemma distance_path a b r d : 0 < r -> shortest_distance a b r = Some d -> exists l, Forall proper l /\ motions_length l = d /\ same_pose (drive r l a) b.
Proof.
  intros Hr E. destruct (shortest_distance_spec a b r) as (d' & w & t & u & v & E' & A & _). assert (d' = d) as -> by congruence.
  destruct (word_goal _ _ _ _ _ _ _ _ Hr A) as (g & l & _ & (_ & _ & _ & F) & _ & El & H & _). exists l. auto.
Qed.

Lemma motions_nonneg l : Forall proper l -> 0 <= motions_length l.
Proof. induction 1 as [|m l [_ H] F IH]; cbn [motions_length]; lra. Qed.

Lemma driven_zero r st p : driven r st p 0 = p.
Proof. destruct p as [x y t], st; cbn [driven px py pth]; rewrite ?Rplus_0_r, ?Rminus_0_r; f_equal; ring. Qed.

Lemma drive_zero r l : Forall proper l -> motions_length l = 0 -> forall p, drive r l p = p.
Proof.
  induction 1 as [|m l [_ H] F IH]; intros E p; auto. cbn [motions_length] in E. pose proof (motions_nonneg l F). rewrite drive_cons. assert (m_len m = 0) as -> by lra.
  replace (signed (m_dir m) 0) with 0 by (destruct (m_dir m); cbn; ring). rewrite driven_zero. apply IH. lra.
Qed.

Lemma distance_zero a b r : 0 < r -> (shortest_distance a b r = Some 0 <-> same_pose a b).
Proof.
  intros Hr. split; intros H.
  - destruct (distance_path _ _ _ _ Hr H) as (l & F & E & D). now rewrite drive_zero in D.
  - rewrite (distance_same a a b a r (same_pose_refl a) (same_pose_sym _ _ H)). pose proof (shortest_ahead a r 0 Hr ltac:(lra)) as E. now rewrite driven_zero in E.
Qed.

Lemma distance_nonneg a b r d : 0 < r -> shortest_distance a b r = Some d -> 0 <= d.
Proof. intros Hr H. destruct (distance_path _ _ _ _ Hr H) as (l & F & <- & D). now apply motions_nonneg. Qed.

Lemma drive_heading r l : Forall proper l -> forall p, Rabs (pth (drive r l p) - pth p) <= motions_length l.
Proof.
  induction 1 as [|m l [_ H] F IH]; intros p; cbn [motions_length]. { cbn. rewrite Rminus_diag_eq, Rabs_R0 by auto. lra. }
  rewrite drive_cons. set (q := driven _ _ _ _). replace (pth (drive r l q) - pth p) with ((pth (drive r l q) - pth q) + (pth q - pth p)) by ring.
  eapply Rle_trans; [apply Rabs_triang|]. specialize (IH q). assert (Rabs (pth q - pth p) <= m_len m); [|lra].
  assert (S : Rabs (signed (m_dir m) (m_len m)) <= m_len m). { destruct (m_dir m); cbn; rewrite ?Rabs_Ropp, ?Rabs_R0, ?Rabs_right; lra. }
  unfold q. destruct (m_steer m); cbn [driven pth]; [| |]; match goal with |- Rabs ?x <= _ => first [replace x with (signed (m_dir m) (m_len m)) by ring; exact S|replace x with (- signed (m_dir m) (m_len m)) by ring; rewrite Rabs_Ropp; exact S|replace x with 0 by ring; rewrite Rabs_R0; lra] end.
Qed.

Lemma wrap_least x y : same_angle x y -> Rabs (wrap_theta y) <= Rabs x.
Proof.
  intros S. pose proof (wrap_range y) as W. pose proof PI_gt_1. destruct (Rle_lt_dec PI (Rabs x)) as [L|L]; [eapply Rle_trans; [|exact L]; apply Rabs_le; lra|].
  apply Rabs_def2 in L as [L1 L2]. rewrite (same_angle_unique x (wrap_theta y)); [lra| |lra|lra]. eapply same_angle_trans; [exact S|]. apply same_angle_sym, wrap_same.
Qed.

Lemma distance_heading a b r d : 0 < r -> shortest_distance a b r = Some d -> Rabs (pth (pose_sub b a)) <= d.
Proof.
  intros Hr H. destruct (distance_path _ _ _ _ Hr H) as (l & F & <- & (_ & _ & T)). eapply Rle_trans; [|apply (drive_heading r l F a)].
  assert (pth (pose_sub b a) = wrap_theta (pth b - pth a)) as ->. { unfold pose_sub, mk_pose. cbn [pth]. apply wrap_idem. }
  apply wrap_least. apply same_angle_sub; [exact T|apply same_angle_refl].
Qed.

(** ** The cheapest curve *)
Lemma holds_unique g g' l : holds_motions g l -> holds_motions g' l -> g = g'.
Proof. destruct g, g'. intros (A & _ & B & _) (A' & _ & B' & _). cbn in *. congruence. Qed.

Lemma base_offered b k t u v l start goal r len : (b < 12)%nat -> (k < 4)%nat -> base_motions b t u v = Some l -> Forall proper l -> (length l <= num_motion)%nat ->
  formula b (goal_of k start goal r) = Lengths t u v len -> forall g, holds_motions g (vary k l) -> offered start goal r (4 * b + k) g.
Proof.
  intros Hb Hk El F Hn E g Hg. exists t, u, v, len. split; [now apply formula_applies|].
  assert (Nat.div (4 * b + k) 4 = b) as Ed by (rewrite Nat.mul_comm, Nat.div_add_l, Nat.div_small by lia; lia).
  assert (Nat.modulo (4 * b + k) 4 = k) as Em. { rewrite Nat.add_comm, Nat.mul_comm, Nat.mod_add, Nat.mod_small by lia. reflexivity. }
  unfold get_path. rewrite Ed, Em, El. destruct (add_motions_holds l g_new [] g_new_holds F) as (h & Eh & Hh). { cbn [length]. lia. } cbn [app] in Hh. rewrite Eh. cbn [bind].
  f_equal. apply (holds_unique _ g (vary k l)); auto. destruct k as [|[|[|[|k]]]]; [| | | |lia]; cbn [vary]; [auto|now apply timeflip_holds|now apply reflect_holds|now apply reflect_holds, timeflip_holds].
Qed.

Lemma lasting_vary k l : lasting (vary k l) -> lasting l.
Proof.
  assert (G : forall f l, (forall m, m_len (f m) = m_len m) -> lasting (map f l) -> lasting l).
  { intros f x Hf L m Hm. rewrite <- Hf. apply L. destruct x as [|a x]; [easy|]. cbn [map tl] in *. replace (removelast (map f x)) with (map f (removelast x)); [now apply in_map|].
    clear. induction x as [|y [|z x] IH]; auto. cbn [map removelast] in *. now rewrite IH. }
  destruct k as [|[|[|k]]]; cbn [vary]; auto; intros L; [apply (G mtf)|apply (G mrf)|apply (G mtf); auto; apply (G mrf)]; auto.
Qed.

Lemma curve_offered start goal r k l : 0 < r -> (k < 4)%nat -> left_curve l -> lasting l -> same_pose (drive r (vary k l) start) goal ->
  exists w, forall g, holds_motions g (vary k l) -> offered start goal r w g.
Proof.
  intros Hr Hk Hc L H. pose proof (left_proper l Hc) as F. pose proof PI_gt_1. pose proof (variant_seen r k l start goal Hr Hk F H) as G. unfold half_turn, full_turn in *.
  destruct Hc as [t u v Ht Hu Hv|t u v Ht Hu Hv|t u v Ht Hu Hv|t u v Ht Hu Hv|t u v Ht Hu Hv|t u v Ht Hu Hv|t u v Ht Hu Hv|t u v Ht Hu Hv|t u v Ht Hu Hv|t u v Ht Hu Hv|t u v Ht Hu Hv|t u v Ht Hu Hv];
    unfold half_turn, full_turn in *.
  1,2,3,4,5 : pose proof (L _ (or_introl eq_refl)) as Lu; cbn [m_len Sf Rb Rf] in Lu.
  - apply c0 in G; [|lra|lra|lra]. exists (4 * 0 + k)%nat. refine (base_offered 0 k t u v _ start goal r _ _ Hk eq_refl F _ G); unfold num_motion; cbn [length]; lia.
  - apply c1 in G; [|lra|lra|lra]. exists (4 * 1 + k)%nat. refine (base_offered 1 k t u v _ start goal r _ _ Hk eq_refl F _ G); unfold num_motion; cbn [length]; lia.
  - apply c2 in G; [|lra|lra|lra]. exists (4 * 2 + k)%nat. refine (base_offered 2 k t u v _ start goal r _ _ Hk eq_refl F _ G); unfold num_motion; cbn [length]; lia.
  - apply c3 in G; [|lra|lra|lra]. exists (4 * 3 + k)%nat. refine (base_offered 3 k t u v _ start goal r _ _ Hk eq_refl F _ G); unfold num_motion; cbn [length]; lia.
  - apply c4 in G; [|lra|lra|lra]. exists (4 * 4 + k)%nat. refine (base_offered 4 k t u v _ start goal r _ _ Hk eq_refl F _ G); unfold num_motion; cbn [length]; lia.
  - apply c5 in G; [|lra|lra|lra]. exists (4 * 5 + k)%nat. refine (base_offered 5 k t u v _ start goal r _ _ Hk eq_refl F _ G); unfold num_motion; cbn [length]; lia.
  - apply c6 in G; [|lra|lra|lra]. exists (4 * 6 + k)%nat. refine (base_offered 6 k t u v _ start goal r _ _ Hk eq_refl F _ G); unfold num_motion; cbn [length]; lia.
  - apply c7 in G; [|lra|lra|lra]. exists (4 * 7 + k)%nat. refine (base_offered 7 k t u v _ start goal r _ _ Hk eq_refl F _ G); unfold num_motion; cbn [length]; lia.
  - apply c8 in G; [|lra|lra|lra]. exists (4 * 8 + k)%nat. refine (base_offered 8 k t u v _ start goal r _ _ Hk eq_refl F _ G); unfold num_motion; cbn [length]; lia.
  - apply c9 in G; [|lra|lra|lra]. exists (4 * 9 + k)%nat. refine (base_offered 9 k t u v _ start goal r _ _ Hk eq_refl F _ G); unfold num_motion; cbn [length]; lia.
  - apply c10 in G; [|lra|lra|lra]. exists (4 * 10 + k)%nat. refine (base_offered 10 k t u v _ start goal r _ _ Hk eq_refl F _ G); unfold num_motion; cbn [length]; lia.
  - apply c11 in G; [|lra|lra|lra]. exists (4 * 11 + k)%nat. refine (base_offered 11 k t u v _ start goal r _ _ Hk eq_refl F _ G); unfold num_motion; cbn [length]; lia.
Qed.

Lemma curve_cost start goal r rev fwd sw l g' : 0 < r -> rs_curve l -> lasting l -> same_pose (drive r l start) goal -> holds_motions g' l ->
  exists g c c', optimal_path start goal r rev fwd sw = Ok g /\ rs_cost (rs_new start g r) sw rev fwd = Some c /\ rs_cost (rs_new start g' r) sw rev fwd = Some c' /\ c <= c'.
Proof.
  intros Hr (b & Hb & Hl) L H Hg'. destruct (optimal_path_spec start goal r rev fwd sw Hr) as (w & g & c & E & _ & _ & _ & _ & Ec & M).
  assert (exists k, (k < 4)%nat /\ l = vary k b) as (k & Hk & ->).
  { destruct Hl as [-> |[-> |[-> | ->]]]; [exists 0%nat|exists 1%nat|exists 2%nat|exists 3%nat]; (split; [lia|reflexivity]). }
  destruct (curve_offered start goal r k b Hr Hk Hb (lasting_vary _ _ L) H) as (w' & O). destruct (M _ _ (O _ Hg')) as (c' & Ec' & Hc). exists g, c, c'. auto.
Qed.
