(** The Reeds-Shepp solver, costs, truncation, directions. *)
From Coq Require Import Reals Lra Psatz.
From Verif Require Import Base RealBase Pose_model Pose_spec Pose_proofs Straight_model Straight_spec Bicycle_model Bicycle_spec Bicycle_proofs Rs_model Rs_spec Rs_proofs RsWord_proofs.
From Coq Require Import ZifyBool ZifyNat ZifyN.
Local Open Scope R_scope.

(** ** Words *)
Lemma base_word_ok b goal t u v len : 
  (match b with
  | 0 => LfSfLf goal | 1 => LfSfRf goal | 2 => LfRbLf goal | 3 => LfRbLb goal
  | 4 => LfRfLb goal | 5 => LfRufLubRb goal | 6 => LfRubLubRf goal | 7 => LfRbpi2SbLb goal
  | 8 => LfRbpi2SbRb goal | 9 => LfSfRfpi2Lb goal | 10 => LfSfLfpi2Rb goal | 11 => LfRbpi2SbLbpi2Rf goal
  | _ => Infinite
  end)%nat = Lengths t u v len ->
  exists l, base_motions b t u v = Some l /\ word_ok l goal len /\ (0 < length l <= num_motion)%nat.
Proof.
  intros H. do 12 (destruct b as [|b]; [eexists; split; [reflexivity|]; split; [|unfold num_motion; cbn [length]; lia]; eauto using w0, w1, w2, w3, w4, w5, w6, w7, w8, w9, w10, w11|]). discriminate.
Qed.

Lemma zero_mirror_time : mirror_time zero_pose = zero_pose.
Proof. unfold mirror_time, zero_pose. cbn. f_equal; ring. Qed.
Lemma zero_mirror_side : mirror_side zero_pose = zero_pose.
Proof. unfold mirror_side, zero_pose. cbn. f_equal; ring. Qed.

Lemma proper_mtf l : Forall proper l -> Forall proper (map mtf l).
Proof. intros F. apply Forall_map. eapply Forall_impl; [|exact F]. intros m [A B]. split; auto. cbn. destruct (m_dir m); cbn; easy. Qed.

Lemma word_path start goal r w t u v len : 0 < r -> applies start goal r w t u v len ->
  exists g l, get_path w t u v = Ok g /\ holds_motions g l /\ (0 < length l)%nat /\ motions_length l = len /\ same_pose (drive r l start) goal.
Proof.
  intros Hr [Hw E]. unfold motion_lengths in E. apply base_word_ok in E as (l & El & (F & Hl & Hd) & Hn). unfold get_path. rewrite El.
  destruct (add_motions_holds l g_new [] g_new_holds F) as (g & Eg & Hg). { cbn [length]. lia. }
  cbn [app] in Hg. rewrite Eg. cbn [bind]. assert (Hk : (Nat.modulo w 4 < 4)%nat) by (apply Nat.mod_upper_bound; lia).
  unfold goal_array in Hd. set (d := pose_sub goal start) in *.
  destruct (Nat.modulo w 4) as [|[|[|[|k]]]]; [| | | |lia]; cbn [nth] in Hd.
  - exists g, l. split; auto. split; auto. split; [lia|]. split; auto. apply drive_reaches; [lra|exact Hd].
  - exists (timeflip g), (map mtf l). split; auto. split; [now apply timeflip_holds|]. rewrite map_length. split; [lia|]. split; [now rewrite motions_length_map|].
    apply drive_reaches; [lra|]. fold d. rewrite <- zero_mirror_time, drive_mirror_time by auto. destruct Hd as (X & Y & T). cbn [px py pth mk_pose] in X, Y, T.
    split; [|split]; cbn [mirror_time px py pth mk_pose]; [lra|lra|].
    apply same_angle_opp in T. eapply same_angle_trans; [exact T|]. eapply same_angle_trans; [apply same_angle_opp, wrap_same|]. rewrite Ropp_involutive. apply same_angle_sym, wrap_same.
  - exists (reflect g), (map mrf l). split; auto. split; [now apply reflect_holds|]. rewrite map_length. split; [lia|]. split; [now rewrite motions_length_map|].
    apply drive_reaches; [lra|]. fold d. rewrite <- zero_mirror_side, drive_mirror_side. destruct Hd as (X & Y & T). cbn [px py pth mk_pose] in X, Y, T.
    split; [|split]; cbn [mirror_side px py pth mk_pose]; [lra|lra|].
    apply same_angle_opp in T. eapply same_angle_trans; [exact T|]. eapply same_angle_trans; [apply same_angle_opp, wrap_same|]. rewrite Ropp_involutive. apply same_angle_sym, wrap_same.
  - exists (reflect (timeflip g)), (map mrf (map mtf l)). split; auto. split; [now apply reflect_holds, timeflip_holds|]. rewrite !map_length. split; [lia|]. split; [now rewrite !motions_length_map|].
    apply drive_reaches; [lra|]. fold d. rewrite <- zero_mirror_side, drive_mirror_side, <- zero_mirror_time, drive_mirror_time by auto. destruct Hd as (X & Y & T). cbn [px py pth mk_pose] in X, Y, T.
    split; [|split]; cbn [mirror_side mirror_time px py pth mk_pose]; [lra|lra|]. now rewrite Ropp_involutive.
Qed.

(** ** The shortest word *)
Definition best_of (goals : list pose) (ws : list nat) (best : option (R * nat * (R * R * R))) : Prop :=
  match best with
  | None => forall w, In w ws -> forall t u v len, motion_lengths w goals <> Lengths t u v len
  | Some (len, w, (t, u, v)) => In w ws /\ motion_lengths w goals = Lengths t u v len /\
      forall w' t' u' v' len', In w' ws -> motion_lengths w' goals = Lengths t' u' v' len' -> len <= len'
  end.

Lemma shorter_best goals ws best w : best_of goals ws best -> best_of goals (ws ++ [w]) (shorter goals best w).
Proof.
  intros H. unfold shorter. destruct (motion_lengths w goals) as [t u v len| |] eqn:E.
  - destruct best as [[[b w0] [[t0 u0] v0]]|]; cbn in H.
    + destruct H as (I & E0 & M). destruct (Rltb_spec len b) as [L|L]; cbn.
      * split; [apply in_or_app; cbn; auto|]. split; auto. intros w' t' u' v' len' I' E'. apply in_app_or in I' as [I'|[<-|[]]].
        { pose proof (M _ _ _ _ _ I' E'). lra. } { rewrite E in E'. injection E'. intros; subst. lra. }
      * split; [apply in_or_app; auto|]. split; auto. intros w' t' u' v' len' I' E'. apply in_app_or in I' as [I'|[<-|[]]]; [eauto|].
        rewrite E in E'. injection E'. intros; subst. lra.
    + cbn. split; [apply in_or_app; cbn; auto|]. split; auto. intros w' t' u' v' len' I' E'. apply in_app_or in I' as [I'|[<-|[]]].
      { now apply H in E'. } { rewrite E in E'. injection E'. intros; subst. lra. }
  - destruct best as [[[b w0] [[t0 u0] v0]]|]; cbn in *.
    + destruct H as (I & E0 & M). split; [apply in_or_app; auto|]. split; auto. intros w' t' u' v' len' I' E'. apply in_app_or in I' as [I'|[<-|[]]]; [eauto|congruence].
    + intros w' I' t' u' v' len'. apply in_app_or in I' as [I'|[<-|[]]]; [eauto|congruence].
  - destruct best as [[[b w0] [[t0 u0] v0]]|]; cbn in *.
    + destruct H as (I & E0 & M). split; [apply in_or_app; auto|]. split; auto. intros w' t' u' v' len' I' E'. apply in_app_or in I' as [I'|[<-|[]]]; [eauto|congruence].
    + intros w' I' t' u' v' len'. apply in_app_or in I' as [I'|[<-|[]]]; [eauto|congruence].
Qed.

Lemma shortest_best goals : forall ws ws0 best, best_of goals ws0 best -> best_of goals (ws0 ++ ws) (fold_left (shorter goals) ws best).
Proof.
  induction ws as [|w ws IH]; intros ws0 best H; cbn [fold_left]; [now rewrite app_nil_r|].
  replace (ws0 ++ w :: ws) with ((ws0 ++ [w]) ++ ws) by now rewrite <- app_assoc. apply IH. now apply shorter_best.
Qed.

(** Some word always applies. *)
Lemma word_exists start goal r : exists w t u v len, applies start goal r w t u v len.
Proof.
  unfold applies, motion_lengths. set (g := nth 0 (goal_array start goal r) (Pose 0 0 0)).
  set (Q := (px g - sin (pth g)) * (px g - sin (pth g)) + (py g - 1 + cos (pth g)) * (py g - 1 + cos (pth g))).
  destruct (Rltb_spec 4 (sqrt Q)) as [B|B].
  - exists 28%nat. change (Nat.div 28 4) with 7%nat. change (Nat.modulo 28 4) with 0%nat. cbv iota. fold g. unfold LfRbpi2SbLb. fold Q. cbv zeta.
    assert (HQ : 16 < Q). { assert (Q0 : 0 <= Q) by (unfold Q; apply Rplus_le_le_0_compat; apply Rle_0_sqr). pose proof (sqrt_sqrt Q Q0). nra. }
    destruct (Rltb_spec Q 4); [lra|]. destruct (Rltb_spec (sqrt (Q - 4) - 2) 0) as [L|L].
    + exfalso. assert (2 < sqrt (Q - 4)); [|lra]. rewrite <- (sqrt_square 2) by lra. apply sqrt_lt_1_alt. lra.
    + do 4 eexists. split; [unfold num_words; lia|reflexivity].
  - exists 12%nat. change (Nat.div 12 4) with 3%nat. change (Nat.modulo 12 4) with 0%nat. cbv iota. fold g. unfold LfRbLb. fold Q. cbv zeta.
    destruct (Rltb_spec 4 (sqrt Q)); [lra|]. do 4 eexists. split; [unfold num_words; lia|reflexivity].
Qed.

Lemma shortest_spec start goal r : exists len w t u v, shortest start goal r = Some (len, w, (t, u, v)) /\ applies start goal r w t u v len /\
  forall w' t' u' v' len', applies start goal r w' t' u' v' len' -> len <= len'.
Proof.
  unfold shortest. pose proof (shortest_best (goal_array start goal r) (seq 0 num_words) [] None) as H. cbn [app] in H. specialize (H ltac:(intros w [])).
  destruct (fold_left (shorter (goal_array start goal r)) (seq 0 num_words) None) as [[[len w] [[t u] v]]|].
  - cbn [best_of] in H. destruct H as (I & E & M). exists len, w, t, u, v. split; auto. apply in_seq in I. split; [split; [lia|auto]|].
    intros w' t' u' v' len' [I' E']. eapply M; [|exact E']. apply in_seq. lia.
  - exfalso. destruct (word_exists start goal r) as (w & t & u & v & len & I & E). apply (H w) in E; auto. apply in_seq. lia.
Qed.

(** ** The cheapest word *)

Lemma cost_exists g l r rev fwd sw : holds_motions g l -> (0 < length l)%nat -> exists c, g_cost g r rev fwd sw = Some c.
Proof.
  intros H Hn. pose proof (holds_valid g l H) as V. unfold g_cost. rewrite V. destruct l as [|m l]; [cbn in Hn; lia|]. destruct (Reqb rev 1 && Reqb sw 0); eauto.
Qed.

Definition cheapest_of (start goal : pose) (r rev fwd sw : R) (ws : list nat) (best : option (R * nat * rs_segment)) : Prop :=
  match best with
  | None => forall w, In w ws -> forall t u v len, ~ applies start goal r w t u v len
  | Some (c, w, g) => In w ws /\ offered start goal r w g /\ g_cost g r rev fwd sw = Some c /\
      forall w' g' c', In w' ws -> offered start goal r w' g' -> g_cost g' r rev fwd sw = Some c' -> c <= c'
  end.

Lemma cheaper_best start goal r rev fwd sw ws best w : 0 < r -> (w < num_words)%nat -> cheapest_of start goal r rev fwd sw ws best ->
  exists best', cheaper (goal_array start goal r) r rev fwd sw best w = Ok best' /\ cheapest_of start goal r rev fwd sw (ws ++ [w]) best'.
Proof.
  intros Hr Hw H. unfold cheaper. destruct (motion_lengths w (goal_array start goal r)) as [t u v len| |] eqn:E.
  - assert (A : applies start goal r w t u v len) by (split; auto). destruct (word_path start goal r w t u v len Hr A) as (g & l & Eg & Hg & Hn & _).
    rewrite Eg. cbn [bind]. destruct (cost_exists g l r rev fwd sw Hg Hn) as [c Ec]. rewrite Ec.
    assert (Ow : offered start goal r w g) by (exists t, u, v, len; auto).
    assert (Uw : forall g' c', offered start goal r w g' -> g_cost g' r rev fwd sw = Some c' -> c' = c).
    { intros g' c' (t' & u' & v' & len' & [_ E'] & Eg') Ec'. assert (t' = t /\ u' = u /\ v' = v) as (-> & -> & ->) by (rewrite E in E'; injection E'; auto). congruence. }
    destruct best as [[[b w0] g0]|]; cbn [cheapest_of] in H.
    + destruct H as (I & O0 & E0 & M). destruct (Rltb_spec c b) as [L|L]; eexists; (split; [reflexivity|]); cbn [cheapest_of].
      * split; [apply in_or_app; cbn; auto|]. split; auto. split; auto. intros w' g' c' I' O' Ec'. apply in_app_or in I' as [I'|[<-|[]]].
        { pose proof (M _ _ _ I' O' Ec'). lra. } { rewrite (Uw g' c' O' Ec'). lra. }
      * split; [apply in_or_app; auto|]. split; auto. split; auto. intros w' g' c' I' O' Ec'. apply in_app_or in I' as [I'|[<-|[]]]; [eauto|]. rewrite (Uw g' c' O' Ec'). lra.
    + eexists. split; [reflexivity|]. cbn [cheapest_of]. split; [apply in_or_app; cbn; auto|]. split; auto. split; auto. intros w' g' c' I' O' Ec'. apply in_app_or in I' as [I'|[<-|[]]].
      { destruct O' as (t' & u' & v' & len' & A' & _). now apply H in A'. } { rewrite (Uw g' c' O' Ec'). lra. }
  - exists best. split; auto. destruct best as [[[b w0] g0]|]; cbn [cheapest_of] in *.
    + destruct H as (I & O0 & E0 & M). split; [apply in_or_app; auto|]. split; auto. split; auto. intros w' g' c' I' O' Ec'. apply in_app_or in I' as [I'|[<-|[]]]; [eauto|].
      destruct O' as (t' & u' & v' & len' & [_ A'] & _). congruence.
    + intros w' I' t' u' v' len' A'. apply in_app_or in I' as [I'|[<-|[]]]; [eapply H; eauto|]. destruct A'. congruence.
  - exists best. split; auto. destruct best as [[[b w0] g0]|]; cbn [cheapest_of] in *.
    + destruct H as (I & O0 & E0 & M). split; [apply in_or_app; auto|]. split; auto. split; auto. intros w' g' c' I' O' Ec'. apply in_app_or in I' as [I'|[<-|[]]]; [eauto|].
      destruct O' as (t' & u' & v' & len' & [_ A'] & _). congruence.
    + intros w' I' t' u' v' len' A'. apply in_app_or in I' as [I'|[<-|[]]]; [eapply H; eauto|]. destruct A'. congruence.
Qed.

Lemma optimal_fold start goal r rev fwd sw : 0 < r -> forall ws ws0 best, (forall w, In w ws -> (w < num_words)%nat) -> cheapest_of start goal r rev fwd sw ws0 best ->
  exists best', fold_left (fun res w => do best <- res; cheaper (goal_array start goal r) r rev fwd sw best w) ws (Ok best) = Ok best' /\
    cheapest_of start goal r rev fwd sw (ws0 ++ ws) best'.
Proof.
  intros Hr. induction ws as [|w ws IH]; intros ws0 best Hw H; cbn [fold_left].
  - exists best. rewrite app_nil_r. auto.
  - cbn [bind]. destruct (cheaper_best start goal r rev fwd sw ws0 best w Hr) as (b' & E & H'); auto. { apply Hw. now left. }
    rewrite E. destruct (IH (ws0 ++ [w]) b') as (b'' & E' & H''); auto. { intros x Ix. apply Hw. now right. }
    exists b''. rewrite <- app_assoc in H''. auto.
Qed.

Lemma optimal_spec start goal r rev fwd sw : 0 < r -> exists c w g, optimal start goal r rev fwd sw = Ok (Some (c, w, g)) /\ (w < num_words)%nat /\
  offered start goal r w g /\ g_cost g r rev fwd sw = Some c /\
  forall w' g' c', offered start goal r w' g' -> g_cost g' r rev fwd sw = Some c' -> c <= c'.
Proof.
  intros Hr. unfold optimal. destruct (optimal_fold start goal r rev fwd sw Hr (seq 0 num_words) [] None) as (b & E & H).
  { intros w I. apply in_seq in I. lia. } { intros w []. }
  rewrite E. cbn [app] in H. destruct b as [[[c w] g]|]; cbn [cheapest_of] in H.
  - destruct H as (I & O & Ec & M). exists c, w, g. split; auto. apply in_seq in I. split; [lia|]. split; auto. split; auto. intros w' g' c' O' Ec'. apply (M w' g' c'); auto.
    destruct O' as (t' & u' & v' & len' & [L _] & _). apply in_seq. lia.
  - exfalso. destruct (word_exists start goal r) as (w & t & u & v & len & I & Ew). apply (H w ltac:(apply in_seq; lia) t u v len). split; auto.
Qed.

(** ** Costs *)
Lemma dir_eqb_true a b : dir_eqb a b = true <-> a = b.
Proof. destruct a, b; cbn; split; congruence. Qed.
Lemma dir_eqb_sym a b : dir_eqb a b = dir_eqb b a.
Proof. destruct a, b; reflexivity. Qed.
Lemma dir_eqb_refl a : dir_eqb a a = true.
Proof. destruct a; reflexivity. Qed.

Lemma cost_loop_spec r rev fwd sw : forall l prev cost, Forall proper l ->
  cost_loop r rev fwd sw l prev cost = cost + documented_cost l r rev fwd sw + match l with [] => 0 | m :: _ => if dir_eqb (m_dir m) prev then 0 else sw end.
Proof.
  induction l as [|m l IH]; intros prev cost F.
  - cbn. unfold documented_cost. cbn. ring.
  - inversion F as [|? ? [Hd Hm] F']; subst. cbn [cost_loop]. rewrite IH by auto. unfold documented_cost. cbn [length_in switches].
    assert (S : INR (match l with [] => 0%nat | m' :: _ => ((if dir_eqb (m_dir m) (m_dir m') then 0 else 1) + switches l)%nat end) =
      match l with [] => 0 | m' :: _ => if dir_eqb (m_dir m') (m_dir m) then 0 else 1 end + INR (switches l)).
    { destruct l as [|m' l]; [cbn; lra|]. rewrite plus_INR, (dir_eqb_sym (m_dir m)). destruct (dir_eqb (m_dir m') (m_dir m)); cbn [INR]; lra. }
    rewrite S. destruct (m_dir m) eqn:Ed; [| |easy]; cbn [dir_eqb]; destruct prev; destruct l as [|m' l']; try (destruct (dir_eqb (m_dir m') _)); ring.
Qed.

Lemma length_split l : Forall proper l -> motions_length l = length_in Forward l + length_in Backward l.
Proof. induction 1 as [|m l [Hd _] F IH]; cbn; [ring|]. rewrite IH. destruct (m_dir m); cbn; [ring|ring|easy]. Qed.

Lemma g_cost_spec g l r rev fwd sw : holds_motions g l -> l <> [] -> fwd = 1 \/ rev <> 1 \/ sw <> 0 ->
  g_cost g r rev fwd sw = Some (documented_cost l r rev fwd sw).
Proof.
  intros H Hn Hc. pose proof (holds_valid g l H) as V. destruct H as (_ & _ & Hl & F). unfold g_cost. rewrite V. destruct l as [|m l0]; [easy|].
  destruct (Reqb_spec rev 1) as [E1|E1], (Reqb_spec sw 0) as [E2|E2]; cbn [andb].
  - assert (fwd = 1) as -> by (destruct Hc as [|[|]]; easy). rewrite Hl, (length_split _ F). unfold documented_cost. rewrite E1, E2. f_equal. ring.
  - rewrite cost_loop_spec by auto. rewrite dir_eqb_refl. f_equal. ring.
  - rewrite cost_loop_spec by auto. rewrite dir_eqb_refl. f_equal. ring.
  - rewrite cost_loop_spec by auto. rewrite dir_eqb_refl. f_equal. ring.
Qed.

(** ** Truncation *)
Lemma truncate_final r d l : forall i len p, fst (truncate_loop r d i l len p) = interp_loop r d (valid_motions l) len p.
Proof.
  induction l as [|[m|] l IH]; intros i len p; auto. cbn [truncate_loop valid_motions]. destruct (m_valid (Some m)); auto. cbn [interp_loop]. cbv zeta.
  destruct (Reqb (m_len m * r) 0).
  - rewrite <- (IH (S i) len p). destruct (truncate_loop r d (S i) l len p). reflexivity.
  - destruct (Rleb d (len + m_len m * r)); auto. rewrite <- (IH (S i)). destruct (truncate_loop r d (S i) l _ _). reflexivity.
Qed.

Lemma truncate_state p q : q_final (rs_truncate p q) = rs_at p q /\ q_length (rs_truncate p q) = q_length p * q /\ q_init (rs_truncate p q) = q_init p.
Proof.
  unfold rs_truncate, rs_at, rs_interp. destruct (Reqb (q_length p) 0); cbn; auto.
  pose proof (truncate_final (q_radius p) (q * q_length p) (g_motions (q_segment p)) 0 0 (q_init p)) as H.
  destruct (truncate_loop _ _ _ _ _ _) as [f l']. cbn in *. auto.
Qed.

(** The motions after truncation within the motion [m]. *)
Lemma truncate_motions r d m rest : 0 < r -> proper m -> 0 < m_len m -> forall pre i len p, Forall proper pre ->
  len + motions_length pre * r < d -> d <= len + (motions_length pre + m_len m) * r ->
  snd (truncate_loop r d i (map Some pre ++ Some m :: rest) len p) =
    map Some pre ++ (if Nat.ltb (S (i + length pre)) num_motion then None
      else Some (Motion (m_steer m) (m_dir m) ((d - len) / r - motions_length pre))) :: rest.
Proof.
  intros Hr [Hd Hm] Hp. assert (V : forall x, proper x -> m_valid (Some x) = true) by (intros x [A _]; cbn; destruct (m_dir x); easy).
  induction pre as [|b pre IH]; intros i len p F H1 H2.
  - cbn [map app truncate_loop]. rewrite V by (split; auto). cbn [motions_length] in *. destruct (Reqb_spec (m_len m * r) 0) as [Z|N]; [nra|]. cbv zeta.
    destruct (Rleb_spec d (len + m_len m * r)) as [L|L]; [|lra]. cbn [snd length]. rewrite Nat.add_0_r. destruct (Nat.ltb (S i) num_motion); auto.
    rewrite Rmin_left; [replace (m_len m * ((d - len) / (m_len m * r))) with ((d - len) / r - 0) by (field; lra); reflexivity|]. apply Rmult_le_reg_r with (m_len m * r); [nra|]. replace ((d - len) / (m_len m * r) * (m_len m * r)) with (d - len) by (field; lra). lra.
  - inversion F as [|? ? [Hb Hb'] F']; subst. cbn [motions_length map app truncate_loop] in *. rewrite V by (split; auto). cbv zeta. pose proof (length_pos pre F') as P.
    replace (S (i + length (b :: pre)))%nat with (S (S i + length pre))%nat by (cbn; lia).
    destruct (Reqb_spec (m_len b * r) 0) as [Z|N].
    + assert (Z' : m_len b = 0) by nra. rewrite Z' in *. specialize (IH (S i) len p F' ltac:(lra) ltac:(lra)). destruct (truncate_loop r d (S i) _ len p) as [f l']. cbn [snd] in *. rewrite IH.
      replace ((d - len) / r - (0 + motions_length pre)) with ((d - len) / r - motions_length pre) by ring. reflexivity.
    + destruct (Rleb_spec d (len + m_len b * r)) as [L|L]; [nra|]. set (p' := rs_move _ _ _ _). specialize (IH (S i) (len + m_len b * r) p' F' ltac:(lra) ltac:(lra)).
      destruct (truncate_loop r d (S i) _ _ p') as [f l']. cbn [snd] in *. rewrite IH.
      replace ((d - (len + m_len b * r)) / r - motions_length pre) with ((d - len) / r - (m_len b + motions_length pre)) by (field; lra). reflexivity.
Qed.

Lemma drive_for_app r a b d p : Forall proper a -> Forall proper b -> 0 <= d <= motions_length a -> drive_for r (a ++ b) d p = drive_for r a d p.
Proof.
  intros F G. revert d p. induction F as [|m a [Hd Hm] F IH]; intros d p H; cbn [app motions_length] in *.
  - assert (d = 0) as -> by lra. now rewrite drive_for_0.
  - cbn [drive_for]. destruct (Rleb_spec d (m_len m)); auto. apply IH. lra.
Qed.

Lemma drive_for_beyond r a d p : Forall proper a -> motions_length a <= d -> drive_for r a d p = drive r a p.
Proof.
  intros F. revert d p. induction F as [|m a [Hd Hm] F IH]; intros d p H; cbn [motions_length] in *; auto. rewrite drive_cons. pose proof (length_pos a F). cbn [drive_for].
  destruct (Rleb_spec d (m_len m)) as [L|L].
  - assert (d = m_len m) as -> by lra. rewrite drive_zero; auto. lra.
  - apply IH. lra.
Qed.

(** Driving a shortened last motion. *)
Lemma drive_for_shortened r m post : proper m -> Forall proper post -> forall pre d e p, Forall proper pre -> 0 <= d <= motions_length pre + e -> 0 <= e <= m_len m ->
  drive_for r (pre ++ [Motion (m_steer m) (m_dir m) e]) d p = drive_for r (pre ++ m :: post) d p.
Proof.
  intros Hm G. induction pre as [|b pre IH]; intros d e p F Hd He.
  - cbn [app motions_length drive_for m_len m_steer m_dir] in *. destruct (Rleb_spec d e); [|lra]. destruct (Rleb_spec d (m_len m)); [|lra]. reflexivity.
  - inversion F as [|? ? [Hb Hb'] F']; subst. cbn [app motions_length drive_for] in *. destruct (Rleb_spec d (m_len b)); auto. apply IH; auto. lra.
Qed.

Lemma truncate_at init g r pre m post q s : holds_motions g (pre ++ m :: post) -> 0 < r -> 0 <= q <= 1 -> 0 <= s <= 1 ->
  motions_length pre < q * motions_length (pre ++ m :: post) <= motions_length pre + m_len m ->
  (s * (q * motions_length (pre ++ m :: post)) <= motions_length pre \/ length pre = 4%nat ->
     same_pose (rs_at (rs_truncate (rs_new init g r) q) s) (rs_at (rs_new init g r) (q * s))) /\
  (motions_length pre <= s * (q * motions_length (pre ++ m :: post)) -> (length pre < 4)%nat ->
     same_pose (rs_at (rs_truncate (rs_new init g r) q) s) (drive r pre init)).
Proof.
  intros H Hr Hq Hs Hm. set (l := pre ++ m :: post) in *. pose proof H as (E & Hn & Hl & F). assert (F0 := F). unfold l in F0. apply Forall_app in F0 as [Fp F1].
  pose proof (Forall_inv F1) as Pm. pose proof (Forall_inv_tail F1) as Fq. pose proof (length_pos pre Fp) as Pp. pose proof (length_pos l F) as Pl.
  assert (L0 : 0 < motions_length l) by nra. assert (Lm : 0 < m_len m) by lra. assert (Q0 : 0 < q) by nra.
  set (M := motions_length l) in *.
  assert (Hat : same_pose (rs_at (rs_new init g r) (q * s)) (drive_for r l (s * (q * M)) init)).
  { replace (s * (q * M)) with (q * s * M) by ring. apply rs_at_drive; auto. nra. }
  assert (Hd : q * (M * r) / r - motions_length pre = q * M - motions_length pre) by (field; lra).
  assert (Trunc : rs_truncate (rs_new init g r) q = RsPath init (rs_at (rs_new init g r) q) (M * r * q)
    (RsSegment (map Some pre ++ (if Nat.ltb (S (length pre)) num_motion then None else Some (Motion (m_steer m) (m_dir m) (q * M - motions_length pre)))
      :: map Some post ++ repeat None (num_motion - length l)) (g_length g)) r).
  { unfold rs_truncate, rs_at, rs_interp, rs_new. cbn [q_length q_radius q_segment q_init]. rewrite Hl. fold M. destruct (Reqb_spec (M * r) 0); [nra|].
    pose proof (truncate_final r (q * (M * r)) (g_motions g) 0 0 init) as T1.
    assert (Eg : g_motions g = map Some pre ++ Some m :: (map Some post ++ repeat None (num_motion - length l))) by (rewrite E; unfold l; rewrite map_app, <- app_assoc; reflexivity).
    pose proof (truncate_motions r (q * (M * r)) m (map Some post ++ repeat None (num_motion - length l)) Hr Pm Lm pre 0 0 init Fp ltac:(nra) ltac:(nra)) as T2.
    rewrite <- Eg in T2. destruct (truncate_loop r (q * (M * r)) 0 (g_motions g) 0 init) as [f l']. cbn [fst snd] in *. rewrite T1, T2. rewrite Rminus_0_r, Hd. reflexivity. }
  set (g' := RsSegment _ _) in Trunc. assert (Eat : rs_at (rs_truncate (rs_new init g r) q) s = interp_loop r (s * (M * r * q)) (valid_motions (g_motions g')) 0 init).
  { rewrite Trunc. unfold rs_at, rs_interp. cbn [q_init q_length q_segment q_radius]. destruct (Reqb_spec (M * r * q) 0) as [Z|N]; auto.
    exfalso. assert (0 < M * r * q) by (repeat apply Rmult_lt_0_compat; auto). lra. }
  rewrite Eat. unfold g'. cbn [g_motions]. clear g' Trunc Eat.
  assert (Dd : s * (M * r * q) = s * (q * M) * r) by ring. rewrite Dd. assert (S0 : 0 <= s * (q * M)) by nra. set (ds := s * (q * M)) in *.
  assert (Dl : s * (q * M) <= q * M) by nra. fold ds in Dl. unfold l in Hn. rewrite app_length in Hn. cbn [length] in Hn.
  destruct (Nat.ltb_spec (S (length pre)) num_motion) as [B|B].
  - assert (Ev : valid_motions (map Some pre ++ None :: map Some post ++ repeat None (num_motion - length l)) = pre).
    { generalize (map Some post ++ repeat None (num_motion - length l)). clear - Fp. intros z. induction Fp as [|b pre [A _] F IH]; cbn; auto. rewrite IH. destruct (m_dir b); easy. }
    rewrite Ev. assert (I : same_pose (interp_loop r (ds * r) pre 0 init) (drive_for r pre ds init)).
    { replace ds with ((ds * r - 0) / r) at 2 by (field; lra). apply interp_drive; auto; [nra|apply same_pose_refl]. }
    split.
    + intros [A|A]; [|unfold num_motion in B; lia]. eapply same_pose_trans; [exact I|]. eapply same_pose_trans; [|apply same_pose_sym, Hat]. unfold l. rewrite drive_for_app; auto. apply same_pose_refl.
    + intros A _. eapply same_pose_trans; [exact I|]. rewrite drive_for_beyond by auto. apply same_pose_refl.
  - assert (post = []) as Ep by (destruct post; auto; unfold num_motion in *; cbn in Hn; lia). assert (E4 : length pre = 4%nat) by (unfold num_motion in *; lia).
    assert (Pm' : proper (Motion (m_steer m) (m_dir m) (q * M - motions_length pre))) by (destruct Pm; split; cbn; auto; lra).
    assert (Ev : valid_motions (map Some pre ++ Some (Motion (m_steer m) (m_dir m) (q * M - motions_length pre)) :: map Some post ++ repeat None (num_motion - length l)) = pre ++ [Motion (m_steer m) (m_dir m) (q * M - motions_length pre)]).
    { rewrite <- (valid_motions_app (pre ++ [Motion (m_steer m) (m_dir m) (q * M - motions_length pre)]) (num_motion - length l)).
      - rewrite Ep, map_app, <- app_assoc. reflexivity.
      - apply Forall_app. split; auto. }
    rewrite Ev. split; [|lia]. intros _. eapply same_pose_trans.
    { apply (interp_drive r _ Hr) with (q := init); [apply Forall_app; split; auto|nra|apply same_pose_refl]. }
    replace ((ds * r - 0) / r) with ds by (field; lra). eapply same_pose_trans; [|apply same_pose_sym, Hat]. unfold l. rewrite (drive_for_shortened r m post); auto; [apply same_pose_refl|lra|lra].
Qed.

(** ** Directions and cusps *)
Lemma direction_loop_spec r : 0 < r -> forall l d len, Forall proper l -> len < d <= len + motions_length l * r ->
  exists pre m post, l = pre ++ m :: post /\ rs_direction_loop r d l len = m_dir m /\ len + motions_length pre * r < d <= len + (motions_length pre + m_len m) * r.
Proof.
  intros Hr. induction l as [|m l IH]; intros d len F H; cbn [motions_length] in H; [lra|]. inversion F as [|? ? [Hd Hm] F']; subst. cbn [rs_direction_loop]. cbv zeta.
  destruct (Rleb_spec d (len + m_len m * r)) as [L|L].
  - exists [], m, l. split; auto. split; auto. cbn [motions_length]. lra.
  - destruct (IH d (len + m_len m * r) F' ltac:(lra)) as (pre & m' & post & -> & E & B). exists (m :: pre), m', post. split; auto. split; auto. cbn [motions_length]. lra.
Qed.

Lemma direction_spec init g l r q : holds_motions g l -> 0 < r -> 0 < motions_length l -> 0 < q <= 1 ->
  exists before m s, reaches l (q * motions_length l) before m s /\ 0 < s /\ rs_direction (rs_new init g r) q = m_dir m.
Proof.
  intros H Hr Hl Hq. pose proof (holds_valid g l H) as V. destruct H as (_ & _ & El & F). unfold rs_direction, rs_new. cbn [q_length q_radius q_segment]. rewrite V, El.
  destruct (Reqb_spec (motions_length l * r) 0); [nra|].
  destruct (direction_loop_spec r Hr l (q * (motions_length l * r)) 0 F) as (pre & m & post & E & D & B1 & B2).
  { assert (0 < motions_length l * r) by nra. nra. }
  exists pre, m, (q * motions_length l - motions_length pre). rewrite D. assert (motions_length pre < q * motions_length l) by nra. split; [|split; [lra|auto]].
  split; [eauto|]. split; [|ring]. nra.
Qed.

Lemma cusp_loop_rs r total : 0 < total -> 0 < r -> forall l prev len x, Forall proper l -> len + motions_length l * r <= total ->
  (In x (rs_cusp_loop r total l prev len) <->
   exists pre b post, l = pre ++ b :: post /\ x = (len + motions_length pre * r) / total /\ m_dir b <> match rev pre with [] => prev | a :: _ => m_dir a end).
Proof.
  intros Ht Hr. induction l as [|m l IH]; intros prev len x F H.
  - cbn. split; [easy|]. intros ([|? ?] & b & post & E & _); discriminate.
  - inversion F as [|? ? [Hd Hm] F']; subst. cbn [rs_cusp_loop motions_length] in *. pose proof (length_pos l F') as P. destruct (Rltb_spec 1 (len / total)) as [L|_].
    { exfalso. assert (len <= total) by nra. assert (len / total <= 1); [|lra]. apply Rmult_le_reg_r with total; auto. replace (len / total * total) with len by (field; lra). lra. }
    rewrite in_app_iff, IH by (auto; lra). split.
    + intros [A|(pre & b & post & -> & -> & D)].
      * destruct (dir_eqb (m_dir m) prev) eqn:E; [destruct A|]. destruct A as [<-|[]]. exists [], m, l. split; auto. split; [cbn; f_equal; ring|]. cbn. intros K. apply dir_eqb_true in K. congruence.
      * exists (m :: pre), b, post. split; auto. split; [cbn [motions_length]; f_equal; ring|]. cbn [rev]. destruct (rev pre); auto.
    + intros (pre & b & post & E & -> & D). destruct pre as [|a pre]; injection E as -> ->.
      * left. cbn [rev] in D. destruct (dir_eqb (m_dir b) prev) eqn:K; [apply dir_eqb_true in K; easy|]. left. cbn. f_equal. ring.
      * right. exists pre, b, post. split; auto. split; [cbn [motions_length]; f_equal; ring|]. cbn [rev] in D. destruct (rev pre); auto.
Qed.

Lemma cusps_rs init g l r x : holds_motions g l -> 0 < r -> 0 < motions_length l ->
  (In x (rs_cusps (rs_new init g r)) <->
   exists pre a b post, l = pre ++ a :: b :: post /\ m_dir a <> m_dir b /\ x = motions_length (pre ++ [a]) / motions_length l).
Proof.
  intros H Hr Hl. pose proof (holds_valid g l H) as V. destruct H as (_ & _ & El & F). unfold rs_cusps, rs_new. cbn [q_length q_radius q_segment]. rewrite V, El.
  destruct (Reqb_spec (motions_length l * r) 0); [nra|]. destruct l as [|m l]; [cbn in Hl; lra|]. set (M := motions_length (m :: l)) in *.
  inversion F as [|? ? Pm F']; subst. rewrite cusp_loop_rs; auto; [|apply Rmult_lt_0_compat; auto|unfold M; cbn [motions_length]; lra].
  assert (Q : forall y, y * r / (M * r) = y / M) by (intros y; field; lra). split.
  - intros (pre & b & post & -> & -> & D). destruct pre as [|z pre'] using rev_ind.
    + exists [], m, b, post. split; auto. split; [cbn in D; congruence|]. cbn. rewrite Rmult_0_l, !Rplus_0_r. apply Q.
    + clear IHpre'. rewrite rev_app_distr in D. cbn in D. exists (m :: pre'), z, b, post. split; [cbn; now rewrite <- app_assoc|]. split; [congruence|].
      cbn [app motions_length]. rewrite <- Q. f_equal. ring.
  - intros (pre & a & b & post & E & D & ->). destruct pre as [|z pre]; injection E as -> ->.
    + exists [], b, post. split; auto. split; [cbn; rewrite Rmult_0_l, !Rplus_0_r; symmetry; apply Q|]. cbn. congruence.
    + exists (pre ++ [a]), b, post. split; [now rewrite <- app_assoc|]. split; [|rewrite rev_app_distr; cbn; congruence].
      cbn [app motions_length]. rewrite <- Q. f_equal. ring.
Qed.

(** ** Paths *)
Lemma rs_ends init g l r : holds_motions g l -> 0 < r ->
  same_pose (rs_at (rs_new init g r) 0) init /\ rs_at (rs_new init g r) 1 = q_final (rs_new init g r) /\
  same_pose (q_final (rs_new init g r)) (drive r l init) /\ q_length (rs_new init g r) = r * motions_length l.
Proof.
  intros H Hr. assert (E1 : rs_at (rs_new init g r) 1 = q_final (rs_new init g r)) by reflexivity. split; [|split; [auto|split]].
  - eapply same_pose_trans; [apply rs_at_drive; eauto; lra|]. rewrite Rmult_0_l, drive_for_0 by apply H. apply same_pose_refl.
  - rewrite <- E1. eapply same_pose_trans; [apply rs_at_drive; eauto; lra|]. rewrite Rmult_1_l, drive_for_all by apply H. apply same_pose_refl.
  - cbn. destruct H as (_ & _ & -> & _). ring.
Qed.

Lemma reaches_exists l d : Forall proper l -> l <> [] -> 0 <= d <= motions_length l -> exists before m s, reaches l d before m s.
Proof.
  intros F. revert d. induction F as [|m l [Hd Hm] F IH]; intros d Hn H; [easy|]. cbn [motions_length] in H.
  destruct (Rle_dec d (m_len m)) as [L|L].
  - exists [], m, d. split; [exists l; reflexivity|]. split; [lra|cbn; ring].
  - destruct l as [|b l]; [cbn in H; lra|]. destruct (IH (d - m_len m)) as (before & x & s & (after & E) & Hs & Ed); [easy|lra|].
    exists (m :: before), x, s. split; [exists after; now rewrite E|]. split; auto. cbn [motions_length]. lra.
Qed.

Lemma word_goal start goal r w t u v len : 0 < r -> applies start goal r w t u v len ->
  exists g l, get_path w t u v = Ok g /\ holds_motions g l /\ l <> [] /\ motions_length l = len /\
  same_pose (drive r l start) goal /\ same_pose (q_final (rs_new start g r)) goal.
Proof.
  intros Hr H. destruct (word_path start goal r w t u v len Hr H) as (g & l & Eg & Hg & Hn & El & Hd). exists g, l. split; auto. split; auto. split; [destruct l; cbn in Hn; [lia|easy]|].
  split; auto. split; auto. eapply same_pose_trans; [|exact Hd]. now apply rs_ends.
Qed.

Lemma shortest_distance_spec start goal r : exists d w t u v,
  shortest_distance start goal r = Some d /\ applies start goal r w t u v d /\ shortest_path start goal r = get_path w t u v /\
  (forall w' t' u' v' len', applies start goal r w' t' u' v' len' -> d <= len').
Proof.
  destruct (shortest_spec start goal r) as (d & w & t & u & v & E & A & M). exists d, w, t, u, v. unfold shortest_distance, shortest_path. rewrite E. cbn. auto.
Qed.

Lemma position_same p q : same_pose p q -> position p = position q.
Proof. intros (Hx & Hy & _). unfold position. now rewrite Hx, Hy. Qed.

Lemma shortest_path_spec start goal r : 0 < r -> exists d g l,
  shortest_distance start goal r = Some d /\ shortest_path start goal r = Ok g /\ holds_motions g l /\
  same_pose (q_final (rs_new start g r)) goal /\ q_length (rs_new start g r) = d * r /\ distance (position start) (position goal) <= d * r.
Proof.
  intros Hr. destruct (shortest_distance_spec start goal r) as (d & w & t & u & v & E & A & P & _). destruct (word_goal _ _ _ _ _ _ _ _ Hr A) as (g & l & Eg & Hg & _ & El & _ & Hq).
  exists d, g, l. split; auto. split; [congruence|]. split; auto. split; auto. destruct (rs_ends start g l r Hg Hr) as (E0 & E1 & _ & EL). assert (L : q_length (rs_new start g r) = d * r) by (rewrite EL, El; ring).
  split; auto. pose proof (rs_at_distance start g l r 0 1 Hg Hr ltac:(lra) ltac:(lra)) as K. rewrite E1, (position_same _ _ E0), (position_same _ _ Hq), L in K.
  replace (Rabs (0 - 1)) with 1 in K; [lra|]. rewrite Rabs_left; lra.
Qed.

Lemma offered_goal start goal r w g : 0 < r -> offered start goal r w g -> exists l, holds_motions g l /\ l <> [] /\ same_pose (q_final (rs_new start g r)) goal /\
  forall d, shortest_distance start goal r = Some d -> d <= g_length g.
Proof.
  intros Hr (t & u & v & len & A & E). destruct (word_goal _ _ _ _ _ _ _ _ Hr A) as (g' & l & Eg & Hg & Hn & El & _ & Hq). assert (g' = g) as -> by congruence.
  exists l. split; auto. split; auto. split; auto. intros d Ed. destruct (shortest_distance_spec start goal r) as (d' & w' & t' & u' & v' & E' & _ & _ & M). assert (d' = d) as -> by congruence.
  destruct Hg as (_ & _ & -> & _). rewrite El. eapply M; eauto.
Qed.

Lemma optimal_path_spec start goal r rev fwd sw : 0 < r ->
  exists w g c, optimal_path start goal r rev fwd sw = Ok g /\ (w < num_words)%nat /\ offered start goal r w g /\
  rs_connect r sw rev fwd start goal = Ok (rs_new start g r) /\ same_pose (q_final (rs_new start g r)) goal /\
  rs_cost (rs_new start g r) sw rev fwd = Some c /\
  (forall w' g', offered start goal r w' g' -> exists c', g_cost g' r rev fwd sw = Some c' /\ c <= c').
Proof.
  intros Hr. destruct (optimal_spec start goal r rev fwd sw Hr) as (c & w & g & E & Hw & O & Ec & M). exists w, g, c.
  assert (Eo : optimal_path start goal r rev fwd sw = Ok g) by (unfold optimal_path; rewrite E; reflexivity).
  split; auto. split; auto. split; auto. split; [unfold rs_connect; now rewrite Eo|]. destruct (offered_goal _ _ _ _ _ Hr O) as (l & Hg & Hn & Hq & _). split; auto. split; auto.
  intros w' g' O'. destruct (offered_goal _ _ _ _ _ Hr O') as (l' & Hg' & Hn' & _). destruct (cost_exists g' l' r rev fwd sw Hg') as (c' & Ec'). { destruct l'; [easy|cbn; lia]. }
  exists c'. split; auto. eapply M; eauto.
Qed.

Lemma optimal_shortest start goal r g d : 0 < r -> optimal_path start goal r 1 1 0 = Ok g -> shortest_distance start goal r = Some d -> g_length g = d.
Proof.
  intros Hr E Ed. destruct (optimal_path_spec start goal r 1 1 0 Hr) as (w & g' & c & E' & _ & O & _ & _ & Ec & M). assert (g' = g) as -> by congruence.
  destruct (offered_goal _ _ _ _ _ Hr O) as (l & Hg & Hn & _ & B). specialize (B d Ed).
  assert (C : forall g l, holds_motions g l -> l <> [] -> g_cost g r 1 1 0 = Some (g_length g * r)).
  { intros x k Hx Hk. unfold g_cost. rewrite (holds_valid x k Hx). destruct k; [easy|]. destruct (Reqb_spec 1 1); [|lra]. destruct (Reqb_spec 0 0); [|lra]. reflexivity. }
  destruct (shortest_distance_spec start goal r) as (d' & w' & t & u & v & E1 & A & _ & _). assert (d' = d) as -> by congruence.
  destruct (word_goal _ _ _ _ _ _ _ _ Hr A) as (g' & l' & Eg' & Hg' & Hn' & El' & _ & _). destruct (M w' g') as (c' & Ec' & L). { exists t, u, v, d. auto. }
  unfold rs_cost in Ec. cbn [q_segment q_radius rs_new] in Ec. rewrite (C g l Hg Hn) in Ec. rewrite (C g' l' Hg' Hn') in Ec'. injection Ec as <-. injection Ec' as <-.
  destruct Hg' as (_ & _ & Gl & _). rewrite Gl, El' in L. nra.
Qed.

Lemma wrap_angle_0 : wrap_angle 0 = 0.
Proof. destruct (wrap_angle_spec 0) as [H S]. symmetry. pose proof PI_RGT_0. apply same_angle_unique; [now apply same_angle_sym|lra|lra]. Qed.

Lemma ahead_applies start r s : 0 < r -> 0 <= s -> applies start (driven r SStraight start s) r 0 0 s 0 s.
Proof.
  intros Hr Hs. split; [unfold num_words; lia|]. unfold motion_lengths, goal_array. change (Nat.div 0 4) with 0%nat. change (Nat.modulo 0 4) with 0%nat. cbv iota zeta.
  destruct (sub_fields (driven r SStraight start s) start) as (Ex & Ey & Et). set (d := pose_sub _ _) in *. cbn [driven px py pth] in Ex, Ey, Et. cbn [nth].
  pose proof (sincos (pth start)) as SC. pose proof PI_RGT_0 as HP.
  assert (X : px d / r = s).
  { rewrite Ex. transitivity (s * (sin (pth start) * sin (pth start) + cos (pth start) * cos (pth start))); [field; lra|]. rewrite SC. ring. }
  assert (Y : py d / r = 0) by (rewrite Ey; field; lra). assert (T : pth d = 0) by (rewrite Et; replace (pth start - pth start) with 0 by ring; apply wrap_keep; lra).
  rewrite X, Y, T. assert (Em : mk_pose s 0 0 = Pose s 0 0) by (unfold mk_pose; rewrite wrap_keep by lra; reflexivity). rewrite Em. unfold LfSfLf. cbn [px py pth].
  rewrite sin_0, cos_0. replace (0 - 1 + 1) with 0 by ring. replace (s - 0) with s by ring. replace (s * s + 0 * 0) with (s * s) by ring. rewrite sqrt_square by auto.
  assert (A : atan2 0 s = 0).
  { unfold atan2. destruct (Rltb_spec 0 s) as [L|L]; [replace (0 / s) with 0 by (field; lra); apply atan_0|]. destruct (Rltb_spec s 0); [lra|]. destruct (Rltb_spec 0 0); [lra|]. reflexivity. }
  rewrite A, Rminus_0_r, wrap_angle_0. unfold angle_invalid. destruct (Rltb_spec 0 0); [lra|]. destruct (Rltb_spec PI 0); [lra|]. cbn. f_equal. ring.
Qed.

Lemma ahead_distance start r s : 0 < r -> 0 <= s -> distance (position start) (position (driven r SStraight start s)) = r * s.
Proof.
  intros Hr Hs. unfold distance, position. cbn. pose proof (sincos (pth start)) as SC.
  match goal with |- sqrt ?a = _ => replace a with ((r * s) * (r * s)); [apply sqrt_square; nra|] end.
  transitivity (r * s * (r * s) * (sin (pth start) * sin (pth start) + cos (pth start) * cos (pth start))); [rewrite SC; ring|ring].
Qed.

Lemma shortest_ahead start r s : 0 < r -> 0 <= s -> shortest_distance start (driven r SStraight start s) r = Some s.
Proof.
  intros Hr Hs. destruct (shortest_path_spec start (driven r SStraight start s) r Hr) as (d & g & l & E & _ & _ & _ & _ & L). rewrite ahead_distance in L by auto.
  destruct (shortest_distance_spec start (driven r SStraight start s) r) as (d' & w & t & u & v & E' & _ & _ & M). assert (d' = d) as -> by congruence.
  pose proof (M _ _ _ _ _ (ahead_applies start r s Hr Hs)). rewrite E. f_equal. nra.
Qed.

Lemma distance_unscaled : exists start goal r d g, 0 < r /\ shortest_distance start goal r = Some d /\ shortest_path start goal r = Ok g /\
  q_length (rs_new start g r) <> d /\ d < distance (position start) (position goal).
Proof.
  exists (Pose 0 0 0), (driven 2 SStraight (Pose 0 0 0) 5), 2, 5. destruct (shortest_path_spec (Pose 0 0 0) (driven 2 SStraight (Pose 0 0 0) 5) 2) as (d & g & l & E & P & _ & _ & L & _); [lra|].
  exists g. rewrite shortest_ahead in * by lra. injection E as <-. split; [lra|]. split; auto. split; auto. split; [lra|]. rewrite ahead_distance; lra.
Qed.

(** ** A motion without length *)
Lemma pause_cost g : holds_motions g [Sf 1; Sb 0; Sf 1] -> exists g l init r sw c, holds_motions g l /\ 0 < r /\
  (forall ratio, 0 <= ratio <= 1 -> same_pose (rs_at (rs_new init g r) ratio) (Pose (ratio * q_length (rs_new init g r)) 0 0)) /\
  g_cost g r 1 1 sw = Some c /\ c <> q_length (rs_new init g r).
Proof.
  intros H. exists g, [Sf 1; Sb 0; Sf 1], (Pose 0 0 0), 1, 1, 4. split; auto. split; [lra|]. assert (L : q_length (rs_new (Pose 0 0 0) g 1) = 2). { destruct (rs_ends (Pose 0 0 0) g _ 1 H ltac:(lra)) as (_ & _ & _ & ->). cbn. lra. }
  rewrite L. split.
  - intros ratio Hq. eapply same_pose_trans; [apply rs_at_drive; eauto; lra|]. cbn [motions_length m_len Sf Sb]. set (d := ratio * _). assert (Ed : d = ratio * 2) by (unfold d; ring). clearbody d. rewrite <- Ed. cbn [drive_for m_len Sf Sb].
    destruct (Rleb_spec d 1) as [A|A]; [cbn; rewrite cos_0, sin_0; split; [cbn; lra|split; [cbn; lra|apply same_angle_refl]]|].
    destruct (Rleb_spec (d - 1) 0) as [B|B]; [lra|]. destruct (Rleb_spec (d - 1 - 0) 1) as [C|C]; cbn; rewrite cos_0, sin_0; (split; [cbn; lra|split; [cbn; lra|apply same_angle_refl]]).
  - split; [|lra]. rewrite (g_cost_spec g _ 1 1 1 1 H); [|easy|auto]. unfold documented_cost. cbn. f_equal. ring.
Qed.

(** ** Flips *)
Lemma map_option_id (f : motion -> motion) l : (forall m, f (f m) = m) -> map (option_map f) (map (option_map f) l) = l.
Proof. intros H. rewrite map_map. transitivity (map (fun x => x) l); [|apply map_id]. apply map_ext. intros [m|]; cbn; [now rewrite H|auto]. Qed.

Lemma flips g : timeflip (timeflip g) = g /\ reflect (reflect g) = g /\ timeflip (reflect g) = reflect (timeflip g) /\
  g_length (timeflip g) = g_length g /\ g_length (reflect g) = g_length g.
Proof.
  destruct g as [l n]. split; [|split; [|split; [|split; reflexivity]]]; unfold timeflip, reflect; cbn [g_motions g_length]; f_equal.
  - apply map_option_id. intros [s d k]. cbn. f_equal. now destruct d.
  - apply map_option_id. intros [s d k]. cbn. f_equal. now destruct s.
  - rewrite !map_map. apply map_ext. intros [m|]; auto.
Qed.

Lemma drive_for_mirror_time r l : Forall proper l -> forall d p, drive_for r (map mtf l) d (mirror_time p) = mirror_time (drive_for r l d p).
Proof.
  induction 1 as [|m l [Hd Hm] F IH]; intros d p; auto. cbn [map drive_for]. assert (S : forall x, signed (m_dir (mtf m)) x = - signed (m_dir m) x) by (intros x; cbn; destruct (m_dir m); cbn; try lra; easy).
  cbn [mtf m_len m_steer]. change (flip_dir (m_dir m)) with (m_dir (mtf m)). rewrite !S, !driven_mirror_time. destruct (Rleb d (m_len m)); auto.
Qed.
Lemma drive_for_mirror_side r l : forall d p, drive_for r (map mrf l) d (mirror_side p) = mirror_side (drive_for r l d p).
Proof.
  induction l as [|m l IH]; intros d p; auto. cbn [map drive_for mrf m_len m_steer m_dir]. rewrite !driven_mirror_side. destruct (Rleb d (m_len m)); auto.
Qed.
Lemma same_angle_opp a b : same_angle a b -> same_angle (- a) (- b).
Proof. intros H. replace (- a) with (0 - a) by ring. replace (- b) with (0 - b) by ring. apply same_angle_sub; auto. apply same_angle_refl. Qed.
Lemma mirror_time_compat p q : same_pose p q -> same_pose (mirror_time p) (mirror_time q).
Proof. intros (Hx & Hy & Ht). unfold same_pose, mirror_time. cbn. rewrite Hx, Hy. split; auto. split; auto. now apply same_angle_opp. Qed.
Lemma mirror_side_compat p q : same_pose p q -> same_pose (mirror_side p) (mirror_side q).
Proof. intros (Hx & Hy & Ht). unfold same_pose, mirror_side. cbn. rewrite Hx, Hy. split; auto. split; auto. now apply same_angle_opp. Qed.

Lemma flips_at init g l r ratio : holds_motions g l -> 0 < r -> 0 <= ratio <= 1 ->
  same_pose (rs_at (rs_new (mirror_time init) (timeflip g) r) ratio) (mirror_time (rs_at (rs_new init g r) ratio)) /\
  same_pose (rs_at (rs_new (mirror_side init) (reflect g) r) ratio) (mirror_side (rs_at (rs_new init g r) ratio)).
Proof.
  intros H Hr Hq. pose proof (rs_at_drive init g l r ratio H Hr Hq) as A. split.
  - eapply same_pose_trans; [apply rs_at_drive; [apply timeflip_holds; eauto|auto|auto]|]. rewrite motions_length_map by reflexivity. rewrite drive_for_mirror_time by apply H.
    apply same_pose_sym. now apply mirror_time_compat.
  - eapply same_pose_trans; [apply rs_at_drive; [apply reflect_holds; eauto|auto|auto]|]. rewrite motions_length_map by reflexivity. rewrite drive_for_mirror_side.
    apply same_pose_sym. now apply mirror_side_compat.
Qed.

(** ** Cusps are changes of direction *)
Lemma direction_loop_at r d m post : 0 < r -> forall pre len, Forall proper pre -> len + motions_length pre * r < d <= len + (motions_length pre + m_len m) * r ->
  rs_direction_loop r d (pre ++ m :: post) len = m_dir m.
Proof.
  intros Hr. induction pre as [|b pre IH]; intros len F H; cbn [app rs_direction_loop motions_length] in *; cbv zeta.
  - destruct (Rleb_spec d (len + m_len m * r)); auto. lra.
  - inversion F as [|? ? [Hb Hb'] F']; subst. pose proof (length_pos pre F'). destruct (Rleb_spec d (len + m_len b * r)); [nra|]. apply IH; auto. lra.
Qed.

Lemma direction_at init g pre m post r q : holds_motions g (pre ++ m :: post) -> 0 < r -> 0 < motions_length (pre ++ m :: post) ->
  motions_length pre < q * motions_length (pre ++ m :: post) <= motions_length pre + m_len m -> rs_direction (rs_new init g r) q = m_dir m.
Proof.
  intros H Hr Hl Hq. pose proof (holds_valid g _ H) as V. destruct H as (_ & _ & El & F). unfold rs_direction, rs_new. cbn [q_length q_radius q_segment]. rewrite V, El.
  set (M := motions_length (pre ++ m :: post)) in *. destruct (Reqb_spec (M * r) 0); [nra|]. apply direction_loop_at; auto; [|nra]. now apply Forall_app in F.
Qed.

Lemma cusps_changes init g l r x : holds_motions g l -> 0 < r -> l <> [] -> (forall m, In m l -> 0 < m_len m) ->
  (In x (rs_cusps (rs_new init g r)) <-> 0 < x < 1 /\ exists d1 d2, d1 <> d2 /\ exists e, 0 < e /\
     (forall y, x - e < y <= x -> 0 <= y -> rs_direction (rs_new init g r) y = d1) /\
     (forall y, x < y < x + e -> y <= 1 -> rs_direction (rs_new init g r) y = d2)).
Proof.
  intros H Hr Hn Hp. pose proof H as (_ & _ & _ & F). assert (Hl : 0 < motions_length l).
  { destruct l as [|m l]; [easy|]. cbn. inversion F; subst. pose proof (length_pos l ltac:(auto)). pose proof (Hp m (or_introl eq_refl)). lra. }
  rewrite (cusps_rs init g l r x H Hr Hl). split.
  - intros (pre & a & b & post & E & D & Ex). pose proof (Hp a ltac:(rewrite E; apply in_or_app; cbn; auto)) as Pa. pose proof (Hp b ltac:(rewrite E; apply in_or_app; cbn; auto)) as Pb.
    assert (L : motions_length l = motions_length pre + m_len a + m_len b + motions_length post) by (rewrite E, motions_length_app; cbn; ring).
    rewrite motions_length_app in Ex. cbn [motions_length] in Ex. rewrite E in F. apply Forall_app in F as [Fp F]. inversion F as [|? ? _ F2]; subst. inversion F2 as [|? ? _ Fq]; subst.
    pose proof (length_pos pre Fp) as Lp. pose proof (length_pos post Fq) as Lq. set (l := pre ++ a :: b :: post) in *. set (M := motions_length l) in *. set (x := _ / M) in *.
    assert (XM : x * M = motions_length pre + m_len a) by (unfold x; field; lra). split; [nra|].
    exists (m_dir a), (m_dir b). split; auto. exists (Rmin (m_len a) (m_len b) / M). assert (EM : Rmin (m_len a) (m_len b) / M * M = Rmin (m_len a) (m_len b)) by (field; lra). set (e := _ / M) in *.
    pose proof (Rmin_l (m_len a) (m_len b)). pose proof (Rmin_r (m_len a) (m_len b)). assert (0 < Rmin (m_len a) (m_len b)) by (apply Rmin_glb_lt; auto). split; [nra|]. split.
    + intros y Hy _. apply (direction_at init g pre a (b :: post) r y); auto. fold l M. nra.
    + intros y Hy _. assert (El : l = (pre ++ [a]) ++ b :: post) by (unfold l; rewrite <- app_assoc; reflexivity).
      apply (direction_at init g (pre ++ [a]) b post r y); rewrite <- ?El; auto. fold M. rewrite motions_length_app. cbn [motions_length]. nra.
  - intros (Hx & d1 & d2 & D & e & He & H1 & H2). specialize (H1 x ltac:(lra) ltac:(lra)).
    destruct (direction_loop_spec r Hr l (x * (motions_length l * r)) 0 F) as (pre & m & post & El & _ & B1 & B2).
    { assert (0 < motions_length l * r) by nra. nra. }
    subst l. set (l := pre ++ m :: post) in *. set (M := motions_length l) in *. assert (B1' : motions_length pre < x * M) by nra. assert (B2' : x * M <= motions_length pre + m_len m) by nra.
    assert (Dm : m_dir m = d1) by (rewrite <- H1; symmetry; apply (direction_at init g pre m post r x); auto).
    destruct (Rlt_dec (x * M) (motions_length pre + m_len m)) as [L|L].
    { exfalso. set (e' := Rmin (e / 2) (Rmin ((1 - x)) ((motions_length pre + m_len m - x * M) / M))).
      assert (Z : 0 < (motions_length pre + m_len m - x * M) / M) by (apply Rdiv_lt_0_compat; lra).
      assert (P : 0 < e') by (unfold e'; repeat apply Rmin_glb_lt; lra). pose proof (Rmin_l (e / 2) (Rmin ((1 - x)) ((motions_length pre + m_len m - x * M) / M))) as Q1.
      pose proof (Rmin_r (e / 2) (Rmin ((1 - x)) ((motions_length pre + m_len m - x * M) / M))) as Q2. fold e' in Q1, Q2.
      pose proof (Rmin_l (1 - x) ((motions_length pre + m_len m - x * M) / M)) as Q3. pose proof (Rmin_r (1 - x) ((motions_length pre + m_len m - x * M) / M)) as Q4.
      specialize (H2 (x + e') ltac:(lra) ltac:(lra)). assert (Q5 : e' * M <= motions_length pre + m_len m - x * M).
      { apply Rle_trans with ((motions_length pre + m_len m - x * M) / M * M); [apply Rmult_le_compat_r; lra|]. right. field. lra. }
      apply D. rewrite <- Dm, <- H2. symmetry. apply (direction_at init g pre m post r); auto. fold l M. nra. }
    assert (XM : x * M = motions_length pre + m_len m) by lra. assert (LM : M = motions_length pre + (m_len m + motions_length post)) by (unfold M, l; rewrite motions_length_app; reflexivity).
    destruct post as [|b post]. { exfalso. cbn in LM. nra. }
    exists pre, m, b, post. split; [reflexivity|]. split.
    + assert (Pb : 0 < m_len b) by (apply Hp; unfold l; apply in_or_app; cbn; auto). set (e' := Rmin (e / 2) (Rmin (1 - x) (m_len b / M))).
      assert (Z : 0 < m_len b / M) by (apply Rdiv_lt_0_compat; lra). assert (P : 0 < e') by (unfold e'; repeat apply Rmin_glb_lt; lra).
      pose proof (Rmin_l (e / 2) (Rmin (1 - x) (m_len b / M))) as Q1. pose proof (Rmin_r (e / 2) (Rmin (1 - x) (m_len b / M))) as Q2. fold e' in Q1, Q2.
      pose proof (Rmin_l (1 - x) (m_len b / M)) as Q3. pose proof (Rmin_r (1 - x) (m_len b / M)) as Q4. specialize (H2 (x + e') ltac:(lra) ltac:(lra)).
      assert (Q5 : e' * M <= m_len b). { apply Rle_trans with (m_len b / M * M); [apply Rmult_le_compat_r; lra|]. right. field. lra. }
      assert (El : l = (pre ++ [m]) ++ b :: post) by (unfold l; rewrite <- app_assoc; reflexivity).
      rewrite Dm. intros K. apply D. rewrite K, <- H2. symmetry. apply (direction_at init g (pre ++ [m]) b post r); rewrite <- ?El; auto. fold M. rewrite motions_length_app. cbn [motions_length]. nra.
    + rewrite motions_length_app. cbn [motions_length]. fold l M. apply Rmult_eq_reg_r with M; [|lra]. rewrite XM. field. lra.
Qed.
