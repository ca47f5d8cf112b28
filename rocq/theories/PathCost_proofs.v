(** Range of the path cost. *)
From Coq Require Import Reals Lra.
From Verif Require Import Base RealBase Grid_model Grid_spec Grid_proofs Gvd_model Gvd_spec Gvd_proofs PathCost_model.
From Coq Require Import ZifyBool ZifyNat ZifyN.
Local Open Scope R_scope.

Lemma frac_range a b : 0 <= a -> 0 <= b -> 0 < a + b -> 0 <= a / (a + b) <= 1.
Proof.
  intros Ha Hb Hs. split.
  - apply Rmult_le_pos; auto. left. now apply Rinv_0_lt_compat.
  - apply (Rmult_le_reg_r (a + b)); auto. unfold Rdiv. rewrite Rmult_assoc, Rinv_l; lra.
Qed.

Lemma path_cost_spec alpha dMax d v : 0 < alpha -> 0 < dMax -> 0 <= d -> 0 <= v -> 0 < d + v ->
  exists x, path_cost alpha dMax d v = Some x /\ 0 <= x <= 1 /\ (dMax <= d -> x = 0) /\ (v = 0 -> x = 0) /\ (d = 0 -> x = 1).
Proof.
  intros Ha Hm Hd Hv Hs. unfold path_cost. destruct (Rleb_spec dMax d) as [L|L].
  - exists 0. repeat split; auto; lra.
  - destruct (Reqb_spec (d + v) 0) as [E|E]; [lra|]. eexists. split; [reflexivity|].
    assert (A : 0 <= alpha / (alpha + d) <= 1) by (apply frac_range; lra).
    assert (B : 0 <= v / (d + v) <= 1) by (rewrite (Rplus_comm d v); apply frac_range; lra).
    assert (D : 0 <= (d - dMax) ^ 2 / dMax ^ 2 <= 1).
    { assert (0 < dMax ^ 2) by (apply pow_lt; lra). split.
      - apply Rmult_le_pos; [apply pow2_ge_0|]. left. now apply Rinv_0_lt_compat.
      - apply (Rmult_le_reg_r (dMax ^ 2)); auto. unfold Rdiv. rewrite Rmult_assoc, Rinv_l by lra. cbn. nra. }
    set (x := alpha / (alpha + d)) in *. set (y := v / (d + v)) in *. set (z := (d - dMax) ^ 2 / dMax ^ 2) in *.
    assert (0 <= x * y <= 1) by nra. split; [nra|]. split; [lra|]. split.
    + intros ->. assert (y = 0) as -> by (unfold y, Rdiv; ring). ring.
    + intros ->. unfold x, y, z. field. lra.
Qed.

Section Costs.
Variables rowsN colsN : Z.
Hypothesis Hsize : representable rowsN colsN.
Notation ins := (inside rowsN colsN).

Lemma zero_dist f c : cons rowsN colsN f -> ins c -> i_dist (f c) = 0%Z <-> is_obst f c.
Proof.
  intros Hc Hi. destruct (Hc c Hi) as [(E & D)|(E & D)]; unfold is_obst; rewrite D.
  - split; [discriminate|]. intros K. exfalso. apply (no_cell_not_ins rowsN colsN). now rewrite <- E, K.
  - split.
    + unfold sqd. intros H. assert (row c = row (i_obst (f c)) /\ col c = col (i_obst (f c))) as [A B].
      { pose proof (Z.square_nonneg (row c - row (i_obst (f c)))). pose proof (Z.square_nonneg (col c - col (i_obst (f c)))).
        split; nia. }
      destruct c as [r k], (i_obst (f (Cell r k))) as [r' k']. cbn in A, B. congruence.
    + intros ->. apply sqd_refl.
Qed.

Lemma costs alpha dMax resolution st f w fv c : 0 < alpha -> 0 < dMax -> 0 < resolution -> ins c ->
  holds rowsN colsN (g_obs st) f [] -> J rowsN colsN f [] -> g_vor st = Some w -> holds rowsN colsN w fv [] -> J rowsN colsN fv [] ->
  apart rowsN colsN f [] (Some w) ->
  exists x, get_path_cost alpha dMax resolution st c = Ok (Some x) /\ 0 <= x <= 1 /\
    (forall d, squared_distance_to_obstacle (g_obs st) c = Ok d -> dMax <= reported_distance resolution d -> x = 0) /\
    (nearest_obstacle w c = Ok c -> x = 0) /\ (is_obst f c -> x = 1).
Proof.
  intros Ha Hm Hr Hi (_ & _ & _ & Hf & _) HJ Ew (_ & _ & _ & Hfv & _) HJv Hap. unfold get_path_cost, squared_distance_to_obstacle, nearest_obstacle.
  rewrite Ew, (Hf c Hi), (Hfv c Hi). cbn [rmap bind].
  pose proof (cons_dist rowsN colsN Hsize c (f c) Hi (j_cons _ _ _ _ HJ c Hi)) as D1.
  pose proof (cons_dist rowsN colsN Hsize c (fv c) Hi (j_cons _ _ _ _ HJv c Hi)) as D2.
  pose proof (zero_dist f c (j_cons _ _ _ _ HJ) Hi) as Z1. pose proof (zero_dist fv c (j_cons _ _ _ _ HJv) Hi) as Z2.
  assert (P : forall d, (0 <= d)%Z -> 0 <= reported_distance resolution d /\ ((0 < d)%Z -> 0 < reported_distance resolution d) /\ (d = 0%Z <-> reported_distance resolution d = 0)).
  { intros d Hd. unfold reported_distance. pose proof (sqrt_pos (IZR d)) as S. split; [apply Rmult_le_pos; lra|].
    assert (Q : (0 < d)%Z -> 0 < sqrt (IZR d) * resolution).
    { intros L. apply Rmult_lt_0_compat; auto. apply sqrt_lt_R0. now apply (IZR_lt 0). }
    split; auto. split.
    - intros ->. rewrite sqrt_0. ring.
    - intros E. destruct (Z.eq_dec d 0) as [|N]; auto. assert (0 < d)%Z as L by lia. apply Q in L. lra. }
  assert (Hnb : ~ (i_dist (f c) = 0%Z /\ i_dist (fv c) = 0%Z)).
  { intros [A B]. apply Z1 in A. apply Z2 in B. destruct (Hap c Hi A) as [[_ []]|K]. apply K. exists (fv c). split; auto. }
  destruct (P (i_dist (f c))) as (P1 & P2 & P3); [lia|]. destruct (P (i_dist (fv c))) as (Q1 & Q2 & Q3); [lia|].
  destruct (path_cost_spec alpha dMax (reported_distance resolution (i_dist (f c))) (reported_distance resolution (i_dist (fv c))) Ha Hm P1 Q1) as (x & E & A & B & D & F).
  { destruct (Z.eq_dec (i_dist (f c)) 0) as [E1|E1].
    - assert (0 < i_dist (fv c))%Z as L by (destruct (Z.eq_dec (i_dist (fv c)) 0); [exfalso; auto|lia]). specialize (Q2 L). lra.
    - assert (0 < i_dist (f c))%Z as L by lia. specialize (P2 L). lra. }
  exists x. rewrite E. split; auto. split; auto. split; [|split].
  - intros d Ed. assert (i_dist (f c) = d) as <- by congruence. auto.
  - intros En. apply D. apply Q3. apply Z2. unfold is_obst. congruence.
  - intros Ob. apply F. apply P3. now apply Z1.
Qed.
End Costs.
