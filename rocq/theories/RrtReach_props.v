(** C100: the random trees find a path once their samples fall, in order, in small discs along a clear route. *)
From Coq Require Import ZArith Reals Lra.
From Verif Require Import Base RealBase Coords_model Straight_model Straight_spec Straight_proofs Rrt_model Rrt_spec.
From Verif Require Import Rrt_proofs RrtStar_proofs Rrt_props RrtReach_spec RrtReach_proofs.
Local Open Scope R_scope.

(** RRT returns Success, at the latest at the iteration of the last hit, whatever the other samples are. *)
Theorem C100_rrt :
  forall free valid sample nearest maxIteration maxNode d r k c hit goal,
  exact_nearest nearest -> accepts_free free valid -> 0 <= r -> 3 * r <= d ->
  (1 <= k)%nat -> clear_route free r k c -> hits sample r k c hit -> distance (c k) goal + r < 1 ->
  (hit k <= maxIteration < 2147483647)%Z -> (hit k + 1 <= maxNode)%Z ->
  exists t s n,
    rrt_search point_eqb r_final (steer_r2 d) valid (near_goal goal) sample nearest maxIteration maxNode (c 0%nat) =
      Ok (true, t, s, n) /\ (n <= hit k + 1)%Z.
Proof. intros. eapply rrt_reaches; eassumption. Qed.
Print Assumptions C100_rrt.

(** RRT* likewise, if the last hit is the goal (which it samples with the probability [goalBias]). Nothing is needed of
    the candidate parents. *)
Theorem C100_rrt_star :
  forall free valid sample nearest knn log maxIteration maxNode d r k c hit goal,
  exact_nearest nearest -> answers_all knn -> accepts_free free valid -> 0 <= r -> 3 * r <= d ->
  (1 <= k)%nat -> clear_route free r k c -> hits sample r k c hit -> sample (hit k) = goal ->
  (hit k <= maxIteration < 2147483647)%Z -> (hit k + 1 <= maxNode)%Z ->
  exists t s n,
    star_search point_eqb r_final (steer_r2 d) valid (fun v => point_eqb v goal) sample nearest maxIteration maxNode
      r_connect r_length 0 Rplus Rltb log knn (c 0%nat) = Ok (true, t, s, n) /\ (n <= hit k + 1)%Z.
Proof. intros. eapply star_reaches; eassumption. Qed.
Print Assumptions C100_rrt_star.

(** Hence, if any curve with some clearance leads from the initial state to the goal, there are finitely many discs, of
    the same positive radius, such that both planners return Success whenever the samples visit them in order before
    the budgets run out. *)
Theorem C100_clear_curve :
  forall free valid nearest d L clearance curve,
  exact_nearest nearest -> accepts_free free valid -> 0 < d -> 0 <= L -> 0 < clearance ->
  clear_curve free L clearance curve ->
  exists r k c, 0 < r /\ (1 <= k)%nat /\ (forall j, (j <= k)%nat -> free (c j)) /\ c k = curve L /\
  forall sample maxIteration maxNode hit, hits sample r k c hit ->
  (hit k <= maxIteration < 2147483647)%Z -> (hit k + 1 <= maxNode)%Z ->
  (exists t s n,
     rrt_search point_eqb r_final (steer_r2 d) valid (near_goal (curve L)) sample nearest maxIteration maxNode (curve 0) =
       Ok (true, t, s, n)) /\
  (sample (hit k) = curve L -> forall log knn, answers_all knn -> exists t s n,
     star_search point_eqb r_final (steer_r2 d) valid (fun v => point_eqb v (curve L)) sample nearest maxIteration maxNode
       r_connect r_length 0 Rplus Rltb log knn (curve 0) = Ok (true, t, s, n)).
Proof.
  intros free valid nearest d L clearance curve Ex Ac Hd HL Hc Hk.
  destruct (route_along free L clearance curve d HL Hc Hd Hk) as (r & k & c & R0 & R1 & R2 & K & C0 & Ck & Cr).
  exists r, k, c. split; [exact R0|]. split; [exact K|]. split.
  { intros j Hj. apply (proj2 Cr j _ Hj). rewrite distance_self. lra. }
  split; [exact Ck|]. intros sample mi mn hit Hh Hb Hn. rewrite <- C0, <- Ck. split.
  - destruct (C100_rrt free valid sample nearest mi mn d r k c hit (c k) Ex Ac (Rlt_le _ _ R0) R1 K Cr Hh) as (t & s & n & H & _);
      [rewrite distance_self; lra|exact Hb|exact Hn|]. eauto.
  - intros Hg log knn AA.
    destruct (C100_rrt_star free valid sample nearest knn log mi mn d r k c hit (c k) Ex AA Ac (Rlt_le _ _ R0) R1 K Cr Hh Hg Hb Hn)
      as (t & s & n & H & _). eauto.
Qed.
Print Assumptions C100_clear_curve.

(** A case with a wall at x = 5: from the origin to (2, 0) by discs of radius 1/2, hit at the iterations 2, 4, 6 and 8.
    The other samples are behind the wall. *)
Definition wall_free (p : point) : Prop := fst p < 5.
Definition wall_valid (p : rpath) : bool := Rltb (fst (r_init p)) 5 && Rltb (fst (r_final p)) 5.
Definition wall_route (j : nat) : point := (INR j / 2, 0).
Definition wall_hit (j : nat) : Z := (2 * Z.of_nat j)%Z.
Definition wall_sample (it : Z) : point := if Z.even it then (IZR (it / 2) / 2, 0) else (100, 100).

Lemma wall_route_clear : clear_route wall_free (1 / 2) 4 wall_route.
Proof.
  split.
  - intros j _. unfold distance, wall_route. cbn [fst snd]. rewrite S_INR.
    replace (_ + _) with ((1 / 2) * (1 / 2)) by field. rewrite sqrt_square; lra.
  - intros j p Hj. unfold distance, wall_route, wall_free. destruct p as [x y]. cbn [fst snd]. intros H.
    assert (J : INR j <= 4) by (replace 4 with (INR 4) by (cbn; lra); apply le_INR, Hj).
    assert (x - INR j / 2 <= 4 * (1 / 2)); [|lra]. apply Rle_trans with (2 := H).
    apply Rle_trans with (Rabs (x - INR j / 2)); [apply Rle_abs|]. rewrite <- sqrt_Rsqr_abs. apply sqrt_le_1_alt.
    unfold Rsqr. generalize (Rle_0_sqr (y - 0)). unfold Rsqr. lra.
Qed.

Example C100_case : exists t s n,
  rrt_search point_eqb r_final (steer_r2 (3 / 2)) wall_valid (near_goal (2, 0)) wall_sample (fun _ => rargmin) 100 100 (wall_route 0) =
    Ok (true, t, s, n) /\ (n <= 9)%Z.
Proof.
  apply (C100_rrt wall_free wall_valid wall_sample (fun _ => rargmin) 100 100 (3 / 2) (1 / 2) 4 wall_route wall_hit (2, 0)).
  - intros it l q. apply rargmin_ok.
  - intros a b H. assert (H0 := H 0 ltac:(lra)). assert (H1 := H 1 ltac:(lra)). rewrite r_at_0 in H0. rewrite r_at_1 in H1.
    unfold wall_free in H0, H1. unfold wall_valid. cbn [r_connect r_init r_final] in *.
    destruct (Rltb_spec (fst a) 5); [|lra]. destruct (Rltb_spec (fst b) 5); [reflexivity|lra].
  - lra.
  - lra.
  - lia.
  - exact wall_route_clear.
  - split; [unfold wall_hit; lia|]. split; [intros j _; unfold wall_hit; lia|].
    intros j _. unfold wall_sample, wall_hit, wall_route. rewrite Z.even_mul. cbn [Z.even orb].
    rewrite Z.mul_comm, Z.div_mul by lia. rewrite <- INR_IZR_INZ, distance_self. lra.
  - replace (2, 0) with (wall_route 4) by (unfold wall_route; cbn; f_equal; lra). rewrite distance_self. lra.
  - unfold wall_hit. lia.
  - unfold wall_hit. lia.
Qed.

(** The straight segment from the origin to (2, 0) is a clear curve. *)
Example C100_curve_case : clear_curve wall_free 2 1 (fun s => (s, 0)).
Proof.
  split.
  - intros s t _ _. unfold distance. cbn [fst snd]. replace (_ + _) with (Rsqr (t - s)) by (unfold Rsqr; ring).
    rewrite sqrt_Rsqr_abs. lra.
  - intros s [x y] Hs H. unfold distance, wall_free in *. cbn [fst snd] in *.
    assert (x - s <= 1); [|lra]. apply Rle_trans with (2 := H).
    apply Rle_trans with (Rabs (x - s)); [apply Rle_abs|]. rewrite <- sqrt_Rsqr_abs. apply sqrt_le_1_alt.
    unfold Rsqr. generalize (Rle_0_sqr (y - 0)). unfold Rsqr. lra.
Qed.
