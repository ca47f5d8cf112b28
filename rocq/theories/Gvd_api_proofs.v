(** What the distance maps report, in the terms of the specification. *)
From Coq Require Import Reals Lra.
From Verif Require Import Base RealBase Grid_model Grid_spec Grid_proofs Gvd_model Gvd_spec Gvd_proofs Gvd_opt_proofs
  PathCost_model PathCost_proofs.
From Coq Require Import ZifyBool ZifyNat ZifyN.
Open Scope Z_scope.

Lemma priority_lt top : priority top -> forall k q, q <> [] -> (top k q < length q)%nat.
Proof.
  intros H k q Hq. destruct (H k q Hq) as (e & E & _). apply nth_error_Some. congruence.
Qed.

Section Api.
Variables rowsN colsN : Z.
Hypothesis Hsize : representable rowsN colsN.
Variables top topv : nat -> list (cell * Z) -> nat.
Hypothesis Htop : priority top.
Hypothesis Htopv : priority topv.
Notation ins := (inside rowsN colsN).

Lemma occ_mk occ : sized rowsN colsN occ -> occ_ok rowsN colsN occ.
Proof.
  intros (E1 & E2 & E3). destruct Hsize as (A & B & _). refine (conj _ (conj E1 E2)). unfold gwf. rewrite E1, E2. split; auto. split; auto. lia.
Qed.

Lemma holds_consistent m f q : holds rowsN colsN m f q -> cons rowsN colsN f -> forall c, ins c -> consistent rowsN colsN m c.
Proof.
  intros (_ & _ & _ & Hf & _) Hc c Hi. unfold consistent, nearest_obstacle, squared_distance_to_obstacle. rewrite (Hf c Hi). cbn [rmap bind].
  destruct (Hc c Hi) as [(A & B)|(A & B)].
  - left. split; congruence.
  - right. exists (i_obst (f c)). split; auto. split; auto. congruence.
Qed.

Lemma holds_obst m f q c : holds rowsN colsN m f q -> ins c -> (nearest_obstacle m c = Ok c <-> is_obst f c).
Proof.
  intros (_ & _ & _ & Hf & _) Hi. unfold nearest_obstacle, is_obst. rewrite (Hf c Hi). cbn [rmap bind]. split; congruence.
Qed.

Lemma holds_dist m f q c d : holds rowsN colsN m f q -> ins c -> (squared_distance_to_obstacle m c = Ok d <-> i_dist (f c) = d).
Proof.
  intros (_ & _ & _ & Hf & _) Hi. unfold squared_distance_to_obstacle. rewrite (Hf c Hi). cbn [rmap bind]. split; congruence.
Qed.

Lemma holds_near m f q c o : holds rowsN colsN m f q -> ins c -> (nearest_obstacle m c = Ok o <-> i_obst (f c) = o).
Proof.
  intros (_ & _ & _ & Hf & _) Hi. unfold nearest_obstacle. rewrite (Hf c Hi). cbn [rmap bind]. split; congruence.
Qed.

Lemma nil_open m f : holds rowsN colsN m f [] -> settled m.
Proof. intros (_ & _ & _ & _ & E). unfold settled. destruct (d_open m); auto. discriminate E. Qed.

Section Occ.
Variable occ : grid Z.
Hypothesis Hsized : sized rowsN colsN occ.
Let Ho := occ_mk occ Hsized.
Let L1 := priority_lt top Htop.
Let L2 := priority_lt topv Htopv.

Lemma api_consistent ops : well_used rowsN colsN false ops ->
  reaches top topv occ ops (fun st =>
    (forall c, ins c -> consistent rowsN colsN (g_obs st) c) /\
    (forall w c, g_vor st = Some w -> ins c -> consistent rowsN colsN w c) /\
    (forall c, ins c -> (nearest_obstacle (g_obs st) c = Ok c <-> obstacle ops c)) /\
    (forall c, ins c -> obstacle ops c -> squared_distance_to_obstacle (g_obs st) c = Ok 0)).
Proof.
  intros Hu. rewrite <- (app_nil_r ops) in Hu.
  destruct (history rowsN colsN Hsize top topv L1 L2 occ ops [] Ho Hu) as (k & st0 & st & f & q & made & E0 & E & G & _).
  exists k, st0, st. split; auto. split; auto. destruct G as [X1 X2 X3 X4 X5 X6 _ _].
  pose proof (j_cons _ _ _ _ (jb_j _ _ _ _ X2)) as Xc.
  assert (Q : forall c, ins c -> (nearest_obstacle (g_obs st) c = Ok c <-> obstacle ops c)).
  { intros c Hi. rewrite (holds_obst _ f q c X1 Hi). now apply X6. }
  split; [now apply (holds_consistent _ f q)|]. split; [|split; auto].
  - intros w c Ew Hi. rewrite Ew in X3. destruct X3 as (fv & qv & A & [B _]). apply (holds_consistent _ fv qv); auto. now apply j_cons in B.
  - intros c Hi O. apply (holds_dist _ f q c 0 X1 Hi). apply zero_dist with rowsN colsN; auto. now apply X6.
Qed.

Lemma api_settled ops : well_used rowsN colsN false ops ->
  reaches top topv occ (ops ++ [GUpdateObstacles]) (fun st => settled (g_obs st)).
Proof.
  intros Hu. assert (Hu' : well_used rowsN colsN false (ops ++ GUpdateObstacles :: [])).
  { clear - Hu. revert Hu. generalize false. induction ops as [|o r IH]; intros b H; [cbn; auto|]. destruct H as [A B]. split; auto. }
  destruct (history_updated rowsN colsN Hsize top topv L1 L2 occ ops [] Ho Hu') as (k & st0 & st & f & made & E0 & E & G & _).
  exists k, st0, st. split; auto. split; auto. destruct G. eapply nil_open; eauto.
Qed.

Lemma api_settled_voronoi ops : well_used rowsN colsN false (ops ++ [GUpdateVoronoi]) ->
  reaches top topv occ (ops ++ [GUpdateVoronoi]) (fun st => exists w, g_vor st = Some w /\ settled w).
Proof.
  intros Hu. destruct (history_voronoi rowsN colsN Hsize top topv L1 L2 occ ops Ho Hu) as (k & st0 & st & w & f & E0 & E & Ew & A & _).
  exists k, st0, st. split; auto. split; auto. exists w. split; auto. eapply nil_open; eauto.
Qed.

Notation updated ops := (well_used rowsN colsN false (ops ++ [GUpdateObstacles])).

Lemma api_updated ops (P : gst -> Prop) : updated ops ->
  (forall st f, holds rowsN colsN (g_obs st) f [] -> J rowsN colsN f [] -> (forall c, ins c -> (is_obst f c <-> obstacle ops c)) ->
     (existsb is_unset ops = false -> NS rowsN colsN f) -> P st) ->
  reaches top topv occ (ops ++ [GUpdateObstacles]) P.
Proof.
  intros Hu K. destruct (history_updated rowsN colsN Hsize top topv L1 L2 occ ops [] Ho Hu) as (k & st0 & st & f & made & E0 & E & G & _).
  exists k, st0, st. split; auto. split; auto. destruct G as [X1 X2 X3 X4 X5 X6 X7 _]. apply (K st f); auto.
  - now destruct X2.
  - intros U. apply X7. now rewrite U.
Qed.

Lemma api_reports ops : updated ops ->
  reaches top topv occ (ops ++ [GUpdateObstacles]) (fun st =>
    ((exists o, ins o /\ obstacle ops o) -> forall c, ins c -> exists o, nearest_obstacle (g_obs st) c = Ok o /\ ins o) /\
    ((forall o, ins o -> ~ obstacle ops o) -> forall c, ins c ->
       nearest_obstacle (g_obs st) c = Ok no_cell /\ squared_distance_to_obstacle (g_obs st) c = Ok inf) /\
    (existsb is_unset ops = false -> forall c o d, ins c -> ins o -> nearest_obstacle (g_obs st) c = Ok o ->
       squared_distance_to_obstacle (g_obs st) c = Ok d -> obstacle ops o /\ exists d0, smallest rowsN colsN (obstacle ops) c d0 /\ d0 <= d)).
Proof.
  intros Hu. apply api_updated; auto. intros st f Hh HJ Hob Hns. split; [|split].
  - intros (o & Hi & Oo) c Hc. exists (i_obst (f c)). split; [now apply (holds_near _ f [] c)|].
    apply (cons_valid rowsN colsN c (f c)); [now apply (j_cons _ _ _ _ HJ)|]. apply (settled_all rowsN colsN Hsize f HJ); auto.
    exists o. split; auto. apply (is_obst_valid rowsN colsN f); auto. now apply Hob.
  - intros Hno c Hc. destruct (settled_none rowsN colsN Hsize f HJ) with (c := c) as [A B]; auto.
    { intros d Hd Od. apply (Hno d Hd). now apply Hob. }
    split; [now apply (holds_near _ f [] c)|now apply (holds_dist _ f [] c)].
  - intros U c o d Hc Hio En Ed. specialize (Hns U). apply (holds_near _ f [] c o Hh Hc) in En. apply (holds_dist _ f [] c d Hh Hc) in Ed.
    assert (V : valid (f c)) by (unfold valid; rewrite En; now apply (ins_valid rowsN colsN)).
    destruct (Hns c Hc V) as [A B]. rewrite En in A, B. split; [now apply Hob|].
    assert (D : sqd c o = d). { rewrite <- Ed, <- En. symmetry. apply (obst_dist rowsN colsN f HJ); auto. }
    clear - A B D Hob Hsize Hio.
    (* the smallest distance exists: induction on the distance *)
    assert (W : forall n d, (Z.to_nat d < n)%nat -> (exists o, ins o /\ obstacle ops o /\ sqd c o = d) ->
      exists d0, smallest rowsN colsN (obstacle ops) c d0 /\ d0 <= d).
    { induction n as [|n IH]; intros e Hn (o1 & I1 & O1 & S1); [lia|].
      destruct (existsb (fun p => obstacle_after false ops p && (sqd c p <? e))
        (flat_map (fun i => map (fun j => Cell (Z.of_nat i) (Z.of_nat j)) (seq 0 (Z.to_nat colsN))) (seq 0 (Z.to_nat rowsN)))) eqn:X.
      - apply existsb_exists in X. destruct X as (p & Ip & Xp). apply andb_true_iff in Xp. destruct Xp as [X1 X2].
        apply in_flat_map in Ip. destruct Ip as (i & Ii & Ip). apply in_map_iff in Ip. destruct Ip as (j & Ej & Ij). apply in_seq in Ii, Ij.
        assert (ins p) by (subst p; unfold inside; cbn; lia). pose proof (sqd_nonneg c p).
        destruct (IH (sqd c p)) as (d0 & S0 & L0); [lia|exists p; auto|]. exists d0. split; auto. lia.
      - exists e. split; [|lia]. split; [exists o1; auto|]. intros p Ip Op. destruct (Z_le_gt_dec e (sqd c p)); auto. exfalso.
        enough (existsb (fun p => obstacle_after false ops p && (sqd c p <? e))
          (flat_map (fun i => map (fun j => Cell (Z.of_nat i) (Z.of_nat j)) (seq 0 (Z.to_nat colsN))) (seq 0 (Z.to_nat rowsN))) = true) by congruence.
        apply existsb_exists. exists p. split.
        + apply in_flat_map. exists (Z.to_nat (row p)). unfold inside in Ip. split; [apply in_seq; lia|]. apply in_map_iff.
          exists (Z.to_nat (col p)). split; [|apply in_seq; lia]. rewrite !Z2Nat.id by lia. now destruct p.
        + apply andb_true_iff. split; [exact Op|lia]. }
    apply (W (S (Z.to_nat d)) d); [lia|]. exists o. split; auto. split; auto. now apply Hob.
Qed.

Lemma smallest_iff f ops c d : (forall c, ins c -> (is_obst f c <-> obstacle ops c)) ->
  smallest rowsN colsN (is_obst f) c d -> smallest rowsN colsN (obstacle ops) c d.
Proof.
  intros H [(o & A & B & D) E]. split.
  - exists o. split; auto. split; auto. now apply H.
  - intros p Ip Op. apply E; auto. now apply H.
Qed.

Lemma region_iff (P Q : cell -> Prop) o c : (forall c, P c <-> Q c) -> region rowsN colsN P o c -> region rowsN colsN Q o c.
Proof.
  intros H. induction 1 as [|s n A IH B D E F]; [constructor|]. apply region_step with s; auto. intros p Op N. apply B; auto. now apply H.
Qed.

Lemma api_two ops a b : updated ops -> existsb is_unset ops = false -> ins a -> ins b -> obstacle ops a -> obstacle ops b ->
  (forall o, ins o -> obstacle ops o -> o = a \/ o = b) ->
  reaches top topv occ (ops ++ [GUpdateObstacles]) (fun st => forall c, ins c ->
    exists d, squared_distance_to_obstacle (g_obs st) c = Ok d /\ smallest rowsN colsN (obstacle ops) c d).
Proof.
  intros Hu U Ia Ib Oa Ob Hall. apply api_updated; auto. intros st f Hh HJ Hob Hns c Hc. exists (i_dist (f c)).
  split; [now apply (holds_dist _ f [] c)|]. apply (smallest_iff f); auto.
  apply (exact_two rowsN colsN Hsize f HJ (Hns U) a b); auto; try now apply Hob. intros o Io Oo. apply Hall; auto. now apply Hob.
Qed.

Lemma api_region ops : updated ops -> existsb is_unset ops = false ->
  reaches top topv occ (ops ++ [GUpdateObstacles]) (fun st => forall o c, ins o -> obstacle ops o -> ins c ->
    (forall o', ins o' -> obstacle ops o' -> sqd c o <= sqd c o') ->
    region rowsN colsN (fun o' => ins o' /\ obstacle ops o') o c ->
    squared_distance_to_obstacle (g_obs st) c = Ok (sqd c o)).
Proof.
  intros Hu U. apply api_updated; auto. intros st f Hh HJ Hob Hns o c Io Oo Hc Hmin Hr.
  apply (holds_dist _ f [] c); auto.
  destruct (exact_region rowsN colsN Hsize f HJ (Hns U) o c) as [(p & Ip & Op & Ep) Hm]; auto.
  - now apply Hob.
  - intros p Ip Op. apply Hmin; auto. now apply Hob.
  - revert Hr. apply region_iff. intros p. split; intros [A B]; split; auto; now apply Hob.
  - assert (i_dist (f c) <= sqd c o) by (apply Hm; auto; now apply Hob).
    assert (sqd c o <= sqd c p) by (apply Hmin; auto; now apply Hob). lia.
Qed.

Lemma api_error ops : updated ops ->
  reaches top topv occ (ops ++ [GUpdateObstacles]) (fun st => forall o c d, ins o -> obstacle ops o -> ins c ->
    squared_distance_to_obstacle (g_obs st) c = Ok d ->
    (IZR d <= (4 - 2 * sqrt 2) * IZR (sqd c o))%R /\
    (row o = row c \/ col o = col c \/ Z.abs (row o - row c) = Z.abs (col o - col c) -> d <= sqd c o)).
Proof.
  intros Hu. apply api_updated; auto. intros st f Hh HJ Hob Hns o c d Io Oo Hc Ed. apply (holds_dist _ f [] c d Hh Hc) in Ed. subst d.
  split.
  - apply (error_bound rowsN colsN Hsize f HJ); auto. now apply Hob.
  - apply (aligned_exact rowsN colsN Hsize f HJ); auto. now apply Hob.
Qed.

Lemma api_costs ops alpha dMax resolution : (0 < alpha)%R -> (0 < dMax)%R -> (0 < resolution)%R ->
  well_used rowsN colsN false (ops ++ [GUpdateObstacles; GUpdateVoronoi]) -> existsb is_edge ops = false ->
  reaches top topv occ (ops ++ [GUpdateObstacles; GUpdateVoronoi]) (fun st => forall c, ins c ->
    exists x, get_path_cost alpha dMax resolution st c = Ok (Some x) /\ (0 <= x <= 1)%R /\
      (forall d, squared_distance_to_obstacle (g_obs st) c = Ok d -> (dMax <= reported_distance resolution d)%R -> x = 0%R) /\
      (forall w, g_vor st = Some w -> nearest_obstacle w c = Ok c -> x = 0%R) /\
      (obstacle ops c -> x = 1%R)).
Proof.
  intros Ha Hm Hr Hu He.
  destruct (history_diagram rowsN colsN Hsize top topv L1 L2 occ ops Ho Hu) as (k & st0 & st & f & w & fv & E0 & E & A & B & D & F & G & K & M).
  exists k, st0, st. split; auto. split; auto. intros c Hc.
  destruct (costs rowsN colsN Hsize alpha dMax resolution st f w fv c) as (x & X1 & X2 & X3 & X4 & X5); auto.
  exists x. split; auto. split; auto. split; auto. split.
  - intros w' Ew. assert (w' = w) as -> by congruence. exact X4.
  - intros Oc. apply X5. now apply M.
Qed.
End Occ.
End Api.
