(** The costs of the transitions of Hybrid A*. *)
From Coq Require Import Reals Lra.
From Verif Require Import Base RealBase Grid_model Coords_model Pose_model Straight_model Bicycle_model Rs_model Rs_spec RsSolver_proofs Validator_model Hybrid_model HybridCost_spec.
Local Open Scope R_scope.

Section Costs.
Variable m : params.
Variable f : frames.
Variable field : cell -> res (option R).
Variable vres : R.
Variable validate : path -> res (bool * R).
Variable heur : pose -> res xreal.
Variable Rng : Type.
Variable draw : Rng -> R * Rng.
Variable goal : pose.
Hypothesis Hr : 0 < hp_radius m.
Hypothesis Hc : hp_forward m = 1 \/ hp_reverse m <> 1 \/ hp_switching m <> 0.

Definition cost_ok fuel (p : drive_path) (c : xreal) : Prop := exists k v, priced m p k /\ voronoi_cost m f field vres fuel p = Ok v /\ c = Some (k + v).

Lemma steer_cost_ok fuel dir k c : c_direction k = dir -> steer_cost m f field vres fuel dir (Steered k) = Ok c -> cost_ok fuel (Steered k) c.
Proof.
  intros Hd E. unfold steer_cost in E. destruct (voronoi_cost m f field vres fuel (Steered k)) as [v| | |] eqn:Ev; try discriminate. cbn [bind] in E.
  assert (D : dir_eqb (dp_direction (Steered k) 1) (dp_direction (Steered k) 1) = true) by (destruct (dp_direction (Steered k) 1); reflexivity).
  rewrite D in E. eexists _, v. split; [reflexivity|]. split; [exact Ev|]. cbn [dp_length] in E. rewrite Hd.
  assert (c = Some (match dir with Forward => hp_forward m * c_length k | Backward => hp_reverse m * c_length k | NoMotion => 0 end + 0 + v)) as -> by congruence.
  f_equal. destruct dir; ring.
Qed.

Lemma steer_child_cost fuel s delta dir t p c : steer_child m f field vres validate fuel s delta dir = Ok (Some (t, p, c)) -> cost_ok fuel p c.
Proof.
  unfold steer_child. set (p0 := c_new _ _ _ _ _). destruct (state_of_path m (Steered p0)) as [ch| | |]; try discriminate. cbn [bind].
  destruct (validate (as_path (Steered p0))) as [[ok last]| | |]; try discriminate. cbn [bind]. destruct ok.
  - destruct (steer_cost m f field vres fuel dir (Steered p0)) as [c0| | |] eqn:E; try discriminate. cbn [bind]. intros E'.
    assert (p = Steered p0 /\ c = c0) as [-> ->] by (split; congruence). eapply steer_cost_ok; [|exact E]. reflexivity.
  - destruct (discretize m _) as [cl| | |]; try discriminate. cbn [bind]. destruct (hs_eqb _ _); [discriminate|].
    destruct (steer_cost m f field vres fuel dir (dp_truncate (Steered p0) last)) as [c0| | |] eqn:E; try discriminate. cbn [bind]. intros E'.
    assert (p = dp_truncate (Steered p0) last /\ c = c0) as [-> ->] by (split; congruence). cbn [dp_truncate] in *. eapply steer_cost_ok; [|exact E]. reflexivity.
Qed.

Lemma rs_child_cost fuel s t p c : rs_child m f field vres validate goal fuel s = Ok (Some (t, p, c)) -> cost_ok fuel p c.
Proof.
  unfold rs_child. destruct (optimal_path_spec (hs_pose s) goal (hp_radius m) (hp_reverse m) (hp_forward m) (hp_switching m) Hr)
    as (w & g & k & E & _ & O & _ & _ & Ec & _). rewrite E. cbn [bind]. set (q := rs_new _ _ _) in *.
  destruct (offered_goal _ _ _ _ _ Hr O) as (l & Hg & Hn & _).
  destruct (validate _) as [[ok last]| | |]; try discriminate. cbn [bind]. destruct ok; [|discriminate]. cbn [negb].
  destruct (state_of_path m _) as [ch| | |]; try discriminate. cbn [bind].
  destruct (voronoi_cost m f field vres fuel (Connected q)) as [v| | |] eqn:Ev; try discriminate. cbn [bind].
  rewrite Ec. intros E'. assert (p = Connected q /\ c = Some (k + v)) as [-> ->] by (split; cbn in E'; congruence).
  exists k, v. split; [|auto]. exists l. split; [exact Hg|]. split; [exact Hn|].
  unfold rs_cost in Ec. cbn [q_segment q_radius q rs_new] in Ec. rewrite (g_cost_spec g l _ _ _ _ Hg Hn Hc) in Ec. cbn [q_radius q rs_new]. congruence.
Qed.

Lemma steer_children_cost fuel s : forall ds l, steer_children m f field vres validate fuel s ds = Ok l -> forall t p c, In (t, p, c) l -> cost_ok fuel p c.
Proof.
  induction ds as [|d ds IH]; intros l E t p c I; cbn [steer_children] in E; [injection E as <-; destruct I|].
  destruct (steer_child m f field vres validate fuel s d Forward) as [a| | |] eqn:Ea; try discriminate. cbn [bind] in E.
  destruct (steer_child m f field vres validate fuel s d Backward) as [b| | |] eqn:Eb; try discriminate. cbn [bind] in E.
  destruct (steer_children m f field vres validate fuel s ds) as [l'| | |] eqn:El; try discriminate. cbn [bind] in E.
  assert (l = opt_list a ++ opt_list b ++ l') as -> by congruence. rewrite !in_app_iff in I. destruct I as [I|[I|I]].
  - destruct a as [x|]; [destruct I as [I|[]]|destruct I]. subst x. eapply steer_child_cost; eauto.
  - destruct b as [x|]; [destruct I as [I|[]]|destruct I]. subst x. eapply steer_child_cost; eauto.
  - eapply IH; eauto.
Qed.

Lemma neighbors_cost fuel g s l g' : neighbors m f field vres validate heur Rng draw goal fuel g s = Ok (l, g') -> forall t p c, In (t, p, c) l -> cost_ok fuel p c.
Proof.
  unfold neighbors. destruct (steer_children m f field vres validate fuel s (deltas m)) as [l0| | |] eqn:El; try discriminate. cbn [bind].
  pose proof (steer_children_cost fuel s _ _ El) as H0. destruct (heur (hs_pose s)) as [hv| | |]; try discriminate. cbn [bind].
  destruct (try_connection Rng draw g hv) as [try g1]. destruct try.
  - destruct (rs_child m f field vres validate goal fuel s) as [c0| | |] eqn:Ec; try discriminate. cbn [bind]. intros E. assert (l = l0 ++ opt_list c0) as -> by congruence.
    intros t p c I. apply in_app_iff in I as [I|I]; [eauto|]. destruct c0 as [x|]; [destruct I as [I|[]]|destruct I]. subst x. eapply rs_child_cost; eauto.
  - intros E. assert (l = l0) as -> by congruence. exact H0.
Qed.
End Costs.
