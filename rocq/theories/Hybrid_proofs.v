(** Hybrid A*: the graph search. *)
From Coq Require Import Reals Lra.
From Verif Require Import Base RealBase Grid_model Coords_model Pose_model Pose_spec Pose_proofs Straight_model Straight_spec Straight_proofs Bicycle_model Bicycle_spec Bicycle_proofs
  Composite_model Rs_model Rs_spec RsSolver_proofs Validator_model Frontier_model Frontier_spec AStar_model AStar_spec AStar_proofs Hybrid_model Hybrid_spec.
From Coq Require Import ZifyBool ZifyNat ZifyN.
Local Open Scope R_scope.

(** ** Costs *)
Lemma x_swo : strict_weak_order xreal x_ltb.
Proof.
  split.
  - intros [a|]; cbn; auto. destruct (Rltb_spec a a); auto. exfalso; lra.
  - intros [a|] [b|] [c|]; cbn; try discriminate; auto. destruct (Rltb_spec a b), (Rltb_spec b c), (Rltb_spec a c); auto; exfalso; lra.
  - intros [a|] [b|] [c|]; cbn; try discriminate; auto. destruct (Rltb_spec a b), (Rltb_spec b c), (Rltb_spec a c); auto; try discriminate; exfalso; lra.
Qed.

Lemma ipose_eqb_eq a b : ipose_eqb a b = true <-> a = b.
Proof.
  destruct a as [x y t], b as [x' y' t']. unfold ipose_eqb. cbn [ix iy ith]. rewrite !Bool.andb_true_iff, !Z.eqb_eq. split; [intros [[-> ->] ->]; auto|intros E; injection E; auto].
Qed.
Lemma hs_equiv : equivalence hstate hs_eqb.
Proof.
  unfold hs_eqb. split.
  - intros a. now apply ipose_eqb_eq.
  - intros a b. destruct (ipose_eqb (hs_cell a) (hs_cell b)) eqn:E1, (ipose_eqb (hs_cell b) (hs_cell a)) eqn:E2; auto;
      rewrite ?ipose_eqb_eq in *; rewrite <- ?Bool.not_true_iff_false, ipose_eqb_eq in *; congruence.
  - intros a b c. rewrite !ipose_eqb_eq. congruence.
Qed.

(** ** Transitions *)
Section Search.
Variable m : params.
Variable f : frames.
Variable field : cell -> res (option R).
Variable vres : R.
Variable validate : path -> res (bool * R).
Variable heur : pose -> res xreal.
Variable Rng : Type.
Variable draw : Rng -> R * Rng.
Variable goal : pose.
Notation steer_child := (steer_child m f field vres validate).
Notation rs_child := (rs_child m f field vres validate goal).
Notation steer_children := (steer_children m f field vres validate).
Notation neighbors := (neighbors m f field vres validate heur Rng draw goal).
Notation h_succ := (h_succ m f field vres validate heur Rng draw goal).
Notation graph_search := (graph_search m f field vres validate heur Rng draw goal).

(** What is known about a transition to [t] by [p]. *)
Definition transition (s : hstate) (p : drive_path) (t : hstate) : Prop :=
  hs_pose t = dp_final p /\ discretize m (hs_pose t) = Ok (hs_cell t) /\ dp_init p = hs_pose s /\ accepted validate p /\
  ((exists c delta dir r, p = Steered c /\ In delta (deltas m) /\ (dir = Forward \/ dir = Backward) /\
     c_new (hp_model m) (hs_pose s) delta (hp_res m * (3 / 2)) dir = r /\
     ((c = r /\ exists q, validate (as_path (Steered r)) = Ok (true, q)) \/
      exists q, validate (as_path (Steered r)) = Ok (false, q) /\ c = c_truncate r q /\ hs_eqb s t = false)) \/
   (exists g, optimal_path (hs_pose s) goal (hp_radius m) (hp_reverse m) (hp_forward m) (hp_switching m) = Ok g /\
     p = Connected (rs_new (hs_pose s) g (hp_radius m)) /\ exists q, validate (as_path p) = Ok (true, q))).

Lemma steer_child_spec fuel s delta dir t p c : In delta (deltas m) -> dir = Forward \/ dir = Backward ->
  steer_child fuel s delta dir = Ok (Some (t, p, c)) -> transition s p t.
Proof.
  intros Hd Hdir. unfold Hybrid_model.steer_child. set (p0 := Steered _). unfold state_of_path.
  destruct (discretize m (dp_final p0)) as [cell| | |] eqn:Ec; try discriminate. cbn [bind].
  destruct (validate (as_path p0)) as [[ok last]| | |] eqn:Ev; try discriminate. cbn [bind]. destruct ok.
  - destruct (steer_cost _ _ _ _ _ _ _) as [c0| | |]; try discriminate. cbn [bind]. intros E.
    assert (t = HState (dp_direction p0 1) cell (dp_final p0) /\ p = p0) as [-> ->] by (split; congruence).
    split; [reflexivity|]. split; [exact Ec|]. split; [reflexivity|]. split; [left; eauto|]. left. unfold p0. eexists _, delta, dir, _. split; [reflexivity|]. split; [exact Hd|]. split; [exact Hdir|]. split; [reflexivity|]. left. eauto.
  - destruct (discretize m (dp_final (dp_truncate p0 last))) as [cell'| | |] eqn:Ec'; try discriminate. cbn [bind hs_dir].
    set (child := HState _ _ _). destruct (hs_eqb s child) eqn:Eq; [discriminate|].
    destruct (steer_cost _ _ _ _ _ _ _) as [c0| | |]; try discriminate. cbn [bind]. intros E.
    assert (t = child /\ p = dp_truncate p0 last) as [-> ->] by (split; congruence).
    split; [reflexivity|]. split; [exact Ec'|]. split; [reflexivity|]. split; [right; eauto|]. left. unfold p0. eexists _, delta, dir, _. split; [reflexivity|]. split; [exact Hd|].
    split; [exact Hdir|]. split; [reflexivity|]. right. exists last. split; [exact Ev|]. split; [reflexivity|exact Eq].
Qed.

Lemma rs_child_spec fuel s t p c : rs_child fuel s = Ok (Some (t, p, c)) -> transition s p t.
Proof.
  unfold Hybrid_model.rs_child. destruct (optimal_path _ _ _ _ _ _) as [g| | |] eqn:Eg; try discriminate. cbn [bind]. set (q := rs_new _ _ _).
  destruct (validate _) as [[ok last]| | |] eqn:Ev; try discriminate. cbn [bind]. destruct ok; [|discriminate]. cbn [negb].
  unfold state_of_path. destruct (discretize m _) as [cell| | |] eqn:Ec; try discriminate. cbn [bind].
  destruct (voronoi_cost _ _ _ _ _ _) as [v| | |]; try discriminate. cbn [bind]. intros E.
  assert (t = HState (dp_direction (Connected q) 1) cell (dp_final (Connected q)) /\ p = Connected q) as [-> ->] by (split; congruence).
  split; [reflexivity|]. split; [exact Ec|]. split; [reflexivity|]. split; [left; eauto|]. right. exists g. eauto.
Qed.

Lemma steer_children_spec fuel s : forall ds l, incl ds (deltas m) -> steer_children fuel s ds = Ok l -> forall t p c, In (t, p, c) l -> transition s p t.
Proof.
  induction ds as [|d ds IH]; intros l Hi E t p c I; cbn [Hybrid_model.steer_children] in E; [injection E as <-; destruct I|].
  destruct (steer_child fuel s d Forward) as [a| | |] eqn:Ea; try discriminate. cbn [bind] in E.
  destruct (steer_child fuel s d Backward) as [b| | |] eqn:Eb; try discriminate. cbn [bind] in E.
  destruct (steer_children fuel s ds) as [l'| | |] eqn:El; try discriminate. cbn [bind] in E.
  assert (l = opt_list a ++ opt_list b ++ l') as -> by congruence.
  rewrite !in_app_iff in I. assert (Hd : In d (deltas m)) by (apply Hi; now left). destruct I as [I|[I|I]].
  - destruct a as [[[t0 p0] c0]|]; [destruct I as [I|[]]|destruct I]. assert (t0 = t /\ p0 = p) as [-> ->] by (split; congruence). apply (steer_child_spec fuel s d Forward t p c0); auto.
  - destruct b as [[[t0 p0] c0]|]; [destruct I as [I|[]]|destruct I]. assert (t0 = t /\ p0 = p) as [-> ->] by (split; congruence). apply (steer_child_spec fuel s d Backward t p c0); auto.
  - apply (IH l' (fun x Hx => Hi x (or_intror Hx)) eq_refl t p c I).
Qed.

Lemma neighbors_spec fuel g s l g' : neighbors fuel g s = Ok (l, g') -> forall t p c, In (t, p, c) l -> transition s p t.
Proof.
  unfold Hybrid_model.neighbors. destruct (steer_children fuel s (deltas m)) as [l0| | |] eqn:El; try discriminate. cbn [bind].
  pose proof (steer_children_spec fuel s _ _ (incl_refl _) El) as H0.
  destruct (heur (hs_pose s)) as [hv| | |]; try discriminate. cbn [bind]. destruct (try_connection Rng draw g hv) as [try g1]. destruct try.
  - destruct (rs_child fuel s) as [c0| | |] eqn:Ec; try discriminate. cbn [bind]. intros E. assert (l = l0 ++ opt_list c0) as -> by congruence.
    intros t p c I. apply in_app_iff in I as [I|I]; [eauto|]. destruct c0 as [[[t0 p0] c0]|]; [destruct I as [I|[]]|destruct I].
    assert (t0 = t /\ p0 = p) as [-> ->] by (split; congruence). eapply rs_child_spec; eauto.
  - intros E. assert (l = l0) as -> by congruence. exact H0.
Qed.

Lemma succ_spec fuel g s t p c : In (t, p, c) (fst (h_succ fuel g s)) -> transition s p t.
Proof.
  unfold Hybrid_model.h_succ. destruct g as [g| | |]; try (intros []). destruct (neighbors fuel g s) as [[l g']| | |] eqn:E; try (intros []). cbn [bind].
  destruct (estimates_ok heur l) as [u| | |]; try (intros []). cbn [bind fst]. eapply neighbors_spec; eauto.
Qed.

(** ** C53 *)
Hypothesis Hr : 0 < hp_radius m.

Lemma transition_path s p t : transition s p t -> same_pose (dp_at p 0) (hs_pose s) /\ dp_at p 1 = hs_pose t /\ driveable m goal p.
Proof.
  intros (Et & _ & Ei & _ & [(c & delta & dir & c0 & -> & Hd & Hdir & <- & Hc)|(g & Eg & -> & _)]).
  - cbn [dp_at dp_init] in *. assert (B : cbuilt c) by (destruct Hc as [[-> _]|(q & _ & -> & _)]; constructor; constructor).
    rewrite c_at_0, Ei, <- c_built_final by auto. split; [split; [auto|split; [auto|]]; exists 0%Z; cbn; lra|]. split; [now rewrite Et|].
    cbn [driveable]. destruct Hc as [[-> _]|(q & _ & -> & _)]; cbn; auto.
  - destruct (optimal_path_spec (hs_pose s) goal (hp_radius m) (hp_reverse m) (hp_forward m) (hp_switching m) Hr) as (w & g' & c & E & _ & O & _ & Hq & _).
    assert (g' = g) as -> by congruence. destruct (offered_goal _ _ _ _ _ Hr O) as (l & Hg & _ & _ & _).
    destruct (rs_ends (hs_pose s) g l (hp_radius m) Hg Hr) as (H0 & H1 & _). cbn [dp_at]. split; [exact H0|]. split; [rewrite H1; symmetry; exact Et|].
    cbn [driveable]. split; [reflexivity|]. split; [exact Hq|]. exists g. auto.
Qed.

Lemma path_leads fuel : forall l s t, is_path (h_succ fuel) s l t ->
  leads (hs_pose s) (path_actions l) (hs_pose t) /\ Forall (accepted validate) (path_actions l) /\ Forall (driveable m goal) (path_actions l).
Proof.
  induction l as [|e l IH]; intros s t H; cbn [is_path] in H.
  - subst t. split; [reflexivity|]. split; constructor.
  - destruct H as [[g I] H]. apply succ_spec in I. destruct (transition_path _ _ _ I) as (H0 & H1 & H2). destruct (IH _ _ H) as (L & A & D).
    cbn [path_actions map leads]. split; [split; [exact H0|rewrite H1; exact L]|]. split; constructor; auto. apply I.
Qed.

Lemma identical_arrived a b : identical_poses a b = true -> arrived a b.
Proof.
  unfold identical_poses. rewrite Bool.andb_true_iff. intros [H1 H2]. apply Rltb_true in H1, H2. split; [|lra].
  rewrite distance_sym. exact H1.
Qed.

Lemma search_trans vfuel fuel init g n st : graph_search vfuel fuel init g = Ok (Some n, st) ->
  exists s l, hs_pose s = init /\ is_path (h_succ vfuel) s l (n_state n) /\ search_motions (Some n) = Ok (path_actions l) /\ identical_poses (hs_pose (n_state n)) goal = true.
Proof.
  unfold Hybrid_model.graph_search. unfold state_of_pose. destruct (discretize m init) as [ci| | |]; try discriminate. cbn [bind]. destruct (discretize m goal) as [cg| | |]; try discriminate. cbn [bind].
  destruct (search_path _ _ _ _ _ _ _ _ _ _ _ _) as [[sol st']| | |] eqn:E; try discriminate. cbn [bind].
  destruct (st_prop st'); try discriminate. cbn [bind]. intros K. assert (sol = Some n) as -> by congruence.
  apply (@search_sound _ _ _ _ _ _ _ _ dflt_path _ _ _ _ _ hs_equiv x_swo) in E as (l & Hp & Hs & _ & Ha & _).
  eexists _, l. split; [|split; [exact Hp|split; [exact Ha|exact Hs]]]. reflexivity.
Qed.

Lemma search_motions_spec vfuel fuel init g n st : graph_search vfuel fuel init g = Ok (Some n, st) ->
  exists l q, search_motions (Some n) = Ok l /\ leads init l q /\ arrived q goal /\ Forall (accepted validate) l /\ Forall (driveable m goal) l.
Proof.
  intros E. destruct (search_trans _ _ _ _ _ _ E) as (s & l & <- & Hp & Ha & Hs).
  destruct (path_leads vfuel l _ _ Hp) as (L & A & D). exists (path_actions l), (hs_pose (n_state n)). split; [exact Ha|]. split; [exact L|]. split; [|auto].
  apply identical_arrived. exact Hs.
Qed.
End Search.
