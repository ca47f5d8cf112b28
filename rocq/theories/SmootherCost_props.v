(** Properties C107, C108 and C109 of the smoother. *)
From Coq Require Import Reals Lra Psatz Relation_Operators.
From Verif Require Import Base RealBase Grid_model Coords_model Coords_proofs Straight_model Smoother_model Smoother_spec SmootherGrad_model
  SmootherGrad_spec SmootherGrad_proofs SmootherCost_spec SmootherSum_proofs SmootherCost_proofs SmootherDescent_props Planner_model.
From Coq Require Import ZifyBool ZifyNat ZifyN.
Local Open Scope R_scope.

(** C107. With the parameters [s] and the safety distance [minSafe] of the validator, the samples reach their places by steps of
    gradient descent on one cost. *)
Theorem C107_gradient_descent :
  forall T s minSafe f no ne (valid : point * T -> res bool) maxIterations tolerance fuel old path cusp st out,
  0 <= sm_voronoi s ->
  run (gradient_params s minSafe) f no ne valid maxIterations tolerance fuel true old path cusp = Ok (st, out) ->
  clos_refl_trans _
    (descends (sm_path s) (sm_smooth s) (sm_voronoi s) (sm_collision s) (sm_curvature s) (sm_max s) (minSafe * (1 + sm_ratio s)) (sm_rate s)
      f no ne (Z.of_nat (length path)) cusp (sample path))
    (sample path) (sample out).
Proof. intros * Hv E. exact (proj1 (run_descends T (gradient_params s minSafe) f no ne eq_refl eq_refl Hv path cusp _ _ valid fuel old st out E)). Qed.
Print Assumptions C107_gradient_descent.

(** If the step tolerance is the reason to stop, all gradients of the last step are shorter. *)
Theorem C107_last_gradient :
  forall T s minSafe f no ne (valid : point * T -> res bool) maxIterations tolerance fuel old path cusp out,
  0 <= sm_voronoi s ->
  run (gradient_params s minSafe) f no ne valid maxIterations tolerance fuel true old path cusp = Ok (StepTolerance, out) ->
  exists X G,
    clos_refl_trans _
      (descends (sm_path s) (sm_smooth s) (sm_voronoi s) (sm_collision s) (sm_curvature s) (sm_max s) (minSafe * (1 + sm_ratio s)) (sm_rate s)
        f no ne (Z.of_nat (length path)) cusp (sample path)) (sample path) X /\
    descent_step (sm_path s) (sm_smooth s) (sm_voronoi s) (sm_collision s) (sm_curvature s) (sm_max s) (minSafe * (1 + sm_ratio s)) (sm_rate s)
      f no ne (Z.of_nat (length path)) cusp (sample path) X G (sample out) /\
    forall i, (0 <= i < Z.of_nat (length path))%Z -> gap (0, 0) (G i) < tolerance.
Proof.
  intros * Hv E. destruct (run_descends T (gradient_params s minSafe) f no ne eq_refl eq_refl Hv path cusp _ _ valid fuel old _ out E) as [_ K].
  destruct (K eq_refl) as (X & G & A & B & C). exists X, G. split; [exact A|]. split; [exact B|]. intros i Hi.
  rewrite gap_pnorm. replace (psub (G i) (0, 0)) with (G i); [now apply C|]. destruct (G i). unfold psub. cbn. f_equal; ring.
Qed.
Print Assumptions C107_last_gradient.

(** A path on a map with an obstacle beside it, where the cost is differentiable. *)
Definition map10 : frames := Frames 1 10 10 (0, 0) (0, 0) (0, 0).
Definition lane (y : R) : list (point * unit) := [((1, 1), tt); ((2, 1), tt); ((3, y), tt); ((4, 1), tt); ((5, 1), tt)].

Lemma gap_value a b d : 0 <= d -> length2 (psub b a) = d * d -> gap a b = d.
Proof. intros Hd E. rewrite gap_pnorm, pnorm_length, E. now apply sqrt_square. Qed.

Lemma lane_moved j : moved 5 (fun _ => false) j = true -> j = 2%Z.
Proof. intros H. apply moved_optimized in H. destruct H as [H _]. lia. Qed.

Lemma lane_inside : inside_position map10 (3, 1) = Ok true /\ world_to_cell map10 (3, 1) true = Ok (Cell 3 1).
Proof.
  assert (W : world_to_cell map10 (3, 1) true = Ok (Cell 3 1)).
  { unfold world_to_cell, grid_to_cell. cbn [map10 fr_world_grid fr_res fst snd].
    replace ((3 - 0) / 1) with (IZR 3) by field. replace ((1 - 0) / 1) with (IZR 1) by field.
    rewrite !cast_IZR by (unfold is_int, int_min, int_max; lia). reflexivity. }
  split; auto. unfold inside_position. rewrite W. reflexivity.
Qed.

Lemma lane_gap : gap (2, 1) (3, 1) = 1 /\ gap (3, 1) (4, 1) = 1 /\ gap (3, 0) (3, 1) = 1 /\ gap (3, 4) (3, 1) = 3.
Proof. repeat split; apply gap_value; try lra; unfold length2, psub; cbn; ring. Qed.

Example C107_differentiable :
  let near := fun _ : Z => Some ((3, 0), (3, 4)) in
  (forall j, moved 5 (fun _ => false) j = true ->
    next_to map10 (fun _ => Ok (Cell 3 0)) (fun _ => Ok (Cell 3 4)) (sample (lane 1) j) (near j)) /\
  differentiable 10 5 (fun _ => false) near (sample (lane 1)) /\ moved 5 (fun _ => false) 2 = true.
Proof.
  cbn zeta. destruct lane_gap as (G1 & G2 & G3 & G4). split; [|split; [|reflexivity]].
  - intros j Hj. rewrite (lane_moved j Hj). destruct lane_inside as [I W]. change (sample (lane 1) 2) with (3, 1).
    exists (Cell 3 1), (Cell 3 0), (Cell 3 4). split; [exact I|]. split; [exact W|]. split; [reflexivity|]. split; [reflexivity|].
    unfold cell_to_world, cell_to_grid, padd. cbn. split; f_equal; ring.
  - intros j Hj. rewrite (lane_moved j Hj). change (sample (lane 1) 2) with (3, 1). change (sample (lane 1) (2 - 1)) with (2, 1).
    change (sample (lane 1) (2 + 1)) with (4, 1). rewrite G1, G2, G3, G4. split; [lra|]. split; [lra|]. split; [|split; lra].
    unfold curvature, turn. rewrite G1. assert (A : forall c, acos c / 1 <> 10) by (intros c K; pose proof PI_4; pose proof (acos_bound c); lra). apply A.
Qed.

(** ** Samples near an obstacle *)
(** C108. Smoother::Parameters documents that samples nearer to an obstacle than [minSafe * (1 + ratio)] stay. They move. *)
Definition push : smoothing := Smoothing 1 1 (1 / 2) 0 0 0 1 0 1 10.

Lemma lane_terms : local_terms (gradient_params push 1) map10 (fun _ => Ok (Cell 3 0)) (fun _ => UB) (3, 1) (0, 0) (1, 1) (2, 1) (3, 1) (4, 1) (5, 1) = Ok (0, -1).
Proof.
  unfold local_terms. destruct lane_inside as [-> ->]. cbn [bind]. destruct lane_gap as (_ & _ & G3 & _).
  replace (cell_to_world map10 (Cell 3 0)) with (3, 0) by (unfold cell_to_world, cell_to_grid, padd; cbn; f_equal; ring).
  rewrite <- gap_pnorm, G3. cbn [gradient_params unsafe_radius vor_dmax w_voronoi w_path w_collision w_smooth push sm_path sm_smooth sm_voronoi sm_collision sm_ratio].
  destruct (Rltb_spec 1 (1 * (1 + 1))); [|exfalso; lra]. destruct (Reqb_spec 1 0); [exfalso; lra|]. cbn [bind].
  destruct (Rltb_spec 0 0); [exfalso; lra|]. rewrite Bool.andb_false_r. cbn [bind]. unfold collision_term. rewrite <- gap_pnorm, G3.
  unfold path_term, smoothing_term, scale, padd, psub. cbn [fst snd]. f_equal. f_equal; field.
Qed.

Lemma straight_curvature g : curvature_term 0 10 (2, 1) (3, 1) (4, 1) g = Ok g.
Proof.
  destruct g as [[a b] c]. unfold curvature_term. destruct lane_gap as (G1 & _). rewrite <- gap_pnorm, G1.
  destruct (Reqb_spec 1 0); [exfalso; lra|]. set (v := clamp1 _). pose proof (acos_bound v). pose proof PI_4.
  destruct (Rleb_spec (acos v / 1) 10) as [|N]; auto. exfalso. lra.
Qed.

Lemma lane_run : run (gradient_params push 1) map10 (fun _ => Ok (Cell 3 0)) (fun _ => UB) (fun _ => Ok true) (sm_iterations push) (sm_tolerance push) 5
    true [] (lane 1) (fun _ => false) = Ok (MaxIteration, lane (3 / 2)).
Proof.
  unfold run, smooth. cbn [negb lane length Z.of_nat]. cbn [Z.ltb Z.compare Pos.compare Pos.compare_cont Pos.of_succ_nat Pos.succ].
  change (select 5 (fun _ : Z => false) 5 0) with (Ok [2%Z]). cbn [bind push sm_iterations sm_tolerance iterate].
  change (-1 + 1 >=? 1)%Z with false. destruct (Rltb_spec 1 1); [exfalso; lra|]. cbn [length repeat accumulate_all].
  unfold accumulate. cbn -[local_terms curvature_term apply_all max_norm gradient_params].
  change (Pos.to_nat 1) with 1%nat. change (Pos.to_nat 2) with 2%nat. change (Pos.to_nat 3) with 3%nat. change (Pos.to_nat 4) with 4%nat.
  cbn -[local_terms curvature_term apply_all max_norm gradient_params].
  pose proof lane_terms as L. unfold point in *. rewrite L. cbn [bind].
  change (w_curvature (gradient_params push 1)) with 0. change (max_curvature (gradient_params push 1)) with 10.
  rewrite straight_curvature. cbn [bind]. unfold apply_all, lane, move, psub, scale.
  cbn [map combine fst snd bind is_path_safe negb gradient_params push learning_rate sm_rate]. f_equal. f_equal. repeat (f_equal; try lra).
Qed.

Theorem C108_unsafe_sample_stays_refuted :
  exists s minSafe f no ne (valid : point * unit -> res bool) fuel path st out k c o,
  run (gradient_params s minSafe) f no ne valid (sm_iterations s) (sm_tolerance s) fuel true [] path (fun _ => false) = Ok (st, out) /\ (0 <= code st)%Z /\
  world_to_cell f (sample path k) true = Ok c /\ no c = Ok o /\
  gap (cell_to_world f o) (sample path k) < minSafe * (1 + sm_ratio s) /\ sample out k <> sample path k.
Proof.
  exists push, 1, map10, (fun _ => Ok (Cell 3 0)), (fun _ => UB), (fun _ => Ok true), 5%nat, (lane 1), MaxIteration, (lane (3 / 2)), 2%Z, (Cell 3 1), (Cell 3 0).
  split; [apply lane_run|]. split; [cbn; lia|]. change (sample (lane 1) 2) with (3, 1). split; [apply lane_inside|]. split; [reflexivity|].
  destruct lane_gap as (_ & _ & G3 & _).
  replace (cell_to_world map10 (Cell 3 0)) with (3, 0) by (unfold cell_to_world, cell_to_grid, padd; cbn; f_equal; ring).
  rewrite G3. cbn [push sm_ratio]. split; [lra|]. change (sample (lane (3 / 2)) 2) with (3, 3 / 2). intros [= K]. lra.
Qed.
Print Assumptions C108_unsafe_sample_stays_refuted.

(** What holds: the term moves a sample straight away from the obstacle [o], by the share [rate * w] of what is missing; ... *)
Theorem C108_unsafe_sample_moves_away_partial :
  forall w r rate o x, 0 < gap o x < r -> 0 <= rate * w ->
  gap o (psub x (scale rate (collision_term w r (psub x o)))) = gap o x + rate * w * (r - gap o x).
Proof.
  intros w r rate o x H Hr. set (d := gap o x) in *.
  assert (E : psub (psub x (scale rate (collision_term w r (psub x o)))) o = scale (1 + rate * w * (r - d) / d) (psub x o)).
  { unfold collision_term. rewrite <- gap_pnorm. fold d. unfold psub, scale. cbn [fst snd]. f_equal; field; lra. }
  apply gap_value.
  - assert (0 <= rate * w * (r - d)) by (apply Rmult_le_pos; lra). lra.
  - rewrite E. assert (L : length2 (psub x o) = d * d) by (rewrite <- pnorm_sq; reflexivity).
    replace (length2 (scale (1 + rate * w * (r - d) / d) (psub x o))) with ((1 + rate * w * (r - d) / d) * (1 + rate * w * (r - d) / d) * length2 (psub x o))
      by (unfold length2, scale; cbn [fst snd]; ring).
    rewrite L. field. lra.
Qed.
Print Assumptions C108_unsafe_sample_moves_away_partial.

(** ... and a sample on the map that is far enough gets none of it: its gradient does not depend on the weight. *)
Theorem C108_safe_sample_partial :
  forall p w f no ne orig g0 xm2 xm1 x xp1 xp2 c o,
  inside_position f x = Ok true -> world_to_cell f x true = Ok c -> no c = Ok o -> unsafe_radius p <= gap (cell_to_world f o) x ->
  local_terms (SParams (w_path p) (w_smooth p) (w_voronoi p) w (w_curvature p) (max_curvature p) (learning_rate p) (unsafe_radius p) (vor_alpha p) (vor_dmax p))
    f no ne orig g0 xm2 xm1 x xp1 xp2 = local_terms p f no ne orig g0 xm2 xm1 x xp1 xp2.
Proof.
  intros * I W N L. unfold local_terms. rewrite I, W. cbn [bind]. rewrite N. cbn [bind w_path w_smooth w_voronoi w_collision unsafe_radius vor_alpha vor_dmax].
  rewrite <- gap_pnorm. destruct (Rltb_spec (gap (cell_to_world f o) x) (unsafe_radius p)); [exfalso; lra|]. reflexivity.
Qed.
Print Assumptions C108_safe_sample_partial.

(** ** The tolerance *)
Lemma bump_run rate maxIterations tolerance : tolerance <= 6 -> (1 <= maxIterations <= 2)%Z -> 0 <= rate <= 1 / 6 ->
  run (smoothness rate) free (fun _ => UB) (fun _ => UB) (fun _ => Ok true) maxIterations tolerance 10 true [] (bump 1) (fun _ => false) =
  Ok (MaxIteration, bump (if (maxIterations =? 1)%Z then (1 - 6 * rate) * 1 else (1 - 6 * rate) * ((1 - 6 * rate) * 1))).
Proof.
  intros Ht Hm Hr. unfold run, smooth. cbn [negb bump length Z.of_nat]. cbn [Z.ltb Z.compare Pos.compare Pos.compare_cont Pos.of_succ_nat Pos.succ].
  change (select 5 (fun _ : Z => false) 5 0) with (Ok [2%Z]). cbn [bind]. cbn [smoothness w_curvature max_curvature].
  change [((0, 0), tt); ((1, 0), tt); ((2, 1), tt); ((3, 0), tt); ((4, 0), tt)] with (bump 1).
  rewrite bump_step by (lra || lia). destruct (Z.eqb_spec maxIterations 1) as [->|N].
  - cbn [iterate]. change (-1 + 1 + 1 >=? 1)%Z with true. reflexivity.
  - assert (maxIterations = 2%Z) as -> by lia. rewrite bump_step by (lra || lia). cbn [iterate]. change (-1 + 1 + 1 + 1 >=? 2)%Z with true. reflexivity.
Qed.

(** C109. Smoother::Parameters documents that the iterations end at a step smaller than the tolerance. They go on: no sample moves by
    the tolerance in the first iteration, and there is a second one. *)
Theorem C109_small_step_ends_refuted :
  exists p f no ne (valid : point * unit -> res bool) tolerance fuel path out1 out2 s1 s2,
  0 < learning_rate p /\ 0 < tolerance /\
  run p f no ne valid 1 tolerance fuel true [] path (fun _ => false) = Ok (s1, out1) /\
  run p f no ne valid 2 tolerance fuel true [] path (fun _ => false) = Ok (s2, out2) /\
  (forall k, gap (sample path k) (sample out1 k) < tolerance) /\ sample out2 2 <> sample out1 2.
Proof.
  exists (smoothness (1 / 10)), free, (fun _ => UB), (fun _ => UB), (fun _ => Ok true), 1, 10%nat, (bump 1).
  eexists _, _, _, _. split; [cbn; lra|]. split; [lra|]. split; [apply bump_run; (lra || lia)|]. split; [apply bump_run; (lra || lia)|].
  cbn [Z.eqb Pos.eqb]. split.
  - intros k. unfold sample. destruct (Z.to_nat k) as [|[|[|[|[|n]]]]]; cbn [nth_error bump fst].
    all: try (replace (gap _ _) with 0; [lra|]; symmetry; apply gap_value; [lra|]; unfold length2, psub; cbn; ring).
    replace (gap _ _) with (6 / 10); [lra|]. symmetry. apply gap_value; [lra|]. unfold length2, psub. cbn. field.
  - unfold sample, bump. cbn. intros [= K]. lra.
Qed.
Print Assumptions C109_small_step_ends_refuted.

(** What holds: if the tolerance is the reason to stop, no sample moved by as much as the learning rate times the tolerance in the last
    iteration. *)
Theorem C109_last_step_partial :
  forall T s minSafe f no ne (valid : point * T -> res bool) maxIterations tolerance fuel old path cusp out,
  0 <= sm_voronoi s -> 0 < sm_rate s ->
  run (gradient_params s minSafe) f no ne valid maxIterations tolerance fuel true old path cusp = Ok (StepTolerance, out) ->
  exists X,
    clos_refl_trans _
      (descends (sm_path s) (sm_smooth s) (sm_voronoi s) (sm_collision s) (sm_curvature s) (sm_max s) (minSafe * (1 + sm_ratio s)) (sm_rate s)
        f no ne (Z.of_nat (length path)) cusp (sample path)) (sample path) X /\
    forall i, (0 <= i < Z.of_nat (length path))%Z -> gap (X i) (sample out i) < sm_rate s * tolerance.
Proof.
  intros * Hv Hr E. destruct (C107_last_gradient T s minSafe f no ne valid maxIterations tolerance fuel old path cusp out Hv E) as (X & G & A & [B _] & C).
  exists X. split; auto. intros i Hi. specialize (C i Hi). rewrite (B i Hi). replace (gap (X i) _) with (sm_rate s * gap (0, 0) (G i)).
  - apply Rmult_lt_compat_l; auto.
  - symmetry. apply gap_value; [apply Rmult_le_pos; [lra|apply sqrt_pos]|].
    replace (sm_rate s * gap (0, 0) (G i) * (sm_rate s * gap (0, 0) (G i))) with (sm_rate s * sm_rate s * (gap (0, 0) (G i) * gap (0, 0) (G i))) by ring.
    rewrite gap_pnorm, pnorm_sq. unfold length2, psub. cbn [fst snd]. ring.
Qed.
Print Assumptions C109_last_step_partial.
