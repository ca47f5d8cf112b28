(** Property C106 of the smoother. *)
From Coq Require Import Reals Lra Psatz.
From Verif Require Import Base RealBase Grid_model Coords_model Coords_proofs Straight_model Smoother_model SmootherGrad_model
  SmootherGrad_spec SmootherGrad_proofs SmootherSum_proofs SmootherDescent_spec SmootherDescent_proofs.
From Coq Require Import ZifyBool ZifyNat ZifyN.
Local Open Scope R_scope.

(** C106. With the weight on smoothness alone and a learning rate of at most an eighth of its inverse, the smoothed path
    bends no more than the given path, whatever the cusps, the map and the number of iterations. *)
Theorem C106_bends_less :
  forall T (p : sparams) f no ne (valid : point * T -> res bool) maxIterations tolerance fuel old path cusp s out,
  w_path p = 0 -> w_voronoi p = 0 -> w_collision p = 0 -> w_curvature p = 0 ->
  0 < w_smooth p -> 0 <= learning_rate p -> learning_rate p * w_smooth p <= 1 / 8 -> 0 <= tolerance ->
  run p f no ne valid maxIterations tolerance fuel true old path cusp = Ok (s, out) ->
  bend_energy (map fst out) <= bend_energy (map fst path).
Proof.
  intros * Wp Wv Wc Wk Hw He Hb Ht E.
  destruct (run_descent T p f no ne (conj Wp (conj Wv (conj Wc Wk))) maxIterations tolerance valid fuel true old path cusp s out) as [I _];
    auto; try lra.
  apply Rmult_le_reg_l with (w_smooth p); auto.
Qed.
Print Assumptions C106_bends_less.

(** If the bound on the number of iterations is the reason to stop, every iteration but the last made the path bend less by
    an amount that depends on the tolerance only: ... *)
Theorem C106_progress :
  forall T (p : sparams) f no ne (valid : point * T -> res bool) maxIterations tolerance fuel old path cusp out,
  w_path p = 0 -> w_voronoi p = 0 -> w_collision p = 0 -> w_curvature p = 0 ->
  0 < w_smooth p -> 0 <= learning_rate p -> learning_rate p * w_smooth p <= 1 / 8 -> 0 <= tolerance -> (0 <= maxIterations)%Z ->
  run p f no ne valid maxIterations tolerance fuel true old path cusp = Ok (MaxIteration, out) ->
  IZR (maxIterations - 1) * (2 * learning_rate p * (1 - 8 * (learning_rate p * w_smooth p)) * (tolerance * tolerance))
  <= w_smooth p * (bend_energy (map fst path) - bend_energy (map fst out)).
Proof.
  intros * Wp Wv Wc Wk Hw He Hb Ht Hm E.
  destruct (run_descent T p f no ne (conj Wp (conj Wv (conj Wc Wk))) maxIterations tolerance valid fuel true old path cusp MaxIteration out) as [_ I];
    auto; try lra.
  specialize (I eq_refl Hm). lra.
Qed.
Print Assumptions C106_progress.

(** ... so that with enough iterations the smoother stops because the gradients are below the tolerance. *)
Theorem C106_converges :
  forall T (p : sparams) f no ne (valid : point * T -> res bool) maxIterations tolerance fuel old path cusp s out,
  w_path p = 0 -> w_voronoi p = 0 -> w_collision p = 0 -> w_curvature p = 0 ->
  0 < w_smooth p -> 0 <= learning_rate p -> learning_rate p * w_smooth p <= 1 / 8 -> 0 <= tolerance -> (0 <= maxIterations)%Z ->
  w_smooth p * bend_energy (map fst path) <
    IZR (maxIterations - 1) * (2 * learning_rate p * (1 - 8 * (learning_rate p * w_smooth p)) * (tolerance * tolerance)) ->
  run p f no ne valid maxIterations tolerance fuel true old path cusp = Ok (s, out) -> s <> MaxIteration.
Proof.
  intros * Wp Wv Wc Wk Hw He Hb Ht Hm Big E ->.
  pose proof (C106_progress T p f no ne valid maxIterations tolerance fuel old path cusp out Wp Wv Wc Wk Hw He Hb Ht Hm E) as P.
  assert (N : forall l, 0 <= bend_energy l).
  { intros l. induction l as [|a l IH]; [cbn; lra|]. destruct l as [|b [|c l]]; [cbn; lra|cbn; lra|].
    change (bend_energy (a :: b :: c :: l)) with (bend a b c + bend_energy (b :: c :: l)).
    pose proof (length2_pos (fst a - 2 * fst b + fst c, snd a - 2 * snd b + snd c)). unfold bend. lra. }
  pose proof (N (map fst out)). assert (0 <= w_smooth p * bend_energy (map fst out)) by (apply Rmult_le_pos; lra). lra.
Qed.
Print Assumptions C106_converges.

(** ** Runs *)
Definition free : frames := Frames 1 0 0 (0, 0) (0, 0) (0, 0).
Definition smoothness (rate : R) : sparams := SParams 0 1 0 0 0 10 rate 1 20 30.
(** A path with one sample beside the line. *)
Definition bump (y : R) : list (point * unit) := [((0, 0), tt); ((1, 0), tt); ((2, y), tt); ((3, 0), tt); ((4, 0), tt)].

Lemma bump_energy y : bend_energy (map fst (bump y)) = 6 * y * y.
Proof. cbn. unfold bend, length2. cbn. ring. Qed.

Lemma bump_gradients rate y0 y : -1 < y < 2 ->
  accumulate_all point unit point (local_terms (smoothness rate) free (fun _ => UB) (fun _ => UB)) (curvature_term 0 10)
    (bump y0) (bump y) (repeat (0, 0) 5) [2%Z] = Ok [(0, 0); (0, 0); (0, 6 * y); (0, 0); (0, 0)].
Proof.
  intros Hy. cbn [accumulate_all]. unfold accumulate, bump. cbn -[local_terms curvature_term].
  change (Pos.to_nat 1) with 1%nat. change (Pos.to_nat 2) with 2%nat. change (Pos.to_nat 3) with 3%nat. change (Pos.to_nat 4) with 4%nat.
  cbn -[local_terms curvature_term].
  assert (I : inside_position free (2, y) = Ok false).
  { unfold inside_position, world_to_cell, grid_to_cell. cbn [free fr_world_grid fr_res fst snd].
    replace ((2 - 0) / 1) with (IZR 2) by field. replace ((y - 0) / 1) with y by field.
    rewrite cast_IZR by (unfold is_int, int_min, int_max; lia). cbn [bind].
    assert (cast_int y = Ok (Rtrunc y)) as ->.
    { apply cast_int_ok. split; auto. pose proof (proj2 (trunc_range y 2 eq_refl) Hy). unfold is_int, int_min, int_max. lia. }
    reflexivity. }
  assert (L : local_terms (smoothness rate) free (fun _ => UB) (fun _ => UB) (2, y0) (0, 0) (0, 0) (1, 0) (2, y) (3, 0) (4, 0) = Ok (0, 6 * y)).
  { unfold local_terms. rewrite I. cbn [bind smoothness w_path w_smooth]. unfold path_term, smoothing_term, scale, padd, psub. cbn [fst snd].
    f_equal. f_equal; ring. }
  rewrite L. cbn -[curvature_term].
  assert (N : 1 <= pnorm (psub (2, y) (1, 0))).
  { rewrite pnorm_length. rewrite <- sqrt_1 at 1. apply sqrt_le_1_alt. unfold length2, psub. cbn. nra. }
  assert (C : curvature_term 0 10 (1, 0) (2, y) (3, 0) ((0, 0), (0, 6 * y), (0, 0)) = Ok ((0, 0), (0, 6 * y), (0, 0))).
  { unfold curvature_term. destruct (Reqb_spec (pnorm (psub (2, y) (1, 0))) 0); [exfalso; lra|].
    set (c := clamp1 _). destruct (Rleb_spec (acos c / pnorm (psub (2, y) (1, 0))) 10) as [|G]; auto. exfalso. clearbody c.
    pose proof (acos_bound c). pose proof PI_4. apply Rlt_not_le in G. apply G. apply Rmult_le_reg_r with (pnorm (psub (2, y) (1, 0))); [lra|].
    unfold Rdiv. rewrite Rmult_assoc, Rinv_l by lra. nra. }
  unfold point in *. rewrite C. reflexivity.
Qed.

Lemma bump_max y : 0 <= y -> max_norm point pnorm [(0, 0); (0, 0); (0, 6 * y); (0, 0); (0, 0)] = 6 * y.
Proof.
  intros Hy. unfold max_norm. cbn [fold_left]. rewrite !pnorm_0.
  assert (pnorm (0, 6 * y) = 6 * y) as ->.
  { rewrite pnorm_length. unfold length2. cbn [fst snd]. replace (0 * 0 + 6 * y * (6 * y)) with ((6 * y) * (6 * y)) by ring. apply sqrt_square. lra. }
  unfold Rmax. repeat destruct (Rle_dec _ _); lra.
Qed.

Lemma bump_step rate fuel maxIterations tolerance count step y0 y : 0 <= y < 2 -> (count + 1 < maxIterations)%Z -> tolerance <= step ->
  iterate point unit point (0, 0) (local_terms (smoothness rate) free (fun _ => UB) (fun _ => UB)) (curvature_term 0 10) (move (smoothness rate)) pnorm
    maxIterations tolerance (S fuel) (bump y0) [2%Z] count step (bump y) =
  iterate point unit point (0, 0) (local_terms (smoothness rate) free (fun _ => UB) (fun _ => UB)) (curvature_term 0 10) (move (smoothness rate)) pnorm
    maxIterations tolerance fuel (bump y0) [2%Z] (count + 1) (6 * y) (bump ((1 - 6 * rate) * y)).
Proof.
  intros Hy Hm Hs. cbn [iterate]. replace (count + 1 >=? maxIterations)%Z with false by lia.
  destruct (Rltb_spec step tolerance); [exfalso; lra|]. change (length (bump y0)) with 5%nat.
  pose proof (bump_gradients rate y0 y ltac:(lra)) as G. unfold point in *. rewrite G. cbn [bind]. rewrite bump_max by lra. f_equal.
  unfold apply_all, bump, move, psub, scale. cbn [map combine fst snd smoothness learning_rate]. repeat (f_equal; try ring).
Qed.

(** The hypotheses of C106 are met: three steps straighten the bump, and 200 iterations are enough for the tolerance 1. *)
Example C106_run : exists out,
  run (smoothness (1 / 10)) free (fun _ => UB) (fun _ => UB) (fun _ => Ok true) 200 1 10 true [] (bump 1) (fun _ => false) = Ok (StepTolerance, out) /\
  bend_energy (map fst out) < bend_energy (map fst (bump 1)) / 100 /\
  1 / 10 * 1 <= 1 / 8 /\
  1 * bend_energy (map fst (bump 1)) < IZR (200 - 1) * (2 * (1 / 10) * (1 - 8 * (1 / 10 * 1)) * (1 * 1)).
Proof.
  exists (bump (8 / 125)). split; [|rewrite !bump_energy; cbn; lra].
  unfold run, smooth. cbn [negb bump length Z.of_nat]. cbn [Z.ltb Z.compare Pos.compare Pos.compare_cont Pos.of_succ_nat Pos.succ].
  change (select 5 (fun _ : Z => false) 5 0) with (Ok [2%Z]). cbn [bind]. cbn [smoothness w_curvature max_curvature].
  change [((0, 0), tt); ((1, 0), tt); ((2, 1), tt); ((3, 0), tt); ((4, 0), tt)] with (bump 1).
  rewrite bump_step by (lra || lia). rewrite bump_step by (lra || lia). rewrite bump_step by (lra || lia).
  cbn [iterate]. destruct (Rltb_spec (6 * ((1 - 6 * (1 / 10)) * ((1 - 6 * (1 / 10)) * 1))) 1) as [|N]; [|exfalso; lra].
  cbn [Z.add Z.geb Z.compare Z.opp Z.pos_sub Pos.pred_double Pos.compare Pos.compare_cont Pos.add Pos.succ bind is_path_safe bump negb].
  f_equal. f_equal. repeat (f_equal; try lra).
Qed.

(** The bound on the rate is needed: with half the inverse of the weight the path bends more. *)
Example C106_large_rate : exists out,
  run (smoothness (1 / 2)) free (fun _ => UB) (fun _ => UB) (fun _ => Ok true) 1 1 10 true [] (bump 1) (fun _ => false) = Ok (MaxIteration, out) /\
  bend_energy (map fst out) > bend_energy (map fst (bump 1)).
Proof.
  exists (bump (-2)). split; [|rewrite !bump_energy; lra].
  unfold run, smooth. cbn [negb bump length Z.of_nat]. cbn [Z.ltb Z.compare Pos.compare Pos.compare_cont Pos.of_succ_nat Pos.succ].
  change (select 5 (fun _ : Z => false) 5 0) with (Ok [2%Z]). cbn [bind]. cbn [smoothness w_curvature max_curvature].
  change [((0, 0), tt); ((1, 0), tt); ((2, 1), tt); ((3, 0), tt); ((4, 0), tt)] with (bump 1).
  rewrite bump_step by (lra || lia).
  cbn [iterate Z.add Z.geb Z.compare Z.opp Z.pos_sub Pos.pred_double Pos.compare Pos.compare_cont Pos.add Pos.succ bind is_path_safe bump negb].
  f_equal. f_equal. repeat (f_equal; try lra).
Qed.
