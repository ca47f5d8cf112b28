(** The planner as a whole. *)
From Coq Require Import Reals Lra.
From Verif Require Import Base RealBase Grid_model Grid_spec Coords_model Pose_model Pose_spec Pose_proofs Straight_model Straight_spec Straight_proofs ObstacleMap_model
  Shape_model Shape_spec Gvd_model Gvd_api_proofs PathCost_model Validator_model Validator_spec Validator_proofs
  World_model World_spec World_proofs WorldClear_proofs WorldPlan_proofs ObstHeur_model NonHol_model
  Smoother_model Smoother_spec Smoother_proofs SmootherGrad_model SmootherGrad_proofs
  AStar_model Composite_model Composite_spec Hybrid_model Hybrid_spec Hybrid_proofs HybridSample_proofs HybridPath_proofs HybridSafe_proofs HybridMap_proofs
  Planner_model Planner_spec.
From Verif Require Gvd_spec.
From Coq Require Import ZifyBool ZifyNat ZifyN.
Local Open Scope R_scope.

(** * More fuel *)
Lemma update_more top occ f : forall f' st r, (f <= f')%nat -> update top occ f st = Ok r -> update top occ f' st = Ok r.
Proof.
  induction f as [|f IH]; intros f' st r Hf E; cbn [update] in E.
  - destruct f'; cbn [update]; destruct (d_open (fst st)); auto; discriminate.
  - destruct f' as [|f']; [lia|]. cbn [update]. destruct (d_open (fst st)); auto. destruct (update_step top occ st) as [st1| | |]; try discriminate.
    cbn [bind] in *. apply IH; auto. lia.
Qed.

Lemma g_step_more top topv f f' st o r : (f <= f')%nat -> g_step top topv f st o = Ok r -> g_step top topv f' st o = Ok r.
Proof.
  intros Hf. destruct o; cbn [g_step]; auto.
  - destruct (update top (g_occ st) f (g_obs st, g_vor st)) as [x| | |] eqn:E; try discriminate. rewrite (update_more _ _ _ _ _ _ Hf E). auto.
  - unfold on_voronoi. destruct (g_vor st) as [v|]; auto.
    destruct (update topv (g_occ st) f (v, None)) as [x| | |] eqn:E; try discriminate. rewrite (update_more _ _ _ _ _ _ Hf E). auto.
Qed.

Lemma g_run_more top topv f f' ops : (f <= f')%nat -> forall st r, g_run top topv f st ops = Ok r -> g_run top topv f' st ops = Ok r.
Proof.
  intros Hf. unfold g_run. induction ops as [|o ops IH]; intros st r; cbn [fold_res]; auto.
  destruct (g_step top topv f st o) as [st1| | |] eqn:E; try discriminate. rewrite (g_step_more _ _ _ _ _ _ _ Hf E). cbn [bind]. apply IH.
Qed.

Lemma wd_call_more top topv f f' w ops r : (f <= f')%nat -> wd_call top topv f w ops = Ok r -> wd_call top topv f' w ops = Ok r.
Proof.
  intros Hf. unfold wd_call. destruct (wd_dist w) as [g|]; auto. destruct (g_run top topv f g ops) as [x| | |] eqn:E; try discriminate.
  rewrite (g_run_more _ _ _ _ _ Hf _ _ E). auto.
Qed.

Lemma wd_step_more top topv f f' w x r : (f <= f')%nat -> wd_step top topv f w x = Ok r -> wd_step top topv f' w x = Ok r.
Proof.
  intros Hf. destruct x as [p|wdt hgt|o x|o x| | |]; cbn [wd_step]; auto; try (now apply wd_call_more).
  - unfold wd_add. destruct (om_matrix (wd_map w)); auto. destruct (lookup o (om_obs (wd_map w))); auto. destruct (boundary_cells (wd_frames w) x) as [cells| | |]; auto. cbn [bind].
    destruct (om_add (wd_map w) o cells) as [[m b]| | |]; auto. cbn [bind].
    match goal with |- rmap _ (bind (wd_call _ _ f ?a ?b) _) = _ -> _ => destruct (wd_call top topv f a b) as [w1| | |] eqn:E; try discriminate; rewrite (wd_call_more _ _ _ _ _ _ _ Hf E) end. auto.
  - unfold wd_remove. destruct (om_matrix (wd_map w)); auto. destruct (lookup o (om_obs (wd_map w))); auto. destruct (boundary_cells (wd_frames w) x) as [cells| | |]; auto. cbn [bind].
    destruct (om_remove (wd_map w) o cells) as [[m b]| | |]; auto. cbn [bind].
    match goal with |- rmap _ (bind (wd_call _ _ f ?a ?b) _) = _ -> _ => destruct (wd_call top topv f a b) as [w1| | |] eqn:E; try discriminate; rewrite (wd_call_more _ _ _ _ _ _ _ Hf E) end. auto.
Qed.

Lemma wd_run_more top topv f f' ops : (f <= f')%nat -> forall w r, wd_run top topv f w ops = Ok r -> wd_run top topv f' w ops = Ok r.
Proof.
  intros Hf. induction ops as [|x ops IH]; intros w r; cbn [wd_run]; auto.
  destruct (wd_step top topv f w x) as [w1| | |] eqn:E; try discriminate. rewrite (wd_step_more _ _ _ _ _ _ _ Hf E). cbn [bind]. apply IH.
Qed.

Lemma wd_run_app top topv fuel l : forall w r, wd_run top topv fuel w (l ++ r) = do w1 <- wd_run top topv fuel w l; wd_run top topv fuel w1 r.
Proof. induction l as [|x l IH]; intros w r; cbn; auto. destruct (wd_step top topv fuel w x); cbn; auto. Qed.

(** * The calls that reach the map *)
Lemma wd_call_dist top topv fuel w ops w' : wd_call top topv fuel w ops = Ok w' -> wd_dist w' <> None.
Proof. unfold wd_call. destruct (wd_dist w); [|discriminate]. destruct (g_run _ _ _ _ _); cbn [bind]; try discriminate. intros E. injection E as <-. easy. Qed.

Lemma wd_size_dist w a b w' : wd_size w a b = Ok w' -> wd_dist w' <> None.
Proof.
  unfold wd_size. destruct (fr_init _ _ _) as [f| | |]; try discriminate. cbn [bind]. destruct (om_init _ _ _) as [m| | |]; try discriminate. cbn [bind].
  destruct (om_matrix m); try discriminate. destruct (g_new _) as [g'| | |]; try discriminate. cbn [bind]. intros E. injection E as <-. easy.
Qed.

Lemma wd_step_dist top topv fuel w x w' : wd_step top topv fuel w x = Ok w' -> wd_dist w <> None -> wd_dist w' <> None.
Proof.
  destruct x as [p|wdt hgt|o x|o x| | |]; cbn [wd_step]; intros E H; try (now apply wd_call_dist in E).
  - now injection E as <-.
  - now apply wd_size_dist in E.
  - unfold wd_add in E. destruct (om_matrix (wd_map w)); try discriminate. destruct (lookup _ _); [cbn in E; now injection E as <-|].
    destruct (boundary_cells _ _) as [cells| | |]; try discriminate. cbn [bind] in E. destruct (om_add _ _ _) as [[m b]| | |]; try discriminate. cbn [bind] in E.
    match type of E with rmap _ (bind (wd_call _ _ _ ?a ?b) _) = _ => destruct (wd_call top topv fuel a b) as [w1| | |] eqn:E1 end; try discriminate. cbn in E.
    injection E as <-. now apply wd_call_dist in E1.
  - unfold wd_remove in E. destruct (om_matrix (wd_map w)); try discriminate. destruct (lookup _ _); [|cbn in E; now injection E as <-].
    destruct (boundary_cells _ _) as [cells| | |]; try discriminate. cbn [bind] in E. destruct (om_remove _ _ _) as [[m b]| | |]; try discriminate. cbn [bind] in E.
    match type of E with rmap _ (bind (wd_call _ _ _ ?a ?b) _) = _ => destruct (wd_call top topv fuel a b) as [w1| | |] eqn:E1 end; try discriminate. cbn in E.
    injection E as <-. now apply wd_call_dist in E1.
Qed.

Lemma detach_fields w p : pl_params (detach w p) = pl_params p /\ pl_init (detach w p) = pl_init p /\ pl_goal (detach w p) = pl_goal p /\
  pl_ready (detach w p) = pl_ready p /\ pl_smoothing (detach w p) = pl_smoothing p /\ pl_path (detach w p) = pl_path p.
Proof. unfold detach. destruct (pl_parts p) as [[v [|g] h o]|]; try tauto. destruct (wd_dist w); cbn; tauto. Qed.

Section Calls.
Variables top topv : nat -> list (cell * Z) -> nat.
Variable fuel : nat.
Variable Rng : Type.
Variable draw : Rng -> R * Rng.
Notation sy_step := (sy_step top topv fuel Rng draw).
Notation sy_run := (sy_run top topv fuel Rng draw).
Notation sy_search := (sy_search top topv fuel Rng draw).
Notation sy_initialize := (sy_initialize top topv fuel Rng).

(** How the planner refers to its map. *)
Definition flags (s : system Rng) (ready linked : bool) : Prop :=
  pl_ready (sy_planner s) = ready /\
  match pl_parts (sy_planner s) with
  | None => ready = false /\ linked = false
  | Some a => match pa_gvd a with OfMap => linked = true /\ wd_dist (sy_world s) <> None | Former _ => linked = false end
  end.

(** The effect of one call on the map, and the flags after it. *)
Definition map_call (ready linked : bool) (x : call) : list wop * (bool * bool) :=
  match x with
  | PMap (WSize width height) => ([WSize width height], (ready, false))
  | PMap x => ([x], (ready, linked))
  | PValidator lower upper => ([WSize (px upper - px lower) (py upper - py lower)], (ready, false))
  | PInitialize None => ([], (false, linked))
  | PInitialize (Some _) => ([WGvd], (true, true))
  | PSearch => (if ready && linked then [WGvdUpdate] else [], (ready, linked))
  | _ => ([], (ready, linked))
  end.

Lemma map_calls_cons ready linked x r : map_calls ready linked (x :: r) =
  fst (map_call ready linked x) ++ map_calls (fst (snd (map_call ready linked x))) (snd (snd (map_call ready linked x))) r.
Proof. destruct x as [[]| | | |[]| | | | |]; try reflexivity. cbn. destruct ready, linked; reflexivity. Qed.

Lemma map_calls_app a b : forall ready linked, exists ready' linked', map_calls ready linked (a ++ b) = map_calls ready linked a ++ map_calls ready' linked' b.
Proof.
  induction a as [|x a IH]; intros r k; [exists r, k; reflexivity|]. cbn [app]. rewrite !map_calls_cons.
  destruct (IH (fst (snd (map_call r k x))) (snd (snd (map_call r k x)))) as (r' & k' & ->). exists r', k'. now rewrite app_assoc.
Qed.

Lemma search_unready s : pl_ready (sy_planner s) = false -> sy_search s = Ok (s, false).
Proof. intros H. unfold Planner_model.sy_search. now rewrite H. Qed.

Lemma search_inv s s' b : sy_search s = Ok (s', b) -> pl_ready (sy_planner s) = true ->
  let p := sy_planner s in let f := wd_frames (sy_world s) in let m := pl_params p in
  exists v d h o va start o' w' d' g gm sol st rng path,
  pl_parts p = Some (Parts v d h o) /\ vget (sy_validators s) v = Ok va /\ world_to_cell f (position (pl_goal p)) true = Ok start /\
  oh_update Rltb Rplus 0 1 (sqrt 2) fuel (fr_rows f) (fr_cols f) (om_occupied (wd_map (sy_world s))) start o = Ok o' /\
  update_diagram top topv fuel (sy_world s) d = Ok (w', d', g) /\ wd_dist w' = Some gm /\
  graph_search m f (get_path_cost 20 30 (fr_res f) g) (fr_res f)
    (is_path_valid f (map_clearance (g_obs gm) (fr_res f)) (va_lower va) (va_upper va) (va_safe va) (va_step va) fuel)
    (combined m f h o' (pl_goal p)) Rng draw (pl_goal p) fuel fuel (pl_init p) (sy_rng s) = Ok (sol, st) /\ st_prop st = Ok rng /\
  hybrid_result fuel (pl_step p) (smooth_path fuel (pl_smoothing p) va f (map_clearance (g_obs gm) (fr_res f)) g) true (Ok sol) (pl_path p) = Ok (b, path) /\
  s' = System w' (sy_validators s) (Planner m (pl_init p) (pl_goal p) (pl_step p) true (Some (Parts v d' h o')) (pl_smoothing p) path b) rng.
Proof.
  intros E Hr p f m. unfold Planner_model.sy_search in E. rewrite Hr in E. cbn [negb] in E. fold p in E. fold f m in E.
  destruct (pl_parts p) as [[v d h o]|]; try discriminate.
  destruct (vget _ v) as [va| | |] eqn:E1; try discriminate. cbn [bind] in E.
  destruct (world_to_cell f _ true) as [start| | |] eqn:E2; try discriminate. cbn [bind] in E.
  destruct (oh_update _ _ _ _ _ _ _ _ _ _ _) as [o'| | |] eqn:E3; try discriminate. cbn [bind] in E.
  destruct (update_diagram _ _ _ _ _) as [[[w' d'] g]| | |] eqn:E4; try discriminate. cbn [bind] in E.
  destruct (wd_dist w') as [gm|] eqn:E5; try discriminate.
  match type of E with bind ?x _ = _ => destruct x as [[sol st]| | |] eqn:E6 end; try discriminate. cbn [bind] in E.
  destruct (st_prop st) as [rng| | |] eqn:E7; try discriminate. cbn [bind] in E.
  match type of E with bind ?x _ = _ => destruct x as [[b' path]| | |] eqn:E8 end; try discriminate. cbn [bind] in E.
  exists v, d, h, o, va, start, o', w', d', g, gm, sol, st, rng, path. assert (b' = b) by congruence. subst b'.
  assert (s' = System w' (sy_validators s) (Planner m (pl_init p) (pl_goal p) (pl_step p) true (Some (Parts v d' h o')) (pl_smoothing p) path b) rng) by congruence.
  repeat (split; [first [assumption|reflexivity]|]). assumption.
Qed.

Lemma detach_flags old s ready linked w : flags s ready linked -> old = sy_world s ->
  flags (System w (sy_validators s) (detach old (sy_planner s)) (sy_rng s)) ready false.
Proof.
  intros [A B] ->. unfold flags, detach in *. cbn [sy_planner sy_world] in *. destruct (pl_parts (sy_planner s)) as [[v [|g] h o]|] eqn:E; cbn [pa_gvd] in B.
  - destruct B as [_ N]. destruct (wd_dist (sy_world s)); [|easy]. cbn. auto.
  - rewrite E. now split.
  - rewrite E. tauto.
Qed.

Lemma step_calls s x s' ready linked : flags s ready linked -> sy_step s x = Ok s' ->
  wd_run top topv fuel (sy_world s) (fst (map_call ready linked x)) = Ok (sy_world s') /\
  flags s' (fst (snd (map_call ready linked x))) (snd (snd (map_call ready linked x))).
Proof.
  intros F E. destruct x as [x|lower upper|v r|v r|v|q|q|r|x|]; cbn [Planner_model.sy_step] in E.
  - destruct (wd_step top topv fuel (sy_world s) x) as [w| | |] eqn:Ew; try discriminate. cbn [bind] in E.
    assert (R1 : wd_run top topv fuel (sy_world s) [x] = Ok w) by (cbn [wd_run]; rewrite Ew; reflexivity).
    assert (N : flags (System w (sy_validators s) (sy_planner s) (sy_rng s)) ready linked).
    { destruct F as [A B]. split; [exact A|]. cbn [sy_planner sy_world]. destruct (pl_parts (sy_planner s)) as [[v [|g] h o]|]; auto. destruct B. split; auto. eapply wd_step_dist; eauto. }
    injection E as <-. destruct x; (split; [exact R1|]); try exact N. exact (detach_flags (sy_world s) s ready linked w F eq_refl).
  - unfold sy_validator in E. destruct (wd_size _ _ _) as [w| | |] eqn:Ew; try discriminate. cbn [bind] in E. injection E as <-.
    cbn [map_call fst snd sy_world wd_run wd_step]. rewrite Ew. split; auto. exact (detach_flags (sy_world s) s ready linked w F eq_refl).
  - unfold change_validator in E. destruct (vget _ _); try discriminate. cbn [bind] in E. destruct (vset _ _ _); try discriminate. cbn [bind] in E. injection E as <-. split; [reflexivity|]. exact F.
  - unfold change_validator in E. destruct (vget _ _); try discriminate. cbn [bind] in E. destruct (vset _ _ _); try discriminate. cbn [bind] in E. injection E as <-. split; [reflexivity|]. exact F.
  - unfold sy_initialize in E. destruct v as [v|].
    + destruct (vget _ v) as [va| | |]; try discriminate. cbn [bind] in E. destruct (wd_step top topv fuel (sy_world s) WGvd) as [w| | |] eqn:Ew; try discriminate. cbn [bind] in E.
      destruct (nh_build _ _ _ _ _ _ _ _) as [h| | |]; try discriminate. cbn [bind] in E. destruct (oh_new _ _) as [o| | |]; try discriminate. cbn [bind rmap fst] in E. injection E as <-.
      cbn [map_call fst snd wd_run sy_world]. rewrite Ew. split; [reflexivity|]. split; [reflexivity|]. cbn. split; [reflexivity|]. now apply wd_call_dist in Ew.
    + cbn [rmap bind fst] in E. injection E as <-. cbn [map_call fst snd wd_run sy_world]. split; [reflexivity|]. destruct F as [A B]. split; [reflexivity|]. cbn.
      destruct (pl_parts (sy_planner s)); [exact B|]. tauto.
  - injection E as <-. split; [reflexivity|exact F].
  - injection E as <-. split; [reflexivity|exact F].
  - injection E as <-. split; [reflexivity|exact F].
  - injection E as <-. split; [reflexivity|exact F].
  - destruct (sy_search s) as [[s1 b]| | |] eqn:Es; try discriminate. cbn [rmap bind fst] in E. injection E as <-.
    destruct F as [A B]. destruct ready; [|cbn [map_call fst snd andb]; rewrite search_unready in Es by exact A; injection Es as <- _; split; [reflexivity|split; auto]].
    destruct (search_inv _ _ _ Es A) as (v & d & h & o & va & start & o' & w' & d' & g & gm & sol & st & rng & path & E1 & _ & _ & _ & E4 & E5 & _ & _ & _ & ->).
    cbn [map_call fst snd]. rewrite E1 in B. cbn [pa_gvd] in B. unfold update_diagram in E4. destruct d as [|g0].
    + destruct B as [-> _]. cbn [andb wd_run]. destruct (wd_step top topv fuel (sy_world s) WGvdUpdate) as [w1| | |]; try discriminate. cbn [bind] in *.
      destruct (wd_dist w1); try discriminate. injection E4 as <- <- _. cbn. split; [reflexivity|]. split; [reflexivity|]. cbn. split; [reflexivity|]. now rewrite E5.
    + subst linked. cbn [andb wd_run]. destruct (g_run _ _ _ _ _) as [g1| | |]; try discriminate. cbn [bind] in E4. injection E4 as <- <- _. cbn. split; [reflexivity|]. split; reflexivity.
Qed.

Lemma run_calls l : forall s s' ready linked, flags s ready linked -> sy_run s l = Ok s' ->
  wd_run top topv fuel (sy_world s) (map_calls ready linked l) = Ok (sy_world s') /\ exists r k, flags s' r k.
Proof.
  induction l as [|x l IH]; intros s s' ready linked F E; cbn [Planner_model.sy_run] in E.
  - injection E as <-. split; [reflexivity|eauto].
  - destruct (sy_step s x) as [s1| | |] eqn:E1; try discriminate. cbn [bind] in E. destruct (step_calls _ _ _ _ _ F E1) as [W F1].
    rewrite map_calls_cons, wd_run_app, W. cbn [bind]. now apply IH.
Qed.

Lemma sy_run_app a b : forall s, sy_run s (a ++ b) = do s1 <- sy_run s a; sy_run s1 b.
Proof. induction a as [|x a IH]; intros s; cbn; auto. destruct (sy_step s x); cbn; auto. Qed.

Lemma new_flags resolution junk m rng : flags (sy_new Rng resolution junk m rng) false false.
Proof. split; [reflexivity|]. cbn. auto. Qed.

(** The parameters of the planner never change; ... *)
Lemma step_params s x s' : sy_step s x = Ok s' -> pl_params (sy_planner s') = pl_params (sy_planner s).
Proof.
  intros E. destruct x as [x|lower upper|v r|v r|v|q|q|r|x|]; cbn [Planner_model.sy_step] in E; try (injection E as <-; reflexivity).
  - destruct (wd_step top topv fuel (sy_world s) x) as [w| | |]; try discriminate. cbn [bind] in E. injection E as <-. destruct x; try reflexivity. apply detach_fields.
  - unfold sy_validator in E. destruct (wd_size _ _ _) as [w| | |]; try discriminate. cbn [bind] in E. injection E as <-. apply detach_fields.
  - unfold change_validator in E. destruct (vget _ _); try discriminate. cbn [bind] in E. destruct (vset _ _ _); try discriminate. cbn [bind] in E. now injection E as <-.
  - unfold change_validator in E. destruct (vget _ _); try discriminate. cbn [bind] in E. destruct (vset _ _ _); try discriminate. cbn [bind] in E. now injection E as <-.
  - unfold sy_initialize in E. destruct v as [v|]; [|cbn in E; now injection E as <-].
    destruct (vget _ v) as [va| | |]; try discriminate. cbn [bind] in E. destruct (wd_step _ _ _ _ _) as [w| | |]; try discriminate. cbn [bind] in E.
    destruct (nh_build _ _ _ _ _ _ _ _) as [h| | |]; try discriminate. cbn [bind] in E. destruct (oh_new _ _) as [o| | |]; try discriminate. cbn [bind rmap fst] in E. now injection E as <-.
  - destruct (sy_search s) as [[s1 b]| | |] eqn:Es; try discriminate. cbn [rmap bind fst] in E. injection E as <-.
    destruct (pl_ready (sy_planner s)) eqn:Hr; [|rewrite search_unready in Es by exact Hr; now injection Es as <-].
    destruct (search_inv _ _ _ Es Hr) as (v & d & h & o & va & start & o' & w' & d' & g & gm & sol & st & rng & path & _ & _ & _ & _ & _ & _ & _ & _ & _ & ->). reflexivity.
Qed.

Lemma run_params l : forall s s', sy_run s l = Ok s' -> pl_params (sy_planner s') = pl_params (sy_planner s).
Proof.
  induction l as [|x l IH]; intros s s' E; cbn [Planner_model.sy_run] in E; [now injection E as <-|].
  destruct (sy_step s x) as [s1| | |] eqn:E1; try discriminate. cbn [bind] in E. rewrite (IH _ _ E). eapply step_params; eauto.
Qed.

(** ... and after [Initialize], it is ready and refers to the map, until its size changes. *)
Definition attached (v : nat) (s : system Rng) : Prop :=
  pl_ready (sy_planner s) = true /\ exists h o, pl_parts (sy_planner s) = Some (Parts v OfMap h o).

Lemma initialize_attaches s v s' : sy_step s (PInitialize (Some v)) = Ok s' -> attached v s'.
Proof.
  cbn [Planner_model.sy_step]. unfold sy_initialize. intros E.
  destruct (vget _ v) as [va| | |]; try discriminate. cbn [bind] in E. destruct (wd_step _ _ _ _ _) as [w| | |]; try discriminate. cbn [bind] in E.
  destruct (nh_build _ _ _ _ _ _ _ _) as [h| | |]; try discriminate. cbn [bind] in E. destruct (oh_new _ _) as [o| | |]; try discriminate. cbn [bind rmap fst] in E. injection E as <-.
  split; [reflexivity|]. cbn. eauto.
Qed.

Lemma step_attached v s x s' : undisturbed [x] -> attached v s -> sy_step s x = Ok s' -> attached v s'.
Proof.
  intros U [A (h & o & B)] E. apply Forall_inv in U. destruct x as [x|lower upper|n r|n r|n|q|q|r|x|]; cbn [Planner_model.sy_step] in E; try easy; try (injection E as <-; split; eauto; fail).
  - destruct (wd_step top topv fuel (sy_world s) x) as [w| | |]; try discriminate. cbn [bind] in E. injection E as <-. destruct x; try easy; split; eauto.
  - unfold change_validator in E. destruct (vget _ _); try discriminate. cbn [bind] in E. destruct (vset _ _ _); try discriminate. cbn [bind] in E. injection E as <-. split; eauto.
  - unfold change_validator in E. destruct (vget _ _); try discriminate. cbn [bind] in E. destruct (vset _ _ _); try discriminate. cbn [bind] in E. injection E as <-. split; eauto.
  - destruct (sy_search s) as [[s1 b]| | |] eqn:Es; try discriminate. cbn [rmap bind fst] in E. injection E as <-.
    destruct (search_inv _ _ _ Es A) as (v' & d & h' & o' & va & start & o'' & w' & d' & g & gm & sol & st & rng & path & E1 & _ & _ & _ & E4 & _ & _ & _ & _ & ->).
    rewrite B in E1. injection E1 as <- <- <- <-. split; [reflexivity|]. cbn. unfold update_diagram in E4. destruct (wd_step _ _ _ _ _) as [w1| | |]; try discriminate. cbn [bind] in E4.
    destruct (wd_dist w1); try discriminate. injection E4 as _ <- _. eauto.
Qed.

Lemma run_attached v l : forall s s', undisturbed l -> attached v s -> sy_run s l = Ok s' -> attached v s'.
Proof.
  induction l as [|x l IH]; intros s s' U A E; cbn [Planner_model.sy_run] in E; [now injection E as <-|].
  destruct (sy_step s x) as [s1| | |] eqn:E1; try discriminate. cbn [bind] in E. inversion U; subst. apply (IH s1); auto. apply (step_attached v s x); auto. now constructor.
Qed.
End Calls.

(** * Initialization and parameters *)
Section Parameters.
Variables top topv : nat -> list (cell * Z) -> nat.
Variable fuel : nat.
Variable Rng : Type.
Variable draw : Rng -> R * Rng.
Notation sy_step := (sy_step top topv fuel Rng draw).
Notation sy_run := (sy_run top topv fuel Rng draw).
Notation sy_search := (sy_search top topv fuel Rng draw).

Lemma initialize_inv s v s' : sy_step s (PInitialize (Some v)) = Ok s' ->
  exists va w h o, nth_error (sy_validators s) v = Some va /\ wd_step top topv fuel (sy_world s) WGvd = Ok w /\
  s' = System w (sy_validators s) (Planner (pl_params (sy_planner s)) (pl_init (sy_planner s)) (pl_goal (sy_planner s)) (pl_step (sy_planner s)) true
    (Some (Parts v OfMap h o)) (default_smoothing (1 / hp_radius (pl_params (sy_planner s)))) (pl_path (sy_planner s)) (pl_stats (sy_planner s))) (sy_rng s).
Proof.
  cbn [Planner_model.sy_step]. unfold sy_initialize, vget. intros E.
  destruct (nth_error _ v) as [va|]; try discriminate. cbn [bind] in E. destruct (wd_step _ _ _ _ _) as [w| | |]; try discriminate. cbn [bind] in E.
  destruct (nh_build _ _ _ _ _ _ _ _) as [h| | |]; try discriminate. cbn [bind] in E. destruct (oh_new _ _) as [o| | |]; try discriminate. cbn [bind rmap fst] in E. injection E as <-.
  exists va, w, h, o. auto.
Qed.

(** What a call leaves unchanged. *)
Lemma step_keeps s x s' : sy_step s x = Ok s' ->
  (pl_ready (sy_planner s') = pl_ready (sy_planner s) \/ exists v, x = PInitialize v) /\
  (pl_smoothing (sy_planner s') = pl_smoothing (sy_planner s) \/ (exists v, x = PInitialize (Some v)) \/ exists p, x = PSmoothing p) /\
  (pl_path (sy_planner s') = pl_path (sy_planner s) \/ (x = PSearch /\ pl_ready (sy_planner s) = true)).
Proof.
  intros E. destruct x as [x|lower upper|v r|v r|v|q|q|r|x|]; cbn [Planner_model.sy_step] in E.
  - destruct (wd_step top topv fuel (sy_world s) x) as [w| | |]; try discriminate. cbn [bind] in E. injection E as <-.
    destruct x; cbn [sy_planner]; try tauto. destruct (detach_fields (sy_world s) (sy_planner s)) as (_ & _ & _ & -> & -> & ->). tauto.
  - unfold sy_validator in E. destruct (wd_size _ _ _) as [w| | |]; try discriminate. cbn [bind] in E. injection E as <-. cbn [sy_planner].
    destruct (detach_fields (sy_world s) (sy_planner s)) as (_ & _ & _ & -> & -> & ->). tauto.
  - unfold change_validator in E. destruct (vget _ _); try discriminate. cbn [bind] in E. destruct (vset _ _ _); try discriminate. cbn [bind] in E. injection E as <-. cbn. tauto.
  - unfold change_validator in E. destruct (vget _ _); try discriminate. cbn [bind] in E. destruct (vset _ _ _); try discriminate. cbn [bind] in E. injection E as <-. cbn. tauto.
  - destruct v as [v|]; [|cbn in E; injection E as <-; cbn; split; [right; eauto|tauto]].
    change (sy_step s (PInitialize (Some v)) = Ok s') in E. destruct (initialize_inv _ _ _ E) as (va & w & h & o & _ & _ & ->). cbn. split; [right; eauto|split; [right; left; eauto|now left]].
  - injection E as <-. cbn. tauto.
  - injection E as <-. cbn. tauto.
  - injection E as <-. cbn. tauto.
  - injection E as <-. cbn. split; [now left|split; [right; right; eauto|now left]].
  - destruct (sy_search s) as [[s1 b]| | |] eqn:Es; try discriminate. cbn [rmap bind fst] in E. injection E as <-.
    destruct (pl_ready (sy_planner s)) eqn:Hr; [|rewrite search_unready in Es by exact Hr; injection Es as <- _; tauto].
    destruct (search_inv _ _ _ _ _ _ _ _ Es Hr) as (v & d & h & o & va & start & o' & w' & d' & g & gm & sol & st & rng & path & _ & _ & _ & _ & _ & _ & _ & _ & _ & ->). cbn. tauto.
Qed.

Lemma run_unready l : forall s s', pl_ready (sy_planner s) = false -> (forall v, ~ In (PInitialize (Some v)) l) -> sy_run s l = Ok s' ->
  pl_ready (sy_planner s') = false /\ pl_path (sy_planner s') = pl_path (sy_planner s).
Proof.
  induction l as [|x l IH]; intros s s' Hr N E; cbn [Planner_model.sy_run] in E; [injection E as <-; auto|].
  destruct (sy_step s x) as [s1| | |] eqn:E1; try discriminate. cbn [bind] in E. destruct (step_keeps _ _ _ E1) as (A & _ & C).
  assert (R1 : pl_ready (sy_planner s1) = false).
  { destruct A as [-> |(v & ->)]; auto. destruct v as [v|]; [exfalso; apply (N v); now left|]. cbn in E1. now injection E1 as <-. }
  destruct (IH s1 s' R1) as [B1 B2]; auto. { intros v I. apply (N v). now right. }
  split; auto. rewrite B2. destruct C as [-> |[_ C]]; auto. congruence.
Qed.

Lemma run_smoothing l : forall s s', (forall v, ~ In (PInitialize (Some v)) l) -> (forall p, ~ In (PSmoothing p) l) -> sy_run s l = Ok s' ->
  pl_smoothing (sy_planner s') = pl_smoothing (sy_planner s).
Proof.
  induction l as [|x l IH]; intros s s' N1 N2 E; cbn [Planner_model.sy_run] in E; [injection E as <-; auto|].
  destruct (sy_step s x) as [s1| | |] eqn:E1; try discriminate. cbn [bind] in E. destruct (step_keeps _ _ _ E1) as (_ & B & _).
  rewrite (IH s1 s'); auto; [|intros v I; apply (N1 v); now right|intros p I; apply (N2 p); now right].
  destruct B as [-> |[(v & ->)|(p & ->)]]; auto; exfalso; [apply (N1 v)|apply (N2 p)]; now left.
Qed.
End Parameters.
