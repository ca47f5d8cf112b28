(** Repeated searches. *)
From Coq Require Import Reals Lra.
From Verif Require Import Base RealBase Grid_model Grid_spec Grid_proofs Coords_model Pose_model ObstacleMap_model Shape_model Gvd_model Validator_model
  World_model World_spec AStar_model ObstHeur_model ObstHeur_spec ObstHeur_proofs NonHol_model Hybrid_model Planner_model Planner_spec Planner_proofs.
From Coq Require Import ZifyBool ZifyNat ZifyN.
Local Open Scope R_scope.

(** * The diagram *)
Lemma update_empty top occ fuel st : d_open (fst st) = [] -> update top occ fuel st = Ok st.
Proof. destruct fuel; cbn [update]; intros ->; reflexivity. Qed.

Lemma update_empties top occ fuel : forall st st', update top occ fuel st = Ok st' -> d_open (fst st') = [].
Proof.
  induction fuel as [|fuel IH]; intros st st' E; cbn [update] in E; destruct (d_open (fst st)) eqn:D; try discriminate; try (injection E as <-; exact D).
  destruct (update_step _ _ st) as [st1| | |]; try discriminate. cbn [bind] in E. eauto.
Qed.

Lemma updates_settle top topv fuel fuel' g g' : g_run top topv fuel g [GUpdateObstacles; GUpdateVoronoi] = Ok g' -> g_run top topv fuel' g' [GUpdateObstacles; GUpdateVoronoi] = Ok g'.
Proof.
  unfold g_run. cbn [fold_res g_step]. intros E.
  destruct (update top (g_occ g) fuel (g_obs g, g_vor g)) as [[m v]| | |] eqn:E1; try discriminate. cbn [bind] in E. apply update_empties in E1. cbn [fst] in E1.
  unfold on_voronoi in *. cbn [g_vor g_obs g_occ] in E. destruct v as [v|]; [|discriminate].
  destruct (update topv (g_occ g) fuel (v, None)) as [[v1 x]| | |] eqn:E2; try discriminate. cbn [rmap bind fst] in E. apply update_empties in E2. cbn [fst] in E2. injection E as <-.
  cbn [g_obs g_vor g_occ]. rewrite update_empty by exact E1. cbn [bind g_vor g_obs g_occ]. rewrite update_empty by exact E2. reflexivity.
Qed.

(** * The obstacle heuristic *)
Lemma list_same {A} (a : list A) : forall b, (forall i, nth_error a i = nth_error b i) -> a = b.
Proof.
  induction a as [|x a IH]; intros [|y b] H; auto; try (specialize (H O); discriminate). pose proof (H O) as H0. cbn in H0. injection H0 as ->. f_equal. apply IH. intros i. exact (H (S i)).
Qed.

Lemma grid_same {T} (g h : grid T) : gwf g -> gwf h -> rows g = rows h -> columns g = columns h -> (forall c, inside (rows g) (columns g) c -> grid_get g c = grid_get h c) -> g = h.
Proof.
  intros (G1 & G2 & G3) (H1 & H2 & H3) Er Ec E. destruct g as [r c d], h as [r' c' d']. cbn [rows columns data] in *. subst r' c'. f_equal.
  apply list_same. intros i.
  destruct (Nat.lt_ge_cases i (length d)) as [L|L].
  - assert (Hi : (0 <= Z.of_nat i < r * c)%Z) by lia.
    specialize (E (Cell (Z.of_nat i / c) (Z.of_nat i mod c))). unfold inside, grid_get, grid_index in E. cbn [row col rows columns data] in E.
    assert (X : (Z.of_nat i / c * c + Z.of_nat i mod c)%Z = Z.of_nat i) by (rewrite Z.mul_comm; symmetry; apply Z.div_mod; lia). rewrite X, Nat2Z.id in E.
    destruct (0 <=? Z.of_nat i)%Z eqn:Z0; [|lia]. unfold vget in E.
    assert (P : (0 <= Z.of_nat i / c < r)%Z) by (split; [apply Z.div_pos; lia|apply Z.div_lt_upper_bound; lia]). pose proof (Z.mod_pos_bound (Z.of_nat i) c ltac:(lia)).
    specialize (E ltac:(lia)). destruct (nth_error d i), (nth_error d' i); congruence.
  - rewrite !(proj2 (nth_error_None _ _)) by lia. reflexivity.
Qed.

Lemma reset_same {C} m n (a b : ostate C) : sized m n a -> sized m n b -> oh_reset m n a = oh_reset m n b.
Proof.
  intros [(A1 & A2 & A3) (A4 & A5 & A6)] [(B1 & B2 & B3) (B4 & B5 & B6)]. unfold oh_reset.
  destruct (reset_writes (o_cost a) (None : value C) m n A1 A2 A3) as (g1 & E1 & W1 & R1 & C1 & G1). destruct (reset_writes (o_cost b) (None : value C) m n B1 B2 B3) as (g2 & E2 & W2 & R2 & C2 & G2).
  unfold value in *. rewrite E1, E2. clear E1 E2.
  destruct (reset_writes (o_explored a) false m n A4 A5 A6) as (e1 & -> & W3 & R3 & C3 & G3). destruct (reset_writes (o_explored b) false m n B4 B5 B6) as (e2 & -> & W4 & R4 & C4 & G4).
  cbn [bind]. do 2 f_equal; apply grid_same; auto; try congruence; intros c Hc; [rewrite G1, G2|rewrite G3, G4]; auto; congruence.
Qed.

Lemma update_same {C} ltb add (zero one diag : C) fuel m n occ start a b : sized m n a -> sized m n b ->
  oh_update ltb add zero one diag fuel m n occ start a = oh_update ltb add zero one diag fuel m n occ start b.
Proof. intros A B. unfold oh_update. now rewrite (reset_same m n a b A B). Qed.

(** * The planner *)
Section Repeat.
Variables top topv : nat -> list (cell * Z) -> nat.
Variable fuel : nat.
Variable Rng : Type.
Variable draw : Rng -> R * Rng.
Notation sy_step := (sy_step top topv fuel Rng draw).
Notation sy_run := (sy_run top topv fuel Rng draw).
Notation sy_search := (sy_search top topv fuel Rng draw).

(** The obstacle heuristic has the size of the map. *)
Definition fitted (s : system Rng) : Prop :=
  forall v d h o, pl_parts (sy_planner s) = Some (Parts v d h o) -> sized (fr_rows (wd_frames (sy_world s))) (fr_cols (wd_frames (sy_world s))) o.

Lemma step_shape w x w' : (match x with WSize _ _ => False | _ => True end) -> wd_step top topv fuel w x = Ok w' ->
  fr_rows (wd_frames w') = fr_rows (wd_frames w) /\ fr_cols (wd_frames w') = fr_cols (wd_frames w).
Proof.
  assert (K : forall w ops w', wd_call top topv fuel w ops = Ok w' -> wd_frames w' = wd_frames w).
  { intros u ops u' E. unfold wd_call in E. destruct (wd_dist u); try discriminate. destruct (g_run _ _ _ _ _); try discriminate. cbn [bind] in E. now injection E as <-. }
  intros Hx E. destruct x as [p|wdt hgt|o x|o x| | |]; try easy; cbn [wd_step] in E; try (apply K in E; now rewrite E).
  - injection E as <-. auto.
  - unfold wd_add in E. destruct (om_matrix _); try discriminate. destruct (lookup _ _); [cbn in E; now injection E as <-|]. destruct (boundary_cells _ _); try discriminate. cbn [bind] in E.
    destruct (om_add _ _ _) as [[m b]| | |]; try discriminate. cbn [bind] in E. destruct (wd_call _ _ _ _ _) as [w1| | |] eqn:E1; try discriminate. cbn in E. injection E as <-. apply K in E1. now rewrite E1.
  - unfold wd_remove in E. destruct (om_matrix _); try discriminate. destruct (lookup _ _); [|cbn in E; now injection E as <-]. destruct (boundary_cells _ _); try discriminate. cbn [bind] in E.
    destruct (om_remove _ _ _) as [[m b]| | |]; try discriminate. cbn [bind] in E. destruct (wd_call _ _ _ _ _) as [w1| | |] eqn:E1; try discriminate. cbn in E. injection E as <-. apply K in E1. now rewrite E1.
Qed.

Lemma update_diagram_shape w d w' d' g : update_diagram top topv fuel w d = Ok (w', d', g) -> fr_rows (wd_frames w') = fr_rows (wd_frames w) /\ fr_cols (wd_frames w') = fr_cols (wd_frames w).
Proof.
  unfold update_diagram. destruct d as [|g0].
  - destruct (wd_step _ _ _ _ _) as [w1| | |] eqn:E; try discriminate. cbn [bind]. destruct (wd_dist w1); try discriminate. intros H. assert (w1 = w') as -> by congruence. now apply step_shape in E.
  - destruct (g_run _ _ _ _ _); try discriminate. cbn [bind]. intros H. assert (w = w') as -> by congruence. auto.
Qed.

Lemma initialize_fitted s v s' : sy_step s (PInitialize (Some v)) = Ok s' -> fitted s'.
Proof.
  cbn [Planner_model.sy_step]. unfold sy_initialize. intros E.
  destruct (vget _ v) as [va| | |]; try discriminate. cbn [bind] in E. destruct (wd_step _ _ _ _ _) as [w| | |]; try discriminate. cbn [bind] in E.
  destruct (nh_build _ _ _ _ _ _ _ _) as [h| | |]; try discriminate. cbn [bind] in E. destruct (oh_new _ _) as [o| | |] eqn:Eo; try discriminate. cbn [bind rmap fst] in E. injection E as <-.
  intros v' d' h' o' H. cbn [sy_planner pl_parts] in H. injection H as _ _ _ <-. cbn [sy_world].
  apply (updated_size Rltb Rplus 0 1 (sqrt 2)). now constructor.
Qed.

Lemma search_fitted s s' b : fitted s -> sy_search s = Ok (s', b) -> fitted s'.
Proof.
  intros F E. destruct (pl_ready (sy_planner s)) eqn:Hr; [|rewrite search_unready in E by exact Hr; now injection E as <- _].
  destruct (search_inv _ _ _ _ _ _ _ _ E Hr) as (v & d & h & o & va & start & o' & w' & d' & g & gm & sol & st & rng & path & E1 & _ & _ & E4 & E5 & _ & _ & _ & _ & ->).
  intros v' dd h' oo H. cbn [sy_planner pl_parts] in H. injection H as _ _ _ <-. cbn [sy_world]. destruct (update_diagram_shape _ _ _ _ _ E5) as [-> ->].
  eapply update_size; [exact E4|]. eapply F. exact E1.
Qed.

Lemma step_fitted s x s' : undisturbed [x] -> fitted s -> sy_step s x = Ok s' -> fitted s'.
Proof.
  intros U F E. apply Forall_inv in U. destruct x as [x|lower upper|n r|n r|n|q|q|r|x|]; cbn [Planner_model.sy_step] in E; try easy; try (injection E as <-; exact F).
  - destruct (wd_step top topv fuel (sy_world s) x) as [w| | |] eqn:Ew; try discriminate. cbn [bind] in E. injection E as <-. apply step_shape in Ew as [Er Ec]; [|now destruct x].
    intros v d h o H. cbn [sy_planner sy_world] in *. rewrite Er, Ec. apply (F v d h o). destruct x; try easy.
  - unfold change_validator in E. destruct (vget _ _); try discriminate. cbn [bind] in E. destruct (vset _ _ _); try discriminate. cbn [bind] in E. injection E as <-. exact F.
  - unfold change_validator in E. destruct (vget _ _); try discriminate. cbn [bind] in E. destruct (vset _ _ _); try discriminate. cbn [bind] in E. injection E as <-. exact F.
  - destruct (sy_search s) as [[s1 b]| | |] eqn:Es; try discriminate. cbn [rmap bind fst] in E. injection E as <-. eapply search_fitted; eauto.
Qed.

Lemma run_fitted l : forall s s', undisturbed l -> fitted s -> sy_run s l = Ok s' -> fitted s'.
Proof.
  induction l as [|x l IH]; intros s s' U A E; cbn [Planner_model.sy_run] in E; [now injection E as <-|].
  destruct (sy_step s x) as [s1| | |] eqn:E1; try discriminate. cbn [bind] in E. inversion U; subst. apply (IH s1); auto. apply (step_fitted s x); auto. now constructor.
Qed.

(** The same search again, from the same state of the random generator. *)
Lemma search_again s s' b : fitted s -> sy_search s = Ok (s', b) -> sy_search (reseed s' (sy_rng s)) = Ok (s', b).
Proof.
  intros F E. destruct (pl_ready (sy_planner s)) eqn:Hr.
  2: { rewrite search_unready in E by exact Hr. injection E as <- <-. assert (reseed s (sy_rng s) = s) as -> by (now destruct s). now apply search_unready. }
  pose proof (search_fitted _ _ _ F E) as F'.
  destruct (search_inv _ _ _ _ _ _ _ _ E Hr) as (v & d & h & o & va & start & o' & w' & d' & g & gm & sol & st & rng & path & E1 & E2 & E3 & E4 & E5 & E6 & E7 & E8 & E9 & E10).
  set (p := sy_planner s) in *. set (f := wd_frames (sy_world s)) in *.
  assert (Fr : wd_frames w' = f /\ wd_map w' = wd_map (sy_world s)).
  { unfold update_diagram in E5. destruct d as [|g0].
    - cbn [wd_step] in E5. unfold wd_call in E5. destruct (wd_dist (sy_world s)); try discriminate. destruct (g_run _ _ _ _ _); try discriminate. cbn [bind wd_dist] in E5. injection E5 as <- _ _. auto.
    - destruct (g_run _ _ _ _ _); try discriminate. cbn [bind] in E5. injection E5 as <- _ _. auto. }
  assert (Ud : update_diagram top topv fuel w' d' = Ok (w', d', g)).
  { unfold update_diagram in E5 |- *. destruct d as [|g0].
    - cbn [wd_step] in E5. unfold wd_call in E5. destruct (wd_dist (sy_world s)) as [g0|]; try discriminate. destruct (g_run top topv fuel g0 _) as [g1| | |] eqn:Eg; try discriminate. cbn [bind wd_dist] in E5. injection E5 as <- <- <-.
      cbn [wd_step]. unfold wd_call. cbn [wd_dist]. rewrite (updates_settle _ _ _ fuel _ _ Eg). reflexivity.
    - destruct (g_run top topv fuel g0 _) as [g1| | |] eqn:Eg; try discriminate. cbn [bind] in E5. injection E5 as <- <- <-. rewrite (updates_settle _ _ _ fuel _ _ Eg). reflexivity. }
  destruct Fr as [Fr Fm].
  assert (E4' : oh_update Rltb Rplus 0 1 (sqrt 2) fuel (fr_rows f) (fr_cols f) (om_occupied (wd_map (sy_world s))) start o' = Ok o').
  { rewrite <- E4. apply update_same; [eapply update_size; [exact E4|]|]; eapply F; exact E1. }
  rewrite E10. unfold reseed. cbn [sy_world sy_validators sy_planner sy_rng].
  unfold Planner_model.sy_search. cbn [sy_planner sy_world sy_validators sy_rng pl_ready negb pl_parts pl_params pl_goal pl_init pl_step pl_smoothing pl_path]. rewrite Fr, Fm. rewrite E2. cbn [bind]. rewrite E3. cbn [bind]. rewrite E4'. cbn [bind]. rewrite Ud. cbn [bind]. rewrite E6.
  rewrite E7. cbn [bind]. rewrite E8. cbn [bind].
  assert (E9' : hybrid_result fuel (pl_step p) (smooth_path fuel (pl_smoothing p) va f (map_clearance (g_obs gm) (fr_res f)) g) true (Ok sol) path = Ok (b, path)).
  { unfold hybrid_result in *. cbn [negb bind] in *. destruct sol as [n|]; [exact E9|]. injection E9 as <- <-. reflexivity. }
  rewrite E9'. reflexivity.
Qed.

Lemma planned_again resolution junk m rng a v b s s' r :
  undisturbed b -> sy_run (sy_new Rng resolution junk m rng) (a ++ PInitialize (Some v) :: b) = Ok s -> sy_search s = Ok (s', r) ->
  sy_search (reseed s' (sy_rng s)) = Ok (s', r).
Proof.
  intros U E Es. apply search_again; [|exact Es]. rewrite sy_run_app in E. destruct (sy_run _ a) as [s1| | |]; try discriminate. cbn [bind Planner_model.sy_run] in E.
  destruct (sy_step s1 _) as [s2| | |] eqn:E2; try discriminate. cbn [bind] in E. apply initialize_fitted in E2. eapply run_fitted; eauto.
Qed.
End Repeat.
