(** Property C87: queries of the generalized Voronoi diagram at positions. *)
From Coq Require Import Reals Lra.
From Verif Require Import Base RealBase Grid_model Grid_spec Coords_model Coords_proofs Straight_model Straight_spec Straight_proofs Validator_proofs
  Gvd_model Shape_model World_model World_spec World_proofs WorldClear_proofs WorldDemo_proofs Planner_proofs Query_model Query_proofs.
From Verif Require Gvd_spec.
From Coq Require Import ZifyBool ZifyNat ZifyN.
Local Open Scope R_scope.

(** A diagram that was just updated answers exactly at the positions inside of the map. *)
Theorem C87_answers_inside :
  forall top topv, Gvd_spec.priority top -> Gvd_spec.priority topv -> forall resolution junk ops alpha dMax, 0 < resolution -> 0 < alpha -> 0 < dMax ->
  world_used (fr_new resolution junk) false false (ops ++ [WGvdUpdate]) -> forall fuel w, wd_run top topv fuel (wd_new resolution junk) (ops ++ [WGvdUpdate]) = Ok w ->
  let F := world_frames (fr_new resolution junk) ops in
  (forall p, inside_position F p = Ok false ->
     nearest_obstacle_position w p = Ok None /\ nearest_edge_position w p = Ok None /\ distance_to_obstacle w p = Ok None /\ distance_to_edge w p = Ok None /\ path_cost_at alpha dMax w p = Ok None) /\
  (forall p, inside_position F p = Ok true -> exists q e d de x,
     nearest_obstacle_position w p = Ok (Some q) /\ nearest_edge_position w p = Ok (Some e) /\ distance_to_obstacle w p = Ok (Some d) /\ distance_to_edge w p = Ok (Some de) /\ path_cost_at alpha dMax w p = Ok (Some (Some x))).
Proof.
  intros top topv Ht Htv resolution junk ops alpha dMax Hr Ha Hm U fuel w E F.
  destruct (diagram_answers top topv Ht Htv resolution junk ops alpha dMax Hr Ha Hm U) as (k & w' & E' & Fr & Out & In). fold F in Fr, Out, In.
  assert (w' = w) as -> by (apply (wd_run_more _ _ _ (Nat.max k fuel)) in E; [|lia]; rewrite E' in E by lia; congruence).
  split; [exact Out|]. intros p Hp. destruct (In p Hp) as (c & q & e & d & de & x & _ & A). exists q, e, d, de, x. intuition.
Qed.
Print Assumptions C87_answers_inside.

(** The distance reported overestimates the one to each obstacle, measured from the cell of the position, by at most 9 %,
    and that cell is at most its diagonal away. *)
Theorem C87_distance :
  forall top topv, Gvd_spec.priority top -> Gvd_spec.priority topv -> forall resolution junk ops alpha dMax, 0 < resolution -> 0 < alpha -> 0 < dMax ->
  world_used (fr_new resolution junk) false false (ops ++ [WGvdUpdate]) -> forall fuel w, wd_run top topv fuel (wd_new resolution junk) (ops ++ [WGvdUpdate]) = Ok w ->
  let F := world_frames (fr_new resolution junk) ops in
  let covered c := inside (fr_rows F) (fr_cols F) c /\ world_covered (fr_new resolution junk) [] false ops c = true in
  forall p d o, distance_to_obstacle w p = Ok (Some d) -> covered o ->
  exists c, inside (fr_rows F) (fr_cols F) c /\ distance p (cell_to_world F c) <= sqrt 2 * resolution /\
  d <= sqrt (4 - 2 * sqrt 2) * distance (cell_to_world F c) (cell_to_world F o) /\ d <= sqrt (4 - 2 * sqrt 2) * (distance p (cell_to_world F o) + sqrt 2 * resolution).
Proof.
  intros top topv Ht Htv resolution junk ops alpha dMax Hr Ha Hm U fuel w E F covered.
  destruct (diagram_answers top topv Ht Htv resolution junk ops alpha dMax Hr Ha Hm U) as (k & w' & E' & Fr & Out & In). fold F in Fr, Out, In.
  assert (w' = w) as -> by (apply (wd_run_more _ _ _ (Nat.max k fuel)) in E; [|lia]; rewrite E' in E by lia; congruence).
  intros p d o Ed Co. pose proof (query_some _ _ _ _ Ed) as Ep. rewrite Fr in Ep.
  destruct (In p Ep) as (c & q & e & d' & de & x & Ec & _ & _ & Ed' & _ & _ & Near & B & _). assert (d' = d) as -> by congruence. exists c.
    assert (Ic : inside (fr_rows F) (fr_cols F) c) by (apply (conversion_inside F p c Ep Ec)).
    split; auto. split; auto. split; [exact (B o Co)|]. eapply Rle_trans; [exact (B o Co)|]. apply Rmult_le_compat_l; [apply sqrt_pos|].
    pose proof (distance_triangle (cell_to_world F c) p (cell_to_world F o)) as T. rewrite (distance_sym (cell_to_world F c) p) in T. lra.
Qed.
Print Assumptions C87_distance.

(** If nothing was removed and there are obstacles, the position reported is that of a covered cell, at the distance reported from the cell of the position. *)
Theorem C87_names_obstacle :
  forall top topv, Gvd_spec.priority top -> Gvd_spec.priority topv -> forall resolution junk ops alpha dMax, 0 < resolution -> 0 < alpha -> 0 < dMax ->
  world_used (fr_new resolution junk) false false (ops ++ [WGvdUpdate]) -> forall fuel w, wd_run top topv fuel (wd_new resolution junk) (ops ++ [WGvdUpdate]) = Ok w ->
  let F := world_frames (fr_new resolution junk) ops in
  let covered c := inside (fr_rows F) (fr_cols F) c /\ world_covered (fr_new resolution junk) [] false ops c = true in
  (forall o y, ~ In (WRemove o y) ops) -> (exists o, covered o) -> forall p q, nearest_obstacle_position w p = Ok (Some q) ->
  exists c o d, world_to_cell F p false = Ok c /\ covered o /\ q = cell_to_world F o /\ distance_to_obstacle w p = Ok (Some d) /\ d = distance (cell_to_world F c) q /\ Rabs (distance p q - d) <= sqrt 2 * resolution.
Proof.
  intros top topv Ht Htv resolution junk ops alpha dMax Hr Ha Hm U fuel w E F covered.
  destruct (diagram_answers top topv Ht Htv resolution junk ops alpha dMax Hr Ha Hm U) as (k & w' & E' & Fr & Out & In). fold F in Fr, Out, In.
  assert (w' = w) as -> by (apply (wd_run_more _ _ _ (Nat.max k fuel)) in E; [|lia]; rewrite E' in E by lia; congruence).
  intros Nr Ex p q Eq. pose proof (query_some _ _ _ _ Eq) as Ep. rewrite Fr in Ep.
  destruct (In p Ep) as (c & q' & e & d & de & x & Ec & Eq' & _ & Ed & _ & _ & Near & _ & N & _). assert (q' = q) as -> by congruence. destruct (N Nr Ex) as (o & Co & Q & D).
    exists c, o, d. repeat (split; [assumption|]). rewrite D. pose proof (distance_triangle p (cell_to_world F c) q). pose proof (distance_triangle (cell_to_world F c) p q). rewrite (distance_sym (cell_to_world F c) p) in H0. apply Rabs_le. lra.
Qed.
Print Assumptions C87_names_obstacle.

(** Without obstacles the query succeeds all the same, and reports a position outside of the map. *)
Theorem C87_no_obstacle :
  forall top topv, Gvd_spec.priority top -> Gvd_spec.priority topv -> forall resolution junk ops alpha dMax, 0 < resolution -> 0 < alpha -> 0 < dMax ->
  world_used (fr_new resolution junk) false false (ops ++ [WGvdUpdate]) -> forall fuel w, wd_run top topv fuel (wd_new resolution junk) (ops ++ [WGvdUpdate]) = Ok w ->
  let F := world_frames (fr_new resolution junk) ops in
  let covered c := inside (fr_rows F) (fr_cols F) c /\ world_covered (fr_new resolution junk) [] false ops c = true in
  (forall o, ~ covered o) -> forall p, inside_position F p = Ok true ->
  nearest_obstacle_position w p = Ok (Some (cell_to_world F (Cell (-1) (-1)))) /\ inside_position F (cell_to_world F (Cell (-1) (-1))) = Ok false.
Proof.
  intros top topv Ht Htv resolution junk ops alpha dMax Hr Ha Hm U fuel w E F covered.
  destruct (diagram_answers top topv Ht Htv resolution junk ops alpha dMax Hr Ha Hm U) as (k & w' & E' & Fr & Out & In). fold F in Fr, Out, In.
  assert (w' = w) as -> by (apply (wd_run_more _ _ _ (Nat.max k fuel)) in E; [|lia]; rewrite E' in E by lia; congruence).
  intros No p Ep. destruct (In p Ep) as (c & q' & e & d & de & x & Ec & Eq' & _ & Ed & _ & _ & Near & _ & _ & N & _). destruct (N No) as (-> & _). split; auto.
  apply corner_outside. unfold F. rewrite frames_res. exact Hr.
Qed.
Print Assumptions C87_no_obstacle.

(** The distance to the nearest edge is that to the position reported; [inf] is the largest squared distance the maps store. *)
Theorem C87_edge :
  forall top topv, Gvd_spec.priority top -> Gvd_spec.priority topv -> forall resolution junk ops alpha dMax, 0 < resolution -> 0 < alpha -> 0 < dMax ->
  world_used (fr_new resolution junk) false false (ops ++ [WGvdUpdate]) -> forall fuel w, wd_run top topv fuel (wd_new resolution junk) (ops ++ [WGvdUpdate]) = Ok w ->
  let F := world_frames (fr_new resolution junk) ops in
  forall p, inside_position F p = Ok true -> exists c e de, world_to_cell F p false = Ok c /\ nearest_edge_position w p = Ok (Some e) /\ distance_to_edge w p = Ok (Some de) /\
  (e = cell_to_world F (Cell (-1) (-1)) /\ de = sqrt (IZR inf) * resolution \/
   exists c', inside (fr_rows F) (fr_cols F) c' /\ e = cell_to_world F c' /\ de = distance (cell_to_world F c) e).
Proof.
  intros top topv Ht Htv resolution junk ops alpha dMax Hr Ha Hm U fuel w E F.
  destruct (diagram_answers top topv Ht Htv resolution junk ops alpha dMax Hr Ha Hm U) as (k & w' & E' & Fr & Out & In). fold F in Fr, Out, In.
  assert (w' = w) as -> by (apply (wd_run_more _ _ _ (Nat.max k fuel)) in E; [|lia]; rewrite E' in E by lia; congruence).
  intros p Ep. destruct (In p Ep) as (c & q & e & d & de & x & Ec & _ & Ee & _ & Ede & _ & _ & _ & _ & _ & N & _). exists c, e, de. auto.
Qed.
Print Assumptions C87_edge.

(** The path cost is between 0 and 1: 1 on obstacles, 0 on edges and from the distance [dMax] on. *)
Theorem C87_path_cost :
  forall top topv, Gvd_spec.priority top -> Gvd_spec.priority topv -> forall resolution junk ops alpha dMax, 0 < resolution -> 0 < alpha -> 0 < dMax ->
  world_used (fr_new resolution junk) false false (ops ++ [WGvdUpdate]) -> forall fuel w, wd_run top topv fuel (wd_new resolution junk) (ops ++ [WGvdUpdate]) = Ok w ->
  let F := world_frames (fr_new resolution junk) ops in
  let covered c := inside (fr_rows F) (fr_cols F) c /\ world_covered (fr_new resolution junk) [] false ops c = true in
  forall p d e x, distance_to_obstacle w p = Ok (Some d) -> nearest_edge_position w p = Ok (Some e) -> path_cost_at alpha dMax w p = Ok (Some (Some x)) ->
  exists c, world_to_cell F p false = Ok c /\ 0 <= x <= 1 /\ (dMax <= d -> x = 0) /\ (e = cell_to_world F c -> x = 0) /\ (covered c -> x = 1 /\ d = 0).
Proof.
  intros top topv Ht Htv resolution junk ops alpha dMax Hr Ha Hm U fuel w E F covered.
  destruct (diagram_answers top topv Ht Htv resolution junk ops alpha dMax Hr Ha Hm U) as (k & w' & E' & Fr & Out & In). fold F in Fr, Out, In.
  assert (w' = w) as -> by (apply (wd_run_more _ _ _ (Nat.max k fuel)) in E; [|lia]; rewrite E' in E by lia; congruence).
  intros p d e x Ed Ee Ex. pose proof (query_some _ _ _ _ Ed) as Ep. rewrite Fr in Ep.
  destruct (In p Ep) as (c & q' & e' & d' & de & x' & Ec & _ & Ee' & Ed' & _ & Ex' & Near & _ & _ & _ & _ & X1 & X2 & X3 & X4).
    assert (d' = d) as -> by congruence. assert (e' = e) as -> by congruence. assert (x' = x) as -> by congruence. exists c. split; auto. split; auto. split; auto. split; auto. intros Co. destruct (X3 Co) as (A & _ & B). auto.
Qed.
Print Assumptions C87_path_cost.

(** The map of C75_square, with a diagram: its hypotheses are met, there are positions inside and covered cells; without the square there are none. *)
Example C87_demo :
  world_used f0 false false ((demo_pre ++ [WAdd 0 (square 1); WGvd]) ++ [WGvdUpdate]) /\ world_frames f0 (demo_pre ++ [WAdd 0 (square 1); WGvd]) = demo20 /\
  inside_position demo20 (0, 0) = Ok true /\ world_covered f0 [] false (demo_pre ++ [WAdd 0 (square 1); WGvd]) (Cell 9 9) = true /\
  world_used f0 false false ((demo_pre ++ [WGvd]) ++ [WGvdUpdate]) /\ forall c, world_covered f0 [] false (demo_pre ++ [WGvd]) c = false.
Proof.
  assert (R20 : exists f', fr_init f0 20 20 = Ok f' /\ Gvd_spec.representable (fr_rows f') (fr_cols f')) by (exists demo20; split; [apply demo20_init|unfold Gvd_spec.representable, Gvd_model.inf; cbn; lia]).
  split; [|split; [|split; [|split; [|split]]]].
  - cbn [demo_pre app world_used frames_after]. split; [exact R20|]. unfold f0. rewrite demo20_init. split; [|auto]. split; [reflexivity|]. unfold drawable. rewrite square_cells by lia. eexists; vm_compute; reflexivity.
  - unfold world_frames. cbn [demo_pre app fold_left frames_after]. unfold f0. now rewrite demo20_init.
  - unfold inside_position, world_to_cell, grid_to_cell. cbn [fst snd demo20 fr_world_grid fr_res]. replace ((0 - (0 + - 20 / 2)) / 1) with (IZR 10) by field. rewrite cast_IZR by (unfold is_int, int_min, int_max; lia). reflexivity.
  - cbn [demo_pre app world_covered frames_after registered_step in_dec]. unfold f0. rewrite demo20_init. unfold draws. rewrite square_cells by lia. vm_compute. reflexivity.
  - cbn [demo_pre app world_used frames_after]. split; [exact R20|]. auto.
  - intros c. reflexivity.
Qed.
