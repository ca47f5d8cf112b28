(** The answers of the diagram at positions of the world. *)
From Coq Require Import Reals Lra.
From Verif Require Import Base RealBase Grid_model Grid_spec Coords_model Coords_proofs Straight_model Straight_spec Straight_proofs
  Gvd_model Gvd_api_proofs PathCost_model Validator_proofs World_model World_spec World_proofs WorldClear_proofs Planner_proofs PlannerDemo_proofs Query_model.
From Verif Require Gvd_spec.
From Coq Require Import ZifyBool ZifyNat ZifyN.
Local Open Scope R_scope.

Lemma query_outside {A} w (answer : gst -> cell -> res A) p : inside_position (wd_frames w) p = Ok false -> query w answer p = Ok None.
Proof.
  unfold query, inside_position, world_to_cell, grid_to_cell. destruct (cast_int _) as [x| | |]; try discriminate. cbn [bind]. destruct (cast_int _) as [y| | |]; try discriminate. cbn [bind negb].
  destruct (inside_cell (wd_frames w) (Cell x y)) eqn:E; cbn [bind negb]; auto. rewrite E. discriminate.
Qed.

Lemma query_inside {A} w (answer : gst -> cell -> res A) p g : inside_position (wd_frames w) p = Ok true -> wd_dist w = Some g ->
  exists c, world_to_cell (wd_frames w) p false = Ok c /\ inside (fr_rows (wd_frames w)) (fr_cols (wd_frames w)) c /\ query w answer p = rmap Some (answer g c).
Proof.
  unfold query, inside_position, world_to_cell, grid_to_cell. intros E Eg. destruct (cast_int _) as [x| | |]; try discriminate. cbn [bind] in *. destruct (cast_int _) as [y| | |]; try discriminate. cbn [bind negb] in *.
  exists (Cell x y). split; auto. destruct (inside_cell (wd_frames w) (Cell x y)) eqn:Ei; cbn [bind negb] in *; [|cbn in E; discriminate].
  split; [now apply inside_cell_iff|]. now rewrite Eg.
Qed.

Lemma query_some {A} w (answer : gst -> cell -> res A) p a : query w answer p = Ok (Some a) -> inside_position (wd_frames w) p = Ok true.
Proof.
  unfold query, inside_position, world_to_cell, grid_to_cell. destruct (cast_int _) as [x| | |]; try discriminate. cbn [bind]. destruct (cast_int _) as [y| | |]; try discriminate. cbn [bind negb].
  destruct (inside_cell (wd_frames w) (Cell x y)) eqn:E; cbn [bind negb]; [|discriminate]. now rewrite E.
Qed.

Lemma conversion_inside F p c : inside_position F p = Ok true -> world_to_cell F p false = Ok c -> inside (fr_rows F) (fr_cols F) c.
Proof.
  intros Ep Ec. apply inside_cell_iff. unfold inside_position, world_to_cell in *. apply bounded_conv in Ec. rewrite Ec in Ep. cbn [bind] in Ep.
  destruct (inside_cell F c) eqn:X; auto. cbn in Ep. congruence.
Qed.

Lemma corner_outside F : 0 < fr_res F -> inside_position F (cell_to_world F (Cell (-1) (-1))) = Ok false.
Proof.
  intros Hr. unfold inside_position. assert (I : is_int (-1)) by (unfold is_int, int_min, int_max; lia).
  pose proof (world_round_trip F (Cell (-1) (-1)) ltac:(lra) I I) as E. unfold world_to_cell in *. apply bounded_conv in E. rewrite E. reflexivity.
Qed.

Section Answers.
Variables top topv : nat -> list (cell * Z) -> nat.
Hypothesis Htop : Gvd_spec.priority top.
Hypothesis Htopv : Gvd_spec.priority topv.

(** The diagram and its costs. *)
Lemma diagram_costs resolution junk ops alpha dMax : 0 < resolution -> 0 < alpha -> 0 < dMax ->
  world_used (fr_new resolution junk) false false (ops ++ [WGvdUpdate]) ->
  let f := world_frames (fr_new resolution junk) ops in
  exists k w g v, (forall fuel, (k <= fuel)%nat -> wd_run top topv fuel (wd_new resolution junk) (ops ++ [WGvdUpdate]) = Ok w) /\ wd_dist w = Some g /\ g_vor g = Some v /\
  (forall c, inside (fr_rows f) (fr_cols f) c -> Gvd_spec.consistent (fr_rows f) (fr_cols f) v c) /\
  forall c, inside (fr_rows f) (fr_cols f) c -> exists x, get_path_cost alpha dMax resolution g c = Ok (Some x) /\ 0 <= x <= 1 /\
    (forall d, squared_distance_to_obstacle (g_obs g) c = Ok d -> dMax <= reported_distance resolution d -> x = 0) /\
    (nearest_obstacle v c = Ok c -> x = 0) /\
    (world_covered (fr_new resolution junk) [] false ops c = true -> x = 1).
Proof.
  intros Hr Ha Hm U f. destruct (world_used_app _ _ _ _ _ U) as [U1 U2].
  destruct (wd_run_edges top topv Htop Htopv ops _ _ _ _ _ _ _ (winv_new top topv resolution junk) U1 eq_refl) as (k & w & gops & E & W & T).
  assert (Hs : fold_left sized_step ops false = true) by (cbn in U2; intuition). rewrite Hs in *.
  pose proof W as [_ _ _ (_ & _ & _ & _ & D5 & _)].
  destruct (wd_step_ok top topv Htop Htopv _ _ _ _ _ _ _ WGvdUpdate W U2) as (k' & w' & m' & E' & W').
  destruct W' as [_ _ _ (D1 & _ & D3 & _ & _ & _ & occ & g0 & g & k0 & G1 & G2 & G3 & G4)].
  cbn [calls frames_after] in *. fold f in D1, D3, D5, G2.
  destruct (api_costs _ _ D1 top topv Htop Htopv occ G2 gops alpha dMax resolution Ha Hm Hr D3 T) as (k1 & st0 & st & F0 & F & P).
  assert (st0 = g0) as -> by congruence. specialize (F (Nat.max k0 k1) ltac:(lia)). rewrite G4 in F by lia. assert (st = g) as -> by congruence. clear F.
  destruct (api_consistent _ _ D1 top topv Htop Htopv occ G2 _ D3) as (k2 & st0' & st' & F0' & F' & _ & P' & _).
  assert (st0' = g0) as -> by congruence. specialize (F' (Nat.max k0 k2) ltac:(lia)). rewrite G4 in F' by lia. assert (st' = g) as -> by congruence. clear F'.
  assert (V : exists v, g_vor g = Some v).
  { destruct (api_settled_voronoi _ _ D1 top topv Htop Htopv occ G2 (gops ++ [GUpdateObstacles])) as (k3 & s0 & s & Q0 & Q & v & Ev & _).
    - now rewrite <- app_assoc.
    - assert (s0 = g0) as -> by congruence. specialize (Q (Nat.max k0 k3) ltac:(lia)). rewrite <- app_assoc in Q. cbn [app] in Q. rewrite G4 in Q by lia. assert (s = g) as -> by congruence. eauto. }
  destruct V as (v & Ev). exists (Nat.max k k'), w', g, v. split; [|split; [exact G1|split; [exact Ev|split]]].
  - intros fuel Hf. rewrite wd_run_app, E by lia. cbn [bind wd_run]. rewrite E' by lia. reflexivity.
  - intros c Hc. now apply P'.
  - intros c Hc. destruct (P c Hc) as (x & P1 & P2 & P3 & P4 & P5). exists x. split; auto. split; auto. split; auto. split; [intros Q; exact (P4 v Ev Q)|].
    intros Hcov. apply P5. unfold Gvd_spec.obstacle. now rewrite <- D5.
Qed.

Lemma four_positive : 0 <= 4 - 2 * sqrt 2.
Proof. assert (sqrt 2 <= 2); [|lra]. apply Rle_trans with (sqrt (2 * 2)); [apply sqrt_le_1_alt; lra|]. rewrite sqrt_square; lra. Qed.

(** The distance to a covered cell. *)
Lemma reported_bound F c o d : 0 < fr_res F -> IZR d <= (4 - 2 * sqrt 2) * IZR (Gvd_spec.sqd c o) ->
  reported_distance (fr_res F) d <= sqrt (4 - 2 * sqrt 2) * distance (cell_to_world F c) (cell_to_world F o).
Proof.
  intros Hr H. rewrite cell_distance by lra. unfold reported_distance. rewrite <- Rmult_assoc. apply Rmult_le_compat_r; [lra|]. rewrite <- sqrt_mult_alt by apply four_positive. now apply sqrt_le_1_alt.
Qed.

Lemma position_near F p c : 0 < fr_res F -> world_to_cell F p false = Ok c -> inside (fr_rows F) (fr_cols F) c -> distance p (cell_to_world F c) <= sqrt 2 * fr_res F.
Proof.
  intros Hr E Hc. assert (E' : world_to_cell F p true = Ok c).
  { unfold world_to_cell in *. apply bounded_conv in E. rewrite E. assert (inside_cell F c = true) as -> by now apply inside_cell_iff. reflexivity. }
  apply (cell_near F p c Hr E'). now apply inside_cell_iff.
Qed.

Lemma diagram_answers resolution junk ops alpha dMax : 0 < resolution -> 0 < alpha -> 0 < dMax ->
  world_used (fr_new resolution junk) false false (ops ++ [WGvdUpdate]) ->
  let F := world_frames (fr_new resolution junk) ops in
  let covered c := inside (fr_rows F) (fr_cols F) c /\ world_covered (fr_new resolution junk) [] false ops c = true in
  exists k w, (forall fuel, (k <= fuel)%nat -> wd_run top topv fuel (wd_new resolution junk) (ops ++ [WGvdUpdate]) = Ok w) /\ wd_frames w = F /\
  (forall p, inside_position F p = Ok false ->
     nearest_obstacle_position w p = Ok None /\ nearest_edge_position w p = Ok None /\ distance_to_obstacle w p = Ok None /\ distance_to_edge w p = Ok None /\ path_cost_at alpha dMax w p = Ok None) /\
  forall p, inside_position F p = Ok true -> exists c q e d de x, world_to_cell F p false = Ok c /\
     nearest_obstacle_position w p = Ok (Some q) /\ nearest_edge_position w p = Ok (Some e) /\ distance_to_obstacle w p = Ok (Some d) /\ distance_to_edge w p = Ok (Some de) /\
     path_cost_at alpha dMax w p = Ok (Some (Some x)) /\
     distance p (cell_to_world F c) <= sqrt 2 * resolution /\
     (forall o, covered o -> d <= sqrt (4 - 2 * sqrt 2) * distance (cell_to_world F c) (cell_to_world F o)) /\
     ((forall o y, ~ In (WRemove o y) ops) -> (exists o, covered o) -> exists o, covered o /\ q = cell_to_world F o /\ d = distance (cell_to_world F c) q) /\
     ((forall o, ~ covered o) -> q = cell_to_world F (Cell (-1) (-1)) /\ d = sqrt (IZR inf) * resolution) /\
     (e = cell_to_world F (Cell (-1) (-1)) /\ de = sqrt (IZR inf) * resolution \/
      exists c', inside (fr_rows F) (fr_cols F) c' /\ e = cell_to_world F c' /\ de = distance (cell_to_world F c) e) /\
     0 <= x <= 1 /\ (dMax <= d -> x = 0) /\ (covered c -> x = 1 /\ q = cell_to_world F c /\ d = 0) /\ (e = cell_to_world F c -> x = 0).
Proof.
  intros Hres Ha Hm U F covered. assert (EF : fr_res F = resolution) by (unfold F; rewrite frames_res; reflexivity).
  destruct (world_updated top topv Htop Htopv resolution junk ops WGvdUpdate U (or_intror eq_refl)) as (gops & occ & k1 & w & g & E1 & Eg & Ew & Hp & Hz & Hu & Hc & Hun & K).
  destruct (diagram_costs resolution junk ops alpha dMax Hres Ha Hm U) as (k2 & w2 & g2 & v & E2 & Eg2 & Ev & Hv & Hx).
  assert (w2 = w) as -> by (specialize (E1 (Nat.max k1 k2) ltac:(lia)); rewrite E2 in E1 by lia; congruence). assert (g2 = g) as -> by congruence. clear E2 Eg2.
  fold F in Ew, Hp, Hz, Hu, Hc, Hv, Hx. exists k1, w. split; auto. split; auto.
  set (ins := inside (fr_rows F) (fr_cols F)) in *.
  assert (Hrep : (fun d => ((exists o, ins o /\ Gvd_spec.obstacle gops o) -> forall c, ins c -> exists o, nearest_obstacle d c = Ok o /\ ins o) /\
    ((forall o, ins o -> ~ Gvd_spec.obstacle gops o) -> forall c, ins c -> nearest_obstacle d c = Ok no_cell /\ squared_distance_to_obstacle d c = Ok inf) /\
    (existsb Gvd_spec.is_unset gops = false -> forall c o e, ins c -> ins o -> nearest_obstacle d c = Ok o -> squared_distance_to_obstacle d c = Ok e -> Gvd_spec.obstacle gops o)) (g_obs g)).
  { apply K. destruct (api_reports _ _ Hp top topv Htop Htopv occ Hz gops Hu) as (k' & st0 & st & Q0 & Q & H1 & H2 & H3). exists k', st0, st. split; auto. split; auto. split; auto. split; auto.
    intros Hn c' o e Q1 Q2 Q3 Q4. exact (proj1 (H3 Hn c' o e Q1 Q2 Q3 Q4)). }
  assert (Herr : (fun d => forall o c e, ins o -> Gvd_spec.obstacle gops o -> ins c -> squared_distance_to_obstacle d c = Ok e -> IZR e <= (4 - 2 * sqrt 2) * IZR (Gvd_spec.sqd c o)) (g_obs g)).
  { apply K. destruct (api_error _ _ Hp top topv Htop Htopv occ Hz gops Hu) as (k' & st0 & st & Q0 & Q & H). exists k', st0, st. split; auto. split; auto. intros o c e Q1 Q2 Q3 Q4. exact (proj1 (H o c e Q1 Q2 Q3 Q4)). }
  assert (Hcon : (fun d => (forall c, ins c -> Gvd_spec.consistent (fr_rows F) (fr_cols F) d c) /\ (forall c, ins c -> (nearest_obstacle d c = Ok c <-> Gvd_spec.obstacle gops c)) /\
    (forall c, ins c -> Gvd_spec.obstacle gops c -> squared_distance_to_obstacle d c = Ok 0%Z)) (g_obs g)).
  { apply K. destruct (api_consistent _ _ Hp top topv Htop Htopv occ Hz _ Hu) as (k' & st0 & st & Q0 & Q & H1 & _ & H3 & H4). exists k', st0, st. split; auto. split; auto. split; auto.
    assert (Ob : forall c, Gvd_spec.obstacle (gops ++ [GUpdateObstacles]) c <-> Gvd_spec.obstacle gops c).
    { intros c. unfold Gvd_spec.obstacle. clear. assert (X : forall b, Gvd_spec.obstacle_after b (gops ++ [GUpdateObstacles]) c = Gvd_spec.obstacle_after b gops c) by (induction gops as [|o r IH]; intros b; cbn; [reflexivity|]; destruct o; apply IH). now rewrite X. }
    split; intros c Hc'; [rewrite <- Ob; now apply H3|intros Oc; apply H4; auto; now apply Ob]. }
  destruct Hrep as (R1 & R2 & R3). destruct Hcon as (C1 & C2 & C3). cbn beta in Herr.
  assert (Cv : forall c, covered c <-> ins c /\ Gvd_spec.obstacle gops c) by (intros c; unfold covered, Gvd_spec.obstacle; fold ins; split; intros [A B]; split; auto; [rewrite <- Hc|rewrite Hc]; auto).
  split.
  - intros p Hip. unfold nearest_obstacle_position, nearest_edge_position, distance_to_obstacle, distance_to_edge, path_cost_at. rewrite !query_outside by now rewrite Ew. auto.
  - intros p Hip.
    assert (Ans : forall A (answer : gst -> cell -> res A) c, world_to_cell F p false = Ok c -> query w answer p = rmap Some (answer g c)).
    { intros A answer c Ec. destruct (query_inside w answer p g) as (c' & E' & _ & Q); [now rewrite Ew|auto|]. rewrite Ew in E'. assert (c' = c) as -> by congruence. exact Q. }
    destruct (query_inside w (fun _ _ => Ok tt) p g) as (c & Ec & Ic & _); [now rewrite Ew|auto|]. rewrite Ew in Ec, Ic. fold ins in Ic.
    destruct (Hx c Ic) as (x & Ex & X1 & X2 & X3 & X4).
    assert (Ho : exists o d, nearest_obstacle (g_obs g) c = Ok o /\ squared_distance_to_obstacle (g_obs g) c = Ok d) by (destruct (C1 c Ic) as [(Q1 & Q2)|(o & Q1 & _ & Q2)]; eauto).
    assert (Hve : exists o d, nearest_obstacle v c = Ok o /\ squared_distance_to_obstacle v c = Ok d) by (destruct (Hv c Ic) as [(Q1 & Q2)|(o & Q1 & _ & Q2)]; eauto).
    destruct Ho as (o & d & Eo & Ed). destruct Hve as (e & de & Ee & Ede).
    exists c, (cell_to_world F o), (cell_to_world F e), (reported_distance resolution d), (reported_distance resolution de), x. split; auto.
    unfold nearest_obstacle_position, nearest_edge_position, distance_to_obstacle, distance_to_edge, path_cost_at. rewrite !(Ans _ _ c Ec), Ew, EF, Eo, Ed, Ex. unfold edges. rewrite Ev. cbn [bind rmap]. rewrite Ee, Ede. cbn [rmap bind].
    do 5 (split; [reflexivity|]). split; [rewrite <- EF; apply position_near; auto; lra|]. split; [|split; [|split; [|split; [|split; [exact X1|split; [|split]]]]]].
    + intros o' Co. apply Cv in Co as [Io Oo]. rewrite <- EF. apply reported_bound; [lra|]. exact (Herr o' c d Io Oo Ic Ed).
    + intros Hn (o' & Co). apply Cv in Co as [Io Oo]. destruct (R1 (ex_intro _ o' (conj Io Oo)) c Ic) as (o2 & Eo2 & Io2). assert (o2 = o) as -> by congruence. exists o. split; [apply Cv; split; auto; exact (R3 (Hun Hn) c o d Ic Io2 Eo Ed)|].
      split; auto. rewrite cell_distance by lra. rewrite EF. f_equal. destruct (C1 c Ic) as [(N & _)|(o3 & N & _ & D)]; [|congruence].
      exfalso. assert (o = no_cell) as -> by congruence. destruct Io2 as [[Q _] _]. cbn in Q. lia.
    + intros Nc. destruct (R2 (fun o' Io Oo => Nc o' (proj2 (Cv o') (conj Io Oo))) c Ic) as (N1 & N2). assert (o = no_cell) as -> by congruence. assert (d = inf) as -> by congruence. split; reflexivity.
    + destruct (Hv c Ic) as [(N1 & N2)|(e' & N1 & I2 & N2)].
      * left. assert (e = no_cell) as -> by congruence. assert (de = inf) as -> by congruence. split; reflexivity.
      * right. assert (e' = e) as -> by congruence. exists e. split; auto. split; auto. rewrite cell_distance by lra. rewrite EF. f_equal. congruence.
    + intros Hd. exact (X2 d Ed Hd).
    + intros Co. split; [apply X4; apply Co|]. pose proof (proj1 (Cv c) Co) as [_ Oc]. assert (o = c) as -> by (assert (nearest_obstacle (g_obs g) c = Ok c) by (apply C2; auto); congruence). split; auto.
      assert (d = 0%Z) as -> by (assert (squared_distance_to_obstacle (g_obs g) c = Ok 0%Z) by (apply C3; auto); congruence). unfold reported_distance. rewrite sqrt_0. ring.
    + intros Q. apply X3. rewrite Ee. f_equal. unfold cell_to_world, padd, cell_to_grid in Q. cbn [fst snd] in Q. injection Q as Q1 Q2. rewrite EF in Q1, Q2. destruct e as [r1 c1], c as [r2 c2]. cbn [row col] in *.
      f_equal; apply eq_IZR; apply Rmult_eq_reg_r with resolution; lra.
Qed.
End Answers.
