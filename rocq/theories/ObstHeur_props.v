(** Properties C50 and C65, of the obstacle heuristic. *)
From Coq Require Import Reals Lra Psatz.
From Verif Require Import Base RealBase Grid_model Grid_spec Grid_proofs AStarN2_spec Coords_model Coords_proofs Pose_model Straight_model Straight_spec Bicycle_model Rs_spec
  ObstHeur_model ObstHeur_spec ObstHeur_proofs.
From Coq Require Import ZifyBool ZifyNat ZifyN.
Open Scope Z_scope.

(** ** C50 *)

(** The update ends without undefined behaviour within one iteration per cell, and explores exactly the cells to which there is a walk. *)
Theorem C50_explores_reachable :
  forall (C : Type) ltb add (zero one diag : C) val, exact ltb add zero one diag val ->
  forall m n occ o start fuel st0, updated ltb add zero one diag m n st0 -> answers m n occ o -> inside m n start -> (Z.to_nat m * Z.to_nat n < fuel)%nat ->
  exists st, oh_update ltb add zero one diag fuel m n occ start st0 = Ok st /\
  forall c, inside m n c -> exists b, grid_get (o_explored st) c = Ok b /\ (b = true <-> exists l, walk m n o start l c).
Proof. exact @update_explored. Qed.
Print Assumptions C50_explores_reachable.

(** The stored cost is the length of a walk, but not always of a shortest one: it is at most the square root of 2 times longer.
    Without a walk, it is infinite. *)
Theorem C50_shortest_partial :
  forall (C : Type) ltb add (zero one diag : C) val, exact ltb add zero one diag val ->
  forall m n occ o start fuel st0 st c, updated ltb add zero one diag m n st0 -> answers m n occ o -> inside m n start -> (Z.to_nat m * Z.to_nat n < fuel)%nat ->
  oh_update ltb add zero one diag fuel m n occ start st0 = Ok st -> inside m n c ->
  (forall l, walk m n o start l c -> exists x, grid_get (o_cost st) c = Ok (Some x) /\
     (exists l', walk m n o start l' c /\ val x = walk_cost octile start l') /\ (val x <= sqrt 2 * walk_cost octile start l)%R) /\
  ((forall l, ~ walk m n o start l c) -> grid_get (o_cost st) c = Ok None).
Proof.
  intros C ltb add zero one diag val EX m n occ o start fuel st0 st c U A Hs Hf E Hc. destruct (update_stored ltb add zero one diag val EX m n occ o start fuel st0 st c U A Hs Hf E Hc) as (H1 & H2).
  split; auto. intros l W. destruct (H1 l W) as (x & Ex & L1 & L2 & _). exists x. split; auto. split; auto. pose proof (walk_length_cost m n o l start c W). pose proof sqrt2_bounds. nra.
Qed.
Print Assumptions C50_shortest_partial.

(** On a map without obstacles, it is the length of a shortest walk. *)
Theorem C50_free_map :
  forall (C : Type) ltb add (zero one diag : C) val, exact ltb add zero one diag val ->
  forall m n occ o start fuel st0 st c, updated ltb add zero one diag m n st0 -> answers m n occ o -> inside m n start -> (Z.to_nat m * Z.to_nat n < fuel)%nat ->
  oh_update ltb add zero one diag fuel m n occ start st0 = Ok st -> inside m n c -> (forall k, inside m n k -> o k = false) ->
  exists x, grid_get (o_cost st) c = Ok (Some x) /\ val x = octile_distance start c /\
  (exists l, walk m n o start l c /\ val x = walk_cost octile start l) /\ (forall l, walk m n o start l c -> val x <= walk_cost octile start l)%R.
Proof.
  intros C ltb add zero one diag val EX m n occ o start fuel st0 st c U A Hs Hf E Hc Fr. destruct (update_stored ltb add zero one diag val EX m n occ o start fuel st0 st c U A Hs Hf E Hc) as (H1 & _).
  destruct (free_walk m n o start Hs Fr c Hc) as (l & W). destruct (H1 l W) as (x & Ex & L1 & _ & L2). exists x. split; auto. split; auto. split; auto.
  intros l' W'. rewrite (L2 Fr). pose proof (od_walk m n o start l' start c W'). rewrite od_refl in H. lra.
Qed.
Print Assumptions C50_free_map.

(** A goal outside the map: nothing is explored. *)
Theorem C50_goal_outside :
  forall (C : Type) ltb add (zero one diag : C) m n occ start fuel st0, updated ltb add zero one diag m n st0 -> cell_is_valid start = false ->
  exists st, oh_update ltb add zero one diag fuel m n occ start st0 = Ok st /\ forall c, inside m n c -> grid_get (o_explored st) c = Ok false /\ grid_get (o_cost st) c = Ok None.
Proof. exact @update_outside. Qed.
Print Assumptions C50_goal_outside.

(** A map with a wall, ... *)
Definition wall (c : cell) : bool := cell_eqb c (Cell 1 1) || cell_eqb c (Cell 2 1).
Definition new45 : ostate zr2 := match oh_new 4 5 with Ok st => st | _ => OState (Grid 0 0 []) (Grid 0 0 []) end.
Example new45_updated : updated zr2_ltb zr2_add (0, 0) (1, 0) (0, 1) 4 5 new45.
Proof. apply updated_new. reflexivity. Qed.
Example wall_answers : answers 4 5 (fun c => Ok (wall c)) wall.
Proof. intros c _. reflexivity. Qed.
Definition after45 : ostate zr2 :=
  match oh_update zr2_ltb zr2_add (0, 0) (1, 0) (0, 1) 21 4 5 (fun c => Ok (wall c)) (Cell 3 4) new45 with Ok st => st | _ => new45 end.
Definition around : list cell := [Cell 3 3; Cell 3 2; Cell 3 1; Cell 2 0; Cell 1 0].

(** ... on which a stored cost is not that of a shortest walk: C50 is refuted. The cost in the frontier is compared with itself,
    so a cell that is reached again with a lower cost is never improved. *)
Theorem C50_shortest_refuted :
  exists st x, oh_update zr2_ltb zr2_add (0, 0) (1, 0) (0, 1) 21 4 5 (fun c => Ok (wall c)) (Cell 3 4) new45 = Ok st /\
  grid_get (o_cost st) (Cell 1 0) = Ok (Some x) /\ walk 4 5 wall (Cell 3 4) around (Cell 1 0) /\ (walk_cost octile (Cell 3 4) around < zr2_val x)%R.
Proof.
  exists after45, (0, 4). split; [vm_compute; reflexivity|]. split; [vm_compute; reflexivity|]. split.
  - repeat split; cbn; try lia; try (intros (_ & H & _); lia); try (intros (H & _); lia); try (intros (_ & _ & H & H2); vm_compute in H, H2; discriminate).
  - unfold around, zr2_val. cbn. pose proof sqrt2_bounds. lra.
Qed.
Print Assumptions C50_shortest_refuted.

(** If the map has grown since the heuristic was made, the update writes outside its grids. *)
Theorem C50_resized_map_refuted :
  exists st, oh_new 1 1 = Ok st /\ oh_update zr2_ltb zr2_add (0, 0) (1, 0) (0, 1) 5 2 2 (fun _ => Ok false) (Cell 0 0) st = UB.
Proof. eexists. split; [reflexivity|]. vm_compute. reflexivity. Qed.
Print Assumptions C50_resized_map_refuted.

Local Open Scope R_scope.
(** ** C65 *)

(** The value is finite, at least the distance to the goal, and otherwise that of a walk on the grid. *)
Theorem C65_value_partial :
  forall f reverse forward goal position m n occ o start fuel st0 st c,
  fr_rows f = m -> fr_cols f = n -> updated Rltb Rplus 0 1 (sqrt 2) m n st0 -> answers m n occ o -> inside m n start -> (Z.to_nat m * Z.to_nat n < fuel)%nat ->
  oh_update Rltb Rplus 0 1 (sqrt 2) fuel m n occ start st0 = Ok st -> world_to_cell f position false = Ok c ->
  exists v, oh_value f reverse forward goal position st = Ok (Some v) /\ distance position goal <= v /\
    (v = distance position goal \/
     exists l, walk m n o start l c /\ v = Rmin reverse forward * (fr_res f * walk_cost octile start l) - sqrt 2 * fr_res f).
Proof.
  intros f reverse forward goal position m n occ o start fuel st0 st c Em En U A Hs Hf E Ec.
  destruct (value_spec f reverse forward goal position m n occ o start fuel st0 st c Em En U A Hs Hf E Ec) as (v & Ev & H). exists v. split; auto. split; [eapply value_euclid; eauto|].
  destruct H as [(Hc & l & W & -> & _)|(_ & ->)]; auto. unfold Rmax. destruct (Rle_dec _ _); auto. right. exists l. split; auto. ring.
Qed.
Print Assumptions C65_value_partial.

(** Refuted: a cost multiplier below 1 is not applied to the distance. *)
Theorem C65_multiplier_refuted :
  forall f reverse forward goal position st v, position <> goal -> Rmin reverse forward < 1 ->
  oh_value f reverse forward goal position st = Ok (Some v) -> Rmin reverse forward * distance position goal < v.
Proof.
  intros f reverse forward [gx gy] [x y] st v N Hm H. apply value_euclid in H. assert (0 < distance (x, y) (gx, gy)); [|nra]. unfold distance. cbn. apply sqrt_lt_R0.
  pose proof (Rle_0_sqr (gx - x)) as P1. pose proof (Rle_0_sqr (gy - y)) as P2. unfold Rsqr in *. assert (Q : forall a b, a <> b -> 0 < (a - b) * (a - b)) by (intros a b Hab; apply (Rsqr_pos_lt (a - b)); intros K; apply Hab; lra).
  destruct (Req_dec gx x) as [->|E1]; [|specialize (Q gx x E1); lra]. destruct (Req_dec gy y) as [->|E2]; [|specialize (Q gy y E2); lra]. now destruct N.
Qed.
Print Assumptions C65_multiplier_refuted.

(** Refuted: on a map without obstacles and with both multipliers 1, the car drives straight ahead to the goal for less than the value. *)
Definition map50 : frames := Frames 1 50 50 (0, 0) (0, 0) (0, 0).
Definition slope : pose := Pose 0 0 (atan (/ 2)).

Theorem C65_overestimate_refuted :
  exists st0 st s v, updated Rltb Rplus 0 1 (sqrt 2) 50 50 st0 /\
  oh_update Rltb Rplus 0 1 (sqrt 2) (S (Z.to_nat 50 * Z.to_nat 50)) 50 50 (fun _ => Ok false) (Cell 40 20) st0 = Ok st /\
  world_to_cell map50 (40, 20) true = Ok (Cell 40 20) /\ Straight_model.position (driven 1 SStraight slope s) = (40, 20) /\
  oh_value map50 1 1 (40, 20) (Straight_model.position slope) st = Ok (Some v) /\ 0 < s < v.
Proof.
  assert (N : exists st0 : ostate R, oh_new 50 50 = Ok st0) by (unfold oh_new; destruct (proj2 (@grid_new_iff (option R) 50 50 None)) as (g & Eg); [lia|]; rewrite Eg; cbn [bind]; destruct (proj2 (@grid_new_iff bool 50 50 false)) as (e & Ee); [lia|]; rewrite Ee; cbn [bind]; eauto).
  destruct N as (st0 & E0). exists st0. assert (U : updated Rltb Rplus 0 1 (sqrt 2) 50 50 st0) by now apply updated_new.
  assert (A : answers 50 50 (fun _ => Ok false) (fun _ => false)) by (intros c _; reflexivity). assert (Hs : inside 50 50 (Cell 40 20)) by (split; cbn; lia).
  destruct (C50_explores_reachable R Rltb Rplus 0 1 (sqrt 2) (fun x => x) exact_R 50 50 _ _ (Cell 40 20) (S (Z.to_nat 50 * Z.to_nat 50)) st0 U A Hs (Nat.lt_succ_diag_r _)) as (st & Eu & _).
  exists st, (sqrt 2000). assert (Ec : world_to_cell map50 (Straight_model.position slope) false = Ok (Cell 0 0)).
  { unfold world_to_cell, grid_to_cell, map50, slope, Straight_model.position. cbn [fst snd fr_world_grid fr_res px py]. replace ((0 - 0) / 1) with (IZR 0) by field. rewrite cast_IZR by (unfold is_int, int_min, int_max; lia). reflexivity. }
  destruct (value_spec map50 1 1 (40, 20) (Straight_model.position slope) 50 50 _ _ (Cell 40 20) (S (Z.to_nat 50 * Z.to_nat 50)) st0 st (Cell 0 0) eq_refl eq_refl U A Hs (Nat.lt_succ_diag_r _) Eu Ec) as (v & Ev & H).
  exists v. split; auto. split; auto. split.
  { unfold world_to_cell, grid_to_cell, map50. cbn [fst snd fr_world_grid fr_res]. replace ((40 - 0) / 1) with (IZR 40) by field. replace ((20 - 0) / 1) with (IZR 20) by field. rewrite !cast_IZR by (unfold is_int, int_min, int_max; lia). reflexivity. }
  assert (S5 : 0 < sqrt 2000) by (apply sqrt_lt_R0; lra). split.
  { unfold Straight_model.position, driven, slope. cbn [px py pth]. rewrite cos_atan, sin_atan. unfold Rsqr.
    assert (Q : sqrt 2000 = 40 * sqrt (1 + / 2 * / 2)). { replace 2000 with ((40 * 40) * (1 + / 2 * / 2)) by field. rewrite sqrt_mult by lra. rewrite sqrt_square by lra. reflexivity. }
    rewrite Q. assert (0 < sqrt (1 + / 2 * / 2)) by (apply sqrt_lt_R0; lra). f_equal; field; lra. }
  split; auto. split; auto. destruct H as [(_ & l & W & -> & Fr)|(H & _)].
  - rewrite (Fr (fun _ _ => eq_refl)). eapply Rlt_le_trans; [|apply Rmax_l]. unfold octile_distance. cbn [row col map50 fr_res]. rewrite Rmin_left by lra.
    change (Z.max (Z.abs (40 - 0)) (Z.abs (20 - 0)) - Z.min (Z.abs (40 - 0)) (Z.abs (20 - 0)))%Z with 20%Z. change (Z.min (Z.abs (40 - 0)) (Z.abs (20 - 0)))%Z with 20%Z.
    assert (sqrt 2000 < 45) by (apply Rlt_le_trans with (sqrt (45 * 45)); [apply sqrt_lt_1_alt; lra|rewrite sqrt_square by lra; lra]). pose proof sqrt2_bounds. lra.
  - exfalso. destruct H as [H|H]; [apply H; split; cbn; lia|]. destruct (free_walk 50 50 (fun _ => false) (Cell 40 20) Hs (fun _ _ => eq_refl) (Cell 0 0)) as (l & W); [split; cbn; lia|]. now apply (H l).
Qed.
Print Assumptions C65_overestimate_refuted.
