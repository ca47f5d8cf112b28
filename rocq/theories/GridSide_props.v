(** C113: paths found on the grid do not cross the outlines drawn for the obstacles. *)
From Coq Require Import Reals.
From Verif Require Import Base RealBase Frontier_model Frontier_spec AStar_model Grid_model Grid_spec Coords_model Pose_model Raster_model Raster_spec
  ObstacleMap_model Shape_model World_model Gvd_spec World_spec AStarN2_model AStarN2_spec AStarN2_proofs AStarN2_props Bidir_model
  GridSide_spec GridSide_proofs GridDraw_proofs GridWorld_proofs WorldDemo_proofs.
Open Scope Z_scope.

(** C113. The cells of a polygon are those, inside the map, of a closed outline that joins its vertices by gap-free lines. *)
Theorem C113_polygon_outline :
  forall m n vs cells, polygon_cells m n vs = Ok cells ->
  exists ls, draws_polygon vs ls /\ outline vs ls /\ forall c, In c cells <-> inside m n c /\ exists l, In l ls /\ In c l.
Proof.
  intros m n vs cells E. destruct (drawn_polygon m n vs cells E) as (ls & H & H'). exists ls. split; auto. split; auto. now apply draws_outline.
Qed.
Print Assumptions C113_polygon_outline.

(** C113. A walk of permitted steps that starts in a free cell stays on one side of every closed outline of touching cells that are
    occupied (as far as they are on the map), and the line through the centres of its cells does not meet the outline. *)
Theorem C113_walk_keeps_side :
  forall m n occ vs ls, outline vs ls -> walled m n occ ls ->
  forall l p q, inside m n p -> occ p = false -> walk m n occ p l q ->
  on_one_side ls (p :: l) /\ enclosed ls q = enclosed ls p.
Proof. exact walk_side. Qed.
Print Assumptions C113_walk_keeps_side.

(** C113. In particular the paths returned by A* on a map; a goal on the other side is not reached. *)
Theorem C113_path_keeps_side :
  forall (C : Type) (ltb : C -> C -> bool) (add : C -> C -> C) (zero : C), strict_weak_order C ltb ->
  forall m n occ vs ls, outline vs ls -> walled m n occ ls ->
  forall cost h init goal fuel sol st, inside m n init -> occ init = false ->
    n2_search ltb add zero m n cost occ h init goal fuel = Ok (Some sol, st) ->
    exists path, get_path (Some sol) = Ok path /\ on_one_side ls path /\ In init path /\ In goal path.
Proof. exact @n2_side. Qed.
Print Assumptions C113_path_keeps_side.

Theorem C113_other_side_unreachable :
  forall (C : Type) (ltb : C -> C -> bool) (add : C -> C -> C) (zero : C), strict_weak_order C ltb ->
  forall m n occ vs ls, outline vs ls -> walled m n occ ls ->
  forall cost h init goal fuel, inside m n init -> occ init = false -> enclosed ls init <> enclosed ls goal ->
    (Z.to_nat m * Z.to_nat n < fuel)%nat -> exists st, n2_search ltb add zero m n cost occ h init goal fuel = Ok (None, st).
Proof. exact @n2_apart. Qed.
Print Assumptions C113_other_side_unreachable.

(** C113. The paths of the bidirectional search, from and to free cells. *)
Theorem C113_bidirectional_path_keeps_side :
  forall (C : Type) (ltb : C -> C -> bool) (add : C -> C -> C) (zero : C), strict_weak_order C ltb ->
  forall m n occ vs ls, outline vs ls -> walled m n occ ls ->
  forall cost costr hf hr init goal fuel b, inside m n init -> inside m n goal -> occ init = false -> occ goal = false ->
    bi_search cell_eqb ltb add zero hf hr (n2_succ m n cost occ) (n2_succ m n costr occ) true fuel init goal tt tt = Ok (true, b) ->
    exists path, bi_path (b_sol b) = Ok path /\ on_one_side ls path /\ In init path /\ In goal path.
Proof. exact @bi_side. Qed.
Print Assumptions C113_bidirectional_path_keeps_side.

(** C113. From the calls made to the map: every polygon of an obstacle that was added, and that stayed, has an outline between the
    cells of its vertices that the paths found on the map do not cross. *)
Theorem C113_obstacles_are_not_crossed :
  forall top topv, Gvd_spec.priority top -> Gvd_spec.priority topv ->
  forall resolution junk pre o x post, let ops := pre ++ WAdd o x :: post in let F := world_frames (fr_new resolution junk) ops in
  let m := fr_rows F in let n := fr_cols F in
  world_used (fr_new resolution junk) false false ops -> ~ In o (world_registered [] pre) -> kept F o x post ->
  exists k w, (forall fuel, (k <= fuel)%nat -> wd_run top topv fuel (wd_new resolution junk) ops = Ok w) /\ wd_frames w = F /\
  forall s vs, ob_shape x = Some s -> part s vs ->
  exists cs ls, Forall2 (fun v c => world_to_cell F (place (ob_pose x) v) false = Ok c) vs cs /\ draws_polygon cs ls /\
  forall occ, (forall c, inside m n c -> om_occupied (wd_map w) c = Ok (occ c)) ->
  forall (C : Type) (ltb : C -> C -> bool) (add : C -> C -> C) (zero : C), strict_weak_order C ltb ->
  forall cost init goal, inside m n init -> inside m n goal -> occ init = false -> occ goal = false ->
    (forall h fuel sol st, n2_search ltb add zero m n cost occ h init goal fuel = Ok (Some sol, st) ->
      exists path, get_path (Some sol) = Ok path /\ on_one_side ls path /\ In init path /\ In goal path) /\
    (forall costr hf hr fuel b, bi_search cell_eqb ltb add zero hf hr (n2_succ m n cost occ) (n2_succ m n costr occ) true fuel init goal tt tt = Ok (true, b) ->
      exists path, bi_path (b_sol b) = Ok path /\ on_one_side ls path /\ In init path /\ In goal path) /\
    (enclosed ls init <> enclosed ls goal -> forall h fuel, (Z.to_nat m * Z.to_nat n < fuel)%nat ->
      exists st, n2_search ltb add zero m n cost occ h init goal fuel = Ok (None, st)).
Proof. exact world_sides. Qed.
Print Assumptions C113_obstacles_are_not_crossed.

(** What [enclosed] means for a rectangle: a cell that is not on its outline is enclosed when it is strictly between its sides. *)
Theorem C113_rectangle :
  forall r0 c0 r1 c1 ls, r0 < r1 -> c0 < c1 -> draws_polygon [Cell r0 c0; Cell r0 c1; Cell r1 c1; Cell r1 c0] ls ->
  forall c, (forall l, In l ls -> ~ In c l) -> enclosed ls c = true <-> r0 < row c < r1 /\ c0 < col c < c1.
Proof. exact rectangle_sides. Qed.
Print Assumptions C113_rectangle.

(** The hypotheses are met by the map with a square of [demo20]. *)
Example C113_square : world_used f0 false false (demo_pre ++ [WAdd 0 (square 8)]) /\ ~ In 0%nat (world_registered [] demo_pre) /\
  kept (world_frames f0 (demo_pre ++ [WAdd 0 (square 8)])) 0 (square 8) [] /\
  part (Polygon (rectangle_vertices (2 * IZR 8) (2 * IZR 8))) (rectangle_vertices (2 * IZR 8) (2 * IZR 8)).
Proof.
  split; [|split; [easy|split; [constructor|constructor]]].
  assert (Q : forall a b f s md, world_used f s md (a ++ b) -> world_used f s md a).
  { induction a as [|z a IH]; intros b f s md H; [exact I|]. destruct H as [H1 H2]. split; auto. eapply IH. exact H2. }
  apply (Q _ [WUpdate]). apply demo_used. now right.
Qed.

(** A rhombus with slanted sides, whose corners can only be passed diagonally: the outline, its cells, and a search from the inside. *)
Definition rhombus : list cell := [Cell 1 4; Cell 4 7; Cell 7 4; Cell 4 1].
Definition rhombus_occ (c : cell) : bool := existsb (fun l => existsb (cell_eqb c) l) (polygon_lines rhombus).
Example C113_rhombus : draws_polygon rhombus (polygon_lines rhombus) /\ outline rhombus (polygon_lines rhombus) /\
  walled 9 9 rhombus_occ (polygon_lines rhombus) /\
  map (enclosed (polygon_lines rhombus)) [Cell 4 4; Cell 2 4; Cell 3 5; Cell 2 6; Cell 0 0; Cell 8 4] = [true; true; true; false; false; false] /\
  match n2_search Z.ltb Z.add 0 9 9 unit_cost rhombus_occ (fun _ => 0) (Cell 4 4) (Cell 0 0) 82 with Ok (sol, _) => Some (get_path sol) | _ => None end = Some (Ok []) /\
  match n2_search Z.ltb Z.add 0 9 9 unit_cost rhombus_occ (fun _ => 0) (Cell 4 4) (Cell 2 4) 82 with Ok (sol, _) => Some (get_path sol) | _ => None end =
    Some (Ok [Cell 4 4; Cell 3 4; Cell 2 4]).
Proof.
  split; [apply polygon_lines_draw|]. split; [apply draws_outline, polygon_lines_draw|]. split.
  - intros l c Hl Hc _. apply existsb_exists. exists l. split; auto. apply existsb_exists. exists c. split; auto. now apply cell_decides.
  - vm_compute. repeat split; reflexivity.
Qed.
(** Without the rule about corners, the step from (3, 5) to (2, 6) leaves the rhombus. *)
Example C113_corner : touches (Cell 3 5) (Cell 2 6) /\ rhombus_occ (Cell 3 5) = false /\ rhombus_occ (Cell 2 6) = false /\
  enclosed (polygon_lines rhombus) (Cell 3 5) = true /\ enclosed (polygon_lines rhombus) (Cell 2 6) = false.
Proof. vm_compute. repeat split; reflexivity. Qed.
(** The cells at the ends have to be free: a search that starts on the outline may go to either side, and the bidirectional search
    reaches a goal on the outline. *)
Example C113_from_the_outline :
  (exists sol st, n2_search Z.ltb Z.add 0 9 9 unit_cost rhombus_occ (fun _ => 0) (Cell 1 4) (Cell 4 4) 82 = Ok (Some sol, st) /\ get_path (Some sol) = Ok [Cell 1 4; Cell 2 4; Cell 3 4; Cell 4 4]) /\
  (exists sol st, n2_search Z.ltb Z.add 0 9 9 unit_cost rhombus_occ (fun _ => 0) (Cell 1 4) (Cell 0 4) 82 = Ok (Some sol, st) /\ get_path (Some sol) = Ok [Cell 1 4; Cell 0 4]) /\
  match bi_search cell_eqb Z.ltb Z.add 0 (fun _ => 0) (fun _ => 0) (n2_succ 9 9 unit_cost rhombus_occ) (n2_succ 9 9 unit_cost rhombus_occ) true 82 (Cell 0 4) (Cell 1 4) tt tt with
  | Ok (ok, b) => ok = true /\ bi_path (b_sol b) = Ok [Cell 0 4; Cell 0 4; Cell 1 4] | _ => False end.
Proof.
  split; [|split].
  - eexists. eexists. split; [vm_compute; reflexivity|]. reflexivity.
  - eexists. eexists. split; [vm_compute; reflexivity|]. reflexivity.
  - vm_compute. repeat split; reflexivity.
Qed.
