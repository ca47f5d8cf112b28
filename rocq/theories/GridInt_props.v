(** Property C98: arithmetic on [int] does not overflow on maps of usual size. *)
From Verif Require Import Base Grid_model Grid_spec Raster_model Gvd_model GridInt_model GridInt_proofs.
Open Scope Z_scope.

(** On a map of at most 32768 by 32768 cells nothing overflows: the grid is made and its cells are read and written, the neighbours of
    its cells are listed, and distances between its cells are computed, all with the mathematical result. *)
Theorem C98_usual_maps :
  forall m n, 0 < m <= 32768 -> 0 < n <= 32768 ->
  (forall T (v : T), igrid_new m n v = grid_new m n v) /\
  (forall T (g : grid T) p, rows g = m -> columns g = n -> inside m n p ->
     igrid_get g p = grid_get g p /\ forall v, igrid_set g p v = grid_set g p v) /\
  (forall p, inside m n p -> ineighbors m n p = Ok (get_neighbors m n p)) /\
  (forall p q, inside m n p -> inside m n q ->
     isquared_distance p q = Ok ((row p - row q) * (row p - row q) + (col p - col q) * (col p - col q)) /\
     isquared_distance p q = squared_distance p q /\
     iadjacent p q = Ok (is_adjacent_to p q) /\
     iapart p q = Ok ((1 <? Z.abs (row p - row q)) || (1 <? Z.abs (col p - col q)))).
Proof.
  intros m n Hm Hn. assert (m * n <= max32) by (unfold max32; nia).
  split; [|split; [|split]].
  - intros. now apply new_ok.
  - intros T g p <- <- Hp. split; [now apply get_ok|intros v; now apply set_ok].
  - intros p [H1 H2]. apply neighbors_ok; unfold max32; lia.
  - intros p q Hp Hq. assert (D : isquared_distance p q = squared_distance p q).
    { destruct Hp, Hq. apply squared_ok; unfold max32; lia. }
    split; [|split; [exact D|]].
    + rewrite D. apply (squared_defined m n); auto. unfold max32. nia.
    + destruct Hp, Hq. split; [apply adjacent_ok|apply apart_ok]; unfold max32; lia.
Qed.
Print Assumptions C98_usual_maps.

(** The exact bounds: the number of cells for the grid, *)
Theorem C98_grid_size :
  forall T m n (v : T), 0 < m -> 0 < n ->
  (m * n <= 2147483647 -> exists g, igrid_new m n v = Ok g /\ rows g = m /\ columns g = n) /\ (2147483647 < m * n -> igrid_new m n v = UB).
Proof.
  intros T m n v Hm Hn. split; intros H.
  - rewrite new_ok by exact H. unfold grid_new. destruct (Z.ltb_spec 0 m); [|lia]. destruct (Z.ltb_spec 0 n); [|lia].
    eexists. split; [reflexivity|auto].
  - now apply new_ub.
Qed.
Print Assumptions C98_grid_size.

(** and the square of the diagonal for the distance maps. *)
Theorem C98_distance_maps :
  forall m n, 0 < m <= 2147483647 -> 0 < n <= 2147483647 ->
  (forall p q, inside m n p -> inside m n q -> isquared_distance p q <> UB) <-> (m - 1) * (m - 1) + (n - 1) * (n - 1) <= 2147483647.
Proof.
  intros m n Hm Hn. split.
  - intros H. destruct (Z.le_gt_cases ((m - 1) * (m - 1) + (n - 1) * (n - 1)) 2147483647) as [L|L]; [exact L|].
    exfalso. apply (H (Cell 0 0) (Cell (m - 1) (n - 1))); [split; cbn [row col]; lia|split; cbn [row col]; lia|].
    rewrite squared_ok by (cbn [row col]; unfold max32; lia). apply squared_corners; try lia. exact L.
  - intros H p q Hp Hq. rewrite squared_ok; [|destruct Hp, Hq; unfold max32; lia..].
    rewrite (squared_defined m n p q Hp Hq H). discriminate.
Qed.
Print Assumptions C98_distance_maps.

(** Lines are drawn between all cells, also outside of the map, that are no farther apart than the largest [int]; and farther apart ones
    are undefined behaviour. Extreme coordinates are excluded. *)
Theorem C98_lines :
  forall m n p q,
  (-2147483648 < row p < 2147483647 -> -2147483648 < col p < 2147483647 -> -2147483648 < row q < 2147483647 -> -2147483648 < col q < 2147483647 ->
   Z.abs (row p - row q) <= 2147483647 -> Z.abs (col p - col q) <= 2147483647 -> irasterize_line m n p q = Ok (rasterize_line m n p q)) /\
  (2147483647 < Z.abs (row p - row q) \/ 2147483647 < Z.abs (col p - col q) -> irasterize_line m n p q = UB).
Proof.
  intros m n p q. split.
  - intros. apply raster_ok; auto; split; auto.
  - apply raster_ub.
Qed.
Print Assumptions C98_lines.

(** The stabilities of the Voronoi test are in range for all stored distances, the initial one included. *)
Theorem C98_stability : forall d e, 0 <= d <= 2147483647 -> 0 <= e <= 2147483647 -> istability d e = Ok (d - e).
Proof. exact stability_ok. Qed.
Print Assumptions C98_stability.

(** One cell more in both directions and the corners of the map are too far apart. *)
Example C98_too_large : isquared_distance (Cell 0 0) (Cell 32768 32768) = UB /\ isquared_distance (Cell 0 0) (Cell 32767 32767) = Ok 2147352578.
Proof. split; reflexivity. Qed.
Example C98_long_line : irasterize_line 3 3 (Cell (-2000000000) 0) (Cell 2000000000 0) = UB.
Proof. reflexivity. Qed.
Example C98_short_line : irasterize_line 3 3 (Cell (-2) 0) (Cell 2 2) = Ok [Cell 0 1; Cell 1 1; Cell 2 2].
Proof. reflexivity. Qed.
