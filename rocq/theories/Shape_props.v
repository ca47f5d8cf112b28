(** Properties C73 and C74 of obstacle shapes. *)
From Coq Require Import Reals Lra.
From Verif Require Import Base RealBase Grid_model Grid_spec Raster_model Coords_model Pose_model Straight_model Straight_spec
  Shape_model Shape_spec Shape_proofs Outline_proofs Enter_proofs.
From Coq Require Import ZifyBool ZifyNat ZifyN.
Local Open Scope R_scope.

(** C73. The polygon that stands for a circle, placed anywhere, is convex, contains the circle, and exceeds it by a factor of at
    most [1 / cos (pi / count)]. *)
Theorem C73_circle :
  forall p r count vs, circle_vertices r count = Ok vs -> (3 <= count)%Z -> 0 < r ->
  convex (map (place p) vs) /\ length vs = Z.to_nat count /\
  (forall q, distance (position p) q <= r -> in_polygon (map (place p) vs) q) /\
  (forall q, in_polygon (map (place p) vs) q -> distance (position p) q <= r / cos (PI / IZR count)) /\
  (forall q, on_outline (map (place p) vs) q -> r <= distance (position p) q <= r / cos (PI / IZR count)).
Proof. exact circle_placed. Qed.
Print Assumptions C73_circle.

(** A regular polygon has its vertices on the circle, and contains the disc of radius [r * cos (pi / count)]. *)
Theorem C73_regular_polygon :
  forall p r count vs, regular_vertices r count = Ok vs -> (3 <= count)%Z -> 0 < r ->
  convex (map (place p) vs) /\ length vs = Z.to_nat count /\
  (forall q, distance (position p) q <= r * cos (PI / IZR count) -> in_polygon (map (place p) vs) q) /\
  (forall q, in_polygon (map (place p) vs) q -> distance (position p) q <= r) /\
  (forall q, on_outline (map (place p) vs) q -> r * cos (PI / IZR count) <= distance (position p) q <= r) /\
  (forall v, In v vs -> distance (position p) (place p v) = r).
Proof. exact regular_placed. Qed.
Print Assumptions C73_regular_polygon.

(** A rectangle is what its name says. *)
Theorem C73_rectangle :
  forall dx dy q, 0 < dx -> 0 < dy ->
  (in_polygon (rectangle_vertices dx dy) q <-> - (dx / 2) <= fst q <= dx / 2 /\ - (dy / 2) <= snd q <= dy / 2) /\
  (on_outline (rectangle_vertices dx dy) q <->
   (- (dx / 2) <= fst q <= dx / 2 /\ - (dy / 2) <= snd q <= dy / 2) /\ (Rabs (fst q) = dx / 2 \/ Rabs (snd q) = dy / 2)).
Proof. intros dx dy q Hx Hy. split; [now apply rectangle_spec|now apply rectangle_outline]. Qed.
Print Assumptions C73_rectangle.

(** The pose of an obstacle moves its shape without changing it. *)
Theorem C73_rigid :
  forall p, (forall a b, distance (place p a) (place p b) = distance a b) /\ place p (0, 0) = position p /\
  (forall a b q, left_of (place p a) (place p b) (place p q) <-> left_of a b q) /\ (forall q, exists q0, q = place p q0).
Proof.
  intros p. split; [apply place_distance|]. split; [apply place_origin|]. split; [apply place_left|apply place_onto].
Qed.
Print Assumptions C73_rigid.

Example C73_shapes : (exists vs, circle_vertices 1 8 = Ok vs) /\ (exists vs, regular_vertices 2 3 = Ok vs) /\
  place (Pose 1 2 (PI / 2)) (1, 0) = (1, 3).
Proof.
  split; [eexists; reflexivity|]. split; [eexists; reflexivity|]. unfold place, rot_x, rot_y. cbn. rewrite cos_PI2, sin_PI2. f_equal; ring.
Qed.

(** C74. The boundary cells of an obstacle follow its outline: every point of the outline that is not next to the border of the
    map is less than two cells away from the position of a boundary cell, per axis, and every boundary cell is less than one and
    a half cells away from the outline. *)
Theorem C74_boundary_follows_outline :
  forall f o l s, 0 < fr_res f -> ob_shape o = Some s -> boundary_cells f o = Ok l ->
  (forall q, on_shape (ob_pose o) s q -> off_border f q -> exists c, In c l /\ within (2 * fr_res f) q (cell_to_world f c)) /\
  (forall c, In c l -> exists q, on_shape (ob_pose o) s q /\ within (3 / 2 * fr_res f) q (cell_to_world f c)).
Proof. intros f o l s Hr Hs E. unfold boundary_cells in E. rewrite Hs in E. exact (shape_followed f (ob_pose o) s Hr l E). Qed.
Print Assumptions C74_boundary_follows_outline.

(** They are cells of the map. *)
Theorem C74_boundary_inside : forall f o l, boundary_cells f o = Ok l -> Forall (inside (fr_rows f) (fr_cols f)) l.
Proof. intros f o l. unfold boundary_cells. destruct (ob_shape o) as [s|]; [apply shape_inside|discriminate]. Qed.
Print Assumptions C74_boundary_inside.

(** They are defined when every vertex of the shape has representable coordinates in the grid, inside or outside the map. *)
Theorem C74_boundary_defined :
  forall f o pts, boundary_points o = Ok pts -> Forall (fun q => exists c, world_to_cell f q false = Ok c) pts -> exists l, boundary_cells f o = Ok l.
Proof.
  intros f o pts. unfold boundary_points, boundary_cells. destruct (ob_shape o) as [s|]; [|discriminate]. intros E. injection E as <-. apply shape_defined.
Qed.
Print Assumptions C74_boundary_defined.

(** The boundary of a composite shape is that of its parts. *)
Theorem C74_composite :
  forall f p cs l, shape_cells f p (Composite cs) = Ok l ->
  forall c, In c l <-> exists s l', In s cs /\ shape_cells f p s = Ok l' /\ In c l'.
Proof.
  intros f p cs. cbn [shape_cells]. induction cs as [|s cs IH]; intros l E c.
  - injection E as <-. split; [easy|]. intros (s & l' & [] & _).
  - destruct (shape_cells f p s) as [a| | |] eqn:Es; try discriminate. cbn [bind] in E.
    match type of E with bind ?x _ = _ => destruct x as [b| | |] eqn:Eb end; try discriminate. cbn [bind] in E. injection E as <-.
    rewrite in_app_iff, (IH b eq_refl). split.
    + intros [I|(s' & l' & I1 & I2 & I3)]; [exists s, a|exists s', l']; cbn; auto.
    + intros (s' & l' & [->|I1] & I2 & I3); [left; congruence|right; eauto].
Qed.
Print Assumptions C74_composite.
