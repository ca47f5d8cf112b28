(** C18: rasterized edges. *)
From Verif Require Import Base Grid_model Grid_spec Raster_model Raster_spec Raster_proofs.
Open Scope Z_scope.

(** C18. The cells produced for an edge are, in line order, the cells inside the map of a gap-free discrete line
    between the two end cells (see [discrete_line]), whatever the end cells and the map size. *)
Theorem C18_rasterized_edge :
  forall m n p q, exists l keep, discrete_line p q l /\ (forall c, keep c = true <-> inside m n c) /\
    rasterize_line m n p q = filter keep l.
Proof. exact rasterize_order. Qed.
Print Assumptions C18_rasterized_edge.

(** C18. The cells of a polygon are those of its edges, the last vertex joined to the first; reading the vertices
    never leaves the vector. *)
Theorem C18_polygon_edges :
  forall m n vs, exists l, polygon_cells m n vs = Ok l /\
    forall c, In c l <-> exists j a b, (j < length vs)%nat /\ nth_error vs j = Some a /\
      nth_error vs (Nat.modulo (j + 1) (length vs)) = Some b /\ In c (rasterize_line m n a b).
Proof. exact polygon_spec. Qed.
Print Assumptions C18_polygon_edges.

Theorem C18_polygon_vertices :
  forall m n vs l v, polygon_cells m n vs = Ok l -> In v vs -> inside m n v -> In v l.
Proof. exact polygon_vertices. Qed.
Print Assumptions C18_polygon_vertices.

Theorem C18_polygon_inside :
  forall m n vs l c, polygon_cells m n vs = Ok l -> In c l -> inside m n c.
Proof. exact polygon_inside. Qed.
Print Assumptions C18_polygon_inside.

Theorem C18_composite_union :
  forall m n shapes, exists l, composite_cells m n shapes = Ok l /\
    forall c, In c l <-> exists vs l', In vs shapes /\ polygon_cells m n vs = Ok l' /\ In c l'.
Proof. exact composite_spec. Qed.
Print Assumptions C18_composite_union.

(** A steep line that leaves the map, and a triangle. *)
Example C18_example_line :
  rasterize_line 4 4 (Cell 0 0) (Cell 3 7) = [Cell 0 0; Cell 0 1; Cell 1 2; Cell 1 3].
Proof. vm_compute. reflexivity. Qed.
Example C18_example_triangle : exists l, polygon_cells 10 10 [Cell 0 0; Cell 5 2; Cell 2 7] = Ok l /\ length l = 20%nat.
Proof. eexists. split; vm_compute; reflexivity. Qed.
