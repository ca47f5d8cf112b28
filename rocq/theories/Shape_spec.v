(** Vocabulary for plane shapes. *)
From Coq Require Import Reals.
From Verif Require Import Base Coords_model Pose_model Straight_spec Shape_model.
Local Open Scope R_scope.

(** The edges of a polygon: consecutive vertices, the last one followed by the first. *)
Definition edge (vs : list point) (a b : point) : Prop :=
  exists j, (j < length vs)%nat /\ nth_error vs j = Some a /\ nth_error vs (Nat.modulo (j + 1) (length vs)) = Some b.

(** The point of the segment from [a] to [b] at ratio [t]. *)
Definition along (a b : point) (t : R) : point := (fst a + t * (fst b - fst a), snd a + t * (snd b - snd a)).

(** [q] lies on the outline of the polygon. *)
Definition on_outline (vs : list point) (q : point) : Prop := exists a b t, edge vs a b /\ 0 <= t <= 1 /\ q = along a b t.

(** [q] lies to the left of the line from [a] to [b], or on it. *)
Definition left_of (a b q : point) : Prop :=
  0 <= (fst b - fst a) * (snd q - snd a) - (snd b - snd a) * (fst q - fst a).

(** [q] lies in the convex polygon with the vertices [vs], given counterclockwise. *)
Definition in_polygon (vs : list point) (q : point) : Prop := forall a b, edge vs a b -> left_of a b q.

(** The vertices are given counterclockwise, and the polygon is convex. *)
Definition convex (vs : list point) : Prop := forall v, In v vs -> in_polygon vs v.

(** [q] lies on the outline of the shape placed at [p]. *)
Fixpoint on_shape (p : pose) (s : shape) (q : point) : Prop :=
  match s with
  | Polygon vs => exists q0, on_outline vs q0 /\ q = place p q0
  | Composite cs => (fix go (l : list shape) : Prop := match l with [] => False | c :: r => on_shape p c q \/ go r end) cs
  end.

(** The point [q] keeps one cell from the lower and two from the upper borders of the grid. *)
Definition off_border (f : frames) (q : point) : Prop :=
  fst (fr_world_grid f) + fr_res f <= fst q <= fst (fr_world_grid f) + (IZR (fr_rows f) - 2) * fr_res f /\
  snd (fr_world_grid f) + fr_res f <= snd q <= snd (fr_world_grid f) + (IZR (fr_cols f) - 2) * fr_res f.

(** Both coordinates of [q] are less than [d] away from those of [c]. *)
Definition within (d : R) (q c : point) : Prop := Rabs (fst q - fst c) < d /\ Rabs (snd q - snd c) < d.
