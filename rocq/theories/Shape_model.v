(** Model of the obstacle shapes, /repo/planner/src/state_validator/obstacle.{h,cpp}. [float] and [double] are modelled by the
    reals. A composite shape that contains itself, on which the code does not return, has no counterpart here. *)
From Coq Require Import Reals.
From Verif Require Import Base RealBase Grid_model Coords_model Pose_model Raster_model.
Local Open Scope R_scope.

(** obstacle.h:34-50 and 52-72, [CompositeShape] and [PolygonShape]. *)
Inductive shape := Polygon (vs : list point) | Composite (cs : list shape).

(** obstacle.cpp:96-103, the [count] vertices of [RegularPolygonShape]; a negative count makes [reserve] throw. *)
Definition regular_vertices (radius : R) (count : Z) : res (list point) :=
  if (count <? 0)%Z then Throw
  else Ok (map (fun i => (radius * cos (2 * PI * INR i / IZR count), radius * sin (2 * PI * INR i / IZR count))) (seq 0 (Z.to_nat count))).

(** obstacle.cpp:105-110, [RectangleShape]. *)
Definition rectangle_vertices (dx dy : R) : list point :=
  let dx2 := dx / 2 in
  let dy2 := dy / 2 in
  [(dx2, dy2); (- dx2, dy2); (- dx2, - dy2); (dx2, - dy2)].

(** obstacle.cpp:112-122, [CircleShape]. In exact arithmetic the inflated radius is not defined for two vertices. *)
Definition circle_vertices (radius : R) (count : Z) : res (list point) :=
  regular_vertices (radius * (1 / cos (PI / IZR count))) count.

(** obstacle.cpp:92, a vertex of the shape placed at [p]. *)
Definition place (p : pose) (v : point) : point :=
  (rot_x (pth p) (fst v) (snd v) + px p, rot_y (pth p) (fst v) (snd v) + py p).

(** obstacle.cpp:70-75 and 87-94, [GetVerticesPosition]: the points appended to [points]. *)
Fixpoint vertices_position (p : pose) (s : shape) : list point :=
  match s with
  | Polygon vs => map (place p) vs
  | Composite cs => flat_map (vertices_position p) cs
  end.

Fixpoint map_res {A B} (g : A -> res B) (l : list A) : res (list B) :=
  match l with
  | [] => Ok []
  | a :: r => do b <- g a; do bs <- map_res g r; Ok (b :: bs)
  end.

(** obstacle.cpp:63-68 and 77-85, [GetGridCellsPosition]: the cells appended to [cells]. [RasterizeLine] converts both ends of an
    edge (lines 10-11); every vertex is converted once here. *)
Fixpoint shape_cells (f : frames) (p : pose) (s : shape) : res (list cell) :=
  match s with
  | Polygon vs =>
      do cs <- map_res (fun v => world_to_cell f v false) (map (place p) vs);
      polygon_cells (fr_rows f) (fr_cols f) cs
  | Composite cs =>
      (fix go (l : list shape) : res (list cell) :=
         match l with
         | [] => Ok []
         | c :: r => do a <- shape_cells f p c; do b <- go r; Ok (a ++ b)
         end) cs
  end.

(** obstacle.h:85-99, [Obstacle]: no shape stands for a null pointer. *)
Record obst := Obst { ob_shape : option shape; ob_pose : pose }.

(** obstacle.cpp:124-129, [GetBoundaryGridCellPosition]. *)
Definition boundary_cells (f : frames) (o : obst) : res (list cell) :=
  match ob_shape o with None => UB | Some s => shape_cells f (ob_pose o) s end.

(** obstacle.cpp:131-136, [GetBoundaryWorldPosition]. *)
Definition boundary_points (o : obst) : res (list point) :=
  match ob_shape o with None => UB | Some s => Ok (vertices_position (ob_pose o) s) end.
