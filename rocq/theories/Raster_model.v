(** Model of the rasterization of obstacle outlines, /repo/planner/src/state_validator/obstacle.cpp:7-94.
    Machine integers are modelled by [Z]: cell coordinates are assumed small enough for the differences
    computed here not to overflow. The end points are given by their cells (obstacle.cpp:10-16). *)
From Verif Require Import Base Grid_model.
Open Scope Z_scope.

(** obstacle.cpp:49-60, the loop, [n] iterations left. *)
Fixpoint bresenham (n : nat) (steep : bool) (dx dy ystep x y err : Z) : list cell :=
  match n with
  | O => []
  | S n' =>
    let c := if steep then Cell y x else Cell x y in
    let err1 := err - dy in
    let y' := if err1 <? 0 then y + ystep else y in
    let err' := if err1 <? 0 then err1 + dx else err1 in
    c :: bresenham n' steep dx dy ystep (x + 1) y' err'
  end.

(** obstacle.cpp:13-60 without the range test of line 52. *)
Definition line_cells (p0 p1 : cell) : list cell :=
  let x0 := row p0 in
  let y0 := col p0 in
  let x1 := row p1 in
  let y1 := col p1 in
  let steep := Z.abs (y1 - y0) >? Z.abs (x1 - x0) in
  let '(x0, y0, x1, y1) := if steep then (y0, x0, y1, x1) else (x0, y0, x1, y1) in
  let '(x0, y0, x1, y1) := if x0 >? x1 then (x1, y1, x0, y0) else (x0, y0, x1, y1) in
  let dx := x1 - x0 in
  let dy := Z.abs (y1 - y0) in
  let err := Z.quot dx 2 in
  let ystep := if y0 <? y1 then 1 else -1 in
  bresenham (Z.to_nat (x1 - x0 + 1)) steep dx dy ystep x0 y0 err.

(** obstacle.cpp:52. *)
Definition in_range (rows columns : Z) (c : cell) : bool :=
  (0 <=? row c) && (row c <? rows) && (0 <=? col c) && (col c <? columns).

(** obstacle.cpp:7-61, [RasterizeLine]: the cells appended to [line]. *)
Definition rasterize_line (rows columns : Z) (p0 p1 : cell) : list cell :=
  filter (in_range rows columns) (line_cells p0 p1).

(** obstacle.cpp:77-85, [PolygonShape::GetGridCellsPosition], from the cells of the vertices. *)
Fixpoint polygon_loop (rows columns : Z) (vs : list cell) (n i : nat) : res (list cell) :=
  match n with
  | O => Ok []
  | S n' =>
    do a <- vget vs (Nat.modulo i (length vs));
    do b <- vget vs (Nat.modulo (i + 1) (length vs));
    do rest <- polygon_loop rows columns vs n' (i + 1);
    Ok (rasterize_line rows columns a b ++ rest)
  end.
Definition polygon_cells (rows columns : Z) (vs : list cell) : res (list cell) :=
  polygon_loop rows columns vs (length vs) 0.

(** obstacle.cpp:63-68, [CompositeShape::GetGridCellsPosition]. *)
Fixpoint composite_cells (rows columns : Z) (shapes : list (list cell)) : res (list cell) :=
  match shapes with
  | [] => Ok []
  | vs :: rest =>
    do a <- polygon_cells rows columns vs;
    do b <- composite_cells rows columns rest;
    Ok (a ++ b)
  end.
