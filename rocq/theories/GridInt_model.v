(** Machine integers: the functions of /repo/planner/src/utils/grid.{h,cpp}, /repo/planner/src/state_validator/obstacle.cpp:7-61 and
    /repo/planner/src/state_validator/gvd.cpp:12-17, 105-131 once more, with a check of every operation on [int]. Overflow of a signed
    integer is undefined behaviour. The other models use [Z] for [int]. *)
From Verif Require Import Base Grid_model Raster_model Gvd_model.
Open Scope Z_scope.

(** The values of [int] (32 bits). *)
Definition min32 : Z := -2147483648.
Definition max32 : Z := 2147483647.
Definition fits (z : Z) : bool := (min32 <=? z) && (z <=? max32).
Definition int_of (z : Z) : res Z := if fits z then Ok z else UB.

(** [+], [-], [*] and [std::abs] on [int]. *)
Definition iadd (a b : Z) : res Z := int_of (a + b).
Definition isub (a b : Z) : res Z := int_of (a - b).
Definition imul (a b : Z) : res Z := int_of (a * b).
Definition iabs (a : Z) : res Z := int_of (Z.abs a).

(** grid.h:66-77, the constructor. *)
Definition igrid_new {T} (rows columns : Z) (val : T) : res (grid T) :=
  if (0 <? rows) && (0 <? columns) then
    do n <- imul rows columns;
    Ok (Grid rows columns (repeat val (Z.to_nat n)))
  else Throw.

(** grid.h:87, [operator[]]: the product is an [int]; the address of the element then is a pointer. *)
Definition igrid_get {T} (g : grid T) (p : cell) : res T :=
  do i <- imul (row p) (columns g);
  let k := i + col p in
  if (0 <=? k) then vget (data g) (Z.to_nat k) else UB.
Definition igrid_set {T} (g : grid T) (p : cell) (v : T) : res (grid T) :=
  do i <- imul (row p) (columns g);
  let k := i + col p in
  if (0 <=? k) then
    do d <- vset (data g) (Z.to_nat k) v;
    Ok (Grid (rows g) (columns g) d)
  else UB.

(** grid.cpp:16-50, [GetNeighbors]. *)
Definition ineighbors (rows columns : Z) (p : cell) : res (list cell) :=
  if cell_is_valid p then
    let c := col p in
    let r := row p in
    do cl <- isub c 1;
    do cr <- iadd c 1;
    do rb <- isub r 1;
    do rt <- iadd r 1;
    let left := 0 <=? cl in
    let right := cr <? columns in
    let bottom := 0 <=? rb in
    let top := rt <? rows in
    Ok ((if left then [Cell r cl] ++ (if bottom then [Cell rb cl] else []) ++ (if top then [Cell rt cl] else []) else [])
        ++ (if right then [Cell r cr] ++ (if bottom then [Cell rb cr] else []) ++ (if top then [Cell rt cr] else []) else [])
        ++ (if bottom then [Cell rb c] else [])
        ++ (if top then [Cell rt c] else []))
  else Ok [].

(** grid.cpp:52-62, [IsAdjacentTo]. *)
Definition iadjacent (a b : cell) : res bool :=
  if cell_eqb a b then Ok false
  else
    do dr <- isub (row a) (row b);
    do dc <- isub (col a) (col b);
    Ok ((-1 <=? dr) && (dr <=? 1) && (-1 <=? dc) && (dc <=? 1)).

(** obstacle.cpp:49-60, the loop, [n] iterations left; [x++] is part of each. *)
Fixpoint ibresenham (n : nat) (steep : bool) (dx dy ystep x y err : Z) : res (list cell) :=
  match n with
  | O => Ok []
  | S n' =>
    let c := if steep then Cell y x else Cell x y in
    do err1 <- isub err dy;
    do y' <- (if err1 <? 0 then iadd y ystep else Ok y);
    do err' <- (if err1 <? 0 then iadd err1 dx else Ok err1);
    do x' <- iadd x 1;
    do r <- ibresenham n' steep dx dy ystep x' y' err';
    Ok (c :: r)
  end.

(** obstacle.cpp:13-60. The loop runs for [x0 <= x <= x1]. *)
Definition iline_cells (p0 p1 : cell) : res (list cell) :=
  let x0 := row p0 in
  let y0 := col p0 in
  let x1 := row p1 in
  let y1 := col p1 in
  do a <- isub y1 y0;
  do aa <- iabs a;
  do b <- isub x1 x0;
  do bb <- iabs b;
  let steep := aa >? bb in
  let '(x0, y0, x1, y1) := if steep then (y0, x0, y1, x1) else (x0, y0, x1, y1) in
  let '(x0, y0, x1, y1) := if x0 >? x1 then (x1, y1, x0, y0) else (x0, y0, x1, y1) in
  do dx <- isub x1 x0;
  do d <- isub y1 y0;
  do dy <- iabs d;
  let err := Z.quot dx 2 in
  let ystep := if y0 <? y1 then 1 else -1 in
  ibresenham (Z.to_nat (x1 - x0 + 1)) steep dx dy ystep x0 y0 err.

(** obstacle.cpp:7-61, [RasterizeLine], from the cells of the end points. *)
Definition irasterize_line (rows columns : Z) (p0 p1 : cell) : res (list cell) :=
  rmap (filter (in_range rows columns)) (iline_cells p0 p1).

(** gvd.cpp:12-17, [SquaredDistance]. *)
Definition isquared_distance (a b : cell) : res Z :=
  do dr <- isub (row a) (row b);
  do dc <- isub (col a) (col b);
  do x <- imul dr dr;
  do y <- imul dc dc;
  iadd x y.

(** gvd.cpp:114, the test that two obstacle cells are not neighbours, *)
Definition iapart (a b : cell) : res bool :=
  do dr <- isub (row a) (row b);
  do ar <- iabs dr;
  if 1 <? ar then Ok true
  else
    do dc <- isub (col a) (col b);
    do ac <- iabs dc;
    Ok (1 <? ac).

(** and 115-118, the two stabilities. *)
Definition istability (d dist : Z) : res Z := isub d dist.
