(** Model of grid cells and grids, /repo/planner/src/utils/grid.h and grid.cpp. *)
From Verif Require Import Base.
Open Scope Z_scope.

(** grid.h:8-14, [GridCellPosition]. [int] is modelled by [Z]. *)
Record cell := Cell { row : Z; col : Z }.

(** grid.cpp:6-9, [operator==]. *)
Definition cell_eqb (a b : cell) : bool := (row a =? row b) && (col a =? col b).

(** grid.h:16, [IsValid]. *)
Definition cell_is_valid (a : cell) : bool := (0 <=? row a) && (0 <=? col a).

(** grid.cpp:16-50, [GetNeighbors], in the order of the code. *)
Definition get_neighbors (rows columns : Z) (p : cell) : list cell :=
  if cell_is_valid p then
    let c := col p in
    let r := row p in
    let left := 0 <=? c - 1 in
    let right := c + 1 <? columns in
    let bottom := 0 <=? r - 1 in
    let top := r + 1 <? rows in
    (if left then
       [Cell r (c - 1)]
       ++ (if bottom then [Cell (r - 1) (c - 1)] else [])
       ++ (if top then [Cell (r + 1) (c - 1)] else [])
     else [])
    ++ (if right then
       [Cell r (c + 1)]
       ++ (if bottom then [Cell (r - 1) (c + 1)] else [])
       ++ (if top then [Cell (r + 1) (c + 1)] else [])
     else [])
    ++ (if bottom then [Cell (r - 1) c] else [])
    ++ (if top then [Cell (r + 1) c] else [])
  else [].

(** grid.cpp:52-62, [IsAdjacentTo] (the assertion is a precondition). *)
Definition is_adjacent_to (a b : cell) : bool :=
  if cell_eqb a b then false
  else
    let dr := row a - row b in
    let dc := col a - col b in
    (-1 <=? dr) && (dr <=? 1) && (-1 <=? dc) && (dc <=? 1).

(** grid.cpp:64-69, [IsDiagonalTo]. *)
Definition is_diagonal_to (a b : cell) : bool :=
  negb (row a =? row b) && negb (col a =? col b).

(** grid.h:64-99, [Grid<T>]: a row-major array. *)
Record grid (T : Type) := Grid { rows : Z; columns : Z; data : list T }.
Arguments Grid {T}.
Arguments rows {T}.
Arguments columns {T}.
Arguments data {T}.

(** grid.h:66-77, the constructor: throws on an invalid size. *)
Definition grid_new {T} (rows columns : Z) (val : T) : res (grid T) :=
  if (0 <? rows) && (0 <? columns) then Ok (Grid rows columns (repeat val (Z.to_nat (rows * columns))))
  else Throw.

(** grid.h:87, [operator[](i)] followed by [[j]]: the address computed for a cell. *)
Definition grid_index {T} (g : grid T) (p : cell) : Z := row p * columns g + col p.

(** Reading and writing a cell through [operator[]]: UB when the address is outside the array. *)
Definition grid_get {T} (g : grid T) (p : cell) : res T :=
  let i := grid_index g p in
  if (0 <=? i) then vget (data g) (Z.to_nat i) else UB.

Definition grid_set {T} (g : grid T) (p : cell) (v : T) : res (grid T) :=
  let i := grid_index g p in
  if (0 <=? i) then
    do d <- vset (data g) (Z.to_nat i) v;
    Ok (Grid (rows g) (columns g) d)
  else UB.

(** A sequence of writes, for histories. *)
Fixpoint grid_writes {T} (g : grid T) (ws : list (cell * T)) : res (grid T) :=
  match ws with
  | [] => Ok g
  | (p, v) :: ws' => do g' <- grid_set g p v; grid_writes g' ws'
  end.
