(** Model of the coordinate conversions of OccupancyMap, /repo/planner/src/state_validator/occupancy_map.{h,cpp}.
    [float] and [double] are modelled by the reals here; see CoordsFloat_model.v for the rounding. *)
From Coq Require Import Reals.
From Verif Require Import Base RealBase Grid_model.
Local Open Scope R_scope.

Definition point : Type := R * R.
Definition padd (a b : point) : point := (fst a + fst b, snd a + snd b).
Definition psub (a b : point) : point := (fst a - fst b, snd a - snd b).

(** occupancy_map.h:120-128: [resolution], [m_rows], [m_columns], [m_localOrigin], [m_localGridOrigin],
    [m_worldGridOrigin]. *)
Record frames := Frames {
  fr_res : R; fr_rows : Z; fr_cols : Z;
  fr_local : point; fr_local_grid : point; fr_world_grid : point
}.

(** occupancy_map.h:25, 124-128. The grid origins are uninitialized there; they are given here by [junk]. *)
Definition fr_new (resolution : R) (junk : point) : frames := Frames resolution (-1) (-1) (0, 0) junk junk.

(** occupancy_map.h:40, [SetPosition]. *)
Definition fr_set_position (f : frames) (p : point) : frames :=
  Frames (fr_res f) (fr_rows f) (fr_cols f) p (fr_local_grid f) (fr_world_grid f).

(** occupancy_map.cpp:6-14, [InitializeSize], without the matrix (see ObstacleMap_model.v). *)
Definition fr_init (f : frames) (width height : R) : res frames :=
  let lg := (- width / 2, - height / 2) in
  let wg := padd (fr_local f) lg in
  do m <- cast_int (IZR (Rceil (width / fr_res f)));
  do n <- cast_int (IZR (Rceil (height / fr_res f)));
  Ok (Frames (fr_res f) m n (fr_local f) lg wg).

(** occupancy_map.cpp:27-30, [IsInsideMap] of a cell. *)
Definition inside_cell (f : frames) (c : cell) : bool :=
  ((row c >=? 0) && (row c <? fr_rows f) && (col c >=? 0) && (col c <? fr_cols f))%Z.

(** occupancy_map.h:91-99, [GridCellToGridPosition]. *)
Definition cell_to_grid (f : frames) (c : cell) : point := (IZR (row c) * fr_res f, IZR (col c) * fr_res f).

(** occupancy_map.h:101-117, [GridPositionToGridCell]. *)
Definition grid_to_cell (f : frames) (p : point) (bounded : bool) : res cell :=
  do r <- cast_int (fst p / fr_res f);
  do c <- cast_int (snd p / fr_res f);
  if negb bounded then Ok (Cell r c)
  else if inside_cell f (Cell r c) then Ok (Cell r c)
  else Ok (Cell (-1) (-1)).

(** occupancy_map.h:135-153. *)
Definition cell_to_local (f : frames) (c : cell) : point := padd (fr_local_grid f) (cell_to_grid f c).
Definition cell_to_world (f : frames) (c : cell) : point := padd (fr_world_grid f) (cell_to_grid f c).
(** occupancy_map.h:155-163. *)
Definition local_to_cell (f : frames) (p : point) (bounded : bool) : res cell :=
  grid_to_cell f (psub p (fr_local_grid f)) bounded.
(** occupancy_map.h:165-173. *)
Definition local_to_world (f : frames) (p : point) : point := padd (fr_local f) p.
(** occupancy_map.h:175-183. *)
Definition world_to_cell (f : frames) (p : point) (bounded : bool) : res cell :=
  grid_to_cell f (fst p - fst (fr_world_grid f), snd p - snd (fr_world_grid f)) bounded.
(** occupancy_map.h:185-193. *)
Definition world_to_local (f : frames) (p : point) : point := psub p (fr_local f).

(** occupancy_map.cpp:21-25, [IsInsideMap] of a position. *)
Definition inside_position (f : frames) (p : point) : res bool :=
  do c <- world_to_cell f p true; Ok (inside_cell f c).

(** Histories of calls. *)
Inductive frame_op := FPos (p : point) | FInit (width height : R).
Fixpoint fr_run (f : frames) (ops : list frame_op) : res frames :=
  match ops with
  | [] => Ok f
  | FPos p :: r => fr_run (fr_set_position f p) r
  | FInit w h :: r => do f' <- fr_init f w h; fr_run f' r
  end.
