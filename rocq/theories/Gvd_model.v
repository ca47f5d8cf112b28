(** Model of the distance maps of the generalized Voronoi diagram,
    /repo/planner/src/state_validator/gvd.{h,cpp}. The path cost is in PathCost_model.v. *)
From Verif Require Import Base Grid_model.
Open Scope Z_scope.

(** std::numeric_limits<int>::max(). *)
Definition inf : Z := 2147483647.
Definition no_cell : cell := Cell (-1) (-1).

(** gvd.h:55-58 and 93-96: what the grids [m_distance], [m_obstacle] (or [m_edge]), [m_toRaise] and [m_toProcess] hold for
    a cell. The four grids have the same size and are modelled by one grid of this record. [m_voro] is written but only
    read by dead code, and is not modelled. *)
Record info := Info { i_dist : Z; i_obst : cell; i_raise : bool; i_proc : bool }.

(** gvd.h:54-65 and 92-98: a distance map. [d_open] holds the entries of the priority queue in the order of insertion;
    [d_clock] counts the removals. *)
Record dmap := DMap { d_grid : grid info; d_open : list (cell * Z); d_clock : nat }.

(** gvd.cpp:12-17. Overflow of the squares is undefined. *)
Definition squared_distance (a b : cell) : res Z :=
  let dr := row a - row b in
  let dc := col a - col b in
  let d := dr * dr + dc * dc in
  if inf <? d then UB else Ok d.

(** gvd.cpp:19-28 and 191-198, the constructors. *)
Definition dm_new (rows columns : Z) : res dmap :=
  do g <- grid_new rows columns (Info inf no_cell false false);
  Ok (DMap g [] 0).

(** Access to a cell of the grids. *)
Definition cur (m : dmap) (c : cell) : res info := grid_get (d_grid m) c.
Definition put (m : dmap) (c : cell) (i : info) : res dmap :=
  do g <- grid_set (d_grid m) c i;
  Ok (DMap g (d_open m) (d_clock m)).
Definition set_raise (i : info) (b : bool) : info := Info (i_dist i) (i_obst i) b (i_proc i).
Definition set_proc (i : info) (b : bool) : info := Info (i_dist i) (i_obst i) (i_raise i) b.

(** [m_open.push]. *)
Definition push (m : dmap) (c : cell) (v : Z) : dmap := DMap (d_grid m) (d_open m ++ [(c, v)]) (d_clock m).

(** gvd.cpp:74-80 and 239-245, [SetObstacle] and [SetEdge]. *)
Definition set_cell (m : dmap) (s : cell) : res dmap :=
  do i <- cur m s;
  do m1 <- put m s (Info 0 s (i_raise i) true);
  Ok (push m1 s 0).

(** gvd.cpp:82-89 and 247-254, [UnsetObstacle] and [UnsetEdge]. *)
Definition unset_cell (m : dmap) (s : cell) : res dmap :=
  do m1 <- put m s (Info inf no_cell true true);
  Ok (push m1 s inf).

(** gvd.cpp:186-189 and 256-259, [IsOccupied]. *)
Definition is_occupied (m : dmap) (c : cell) : res bool :=
  if cell_is_valid c then (do i <- cur m c; Ok (cell_eqb (i_obst i) c)) else Ok false.

(** gvd.cpp:41-49 and 211-219: the neighbour [n] of a raised cell. *)
Definition raise_one (m : dmap) (n : cell) : res dmap :=
  do i <- cur m n;
  if cell_is_valid (i_obst i) && negb (i_raise i) then
    do o <- is_occupied m (i_obst i);
    let i1 := if negb o then Info inf no_cell true (i_proc i) else i in
    do m1 <- put m n (set_proc i1 true);
    Ok (push m1 n (i_dist i1))
  else Ok m.

(** gvd.cpp:105-131, [CheckVoro], which adds edges to the Voronoi map [v]; [occ] is the occupancy matrix. *)
Definition check_voro (occ : grid Z) (m v : dmap) (s n : cell) : res dmap :=
  do is <- cur m s;
  do jn <- cur m n;
  let obstS := i_obst is in
  let obstN := i_obst jn in
  do a <- grid_get occ obstS;
  do b <- grid_get occ obstN;
  if a =? b then Ok v
  else if ((1 <? i_dist is) || (1 <? i_dist jn)) && cell_is_valid obstN then
    if (1 <? Z.abs (row obstS - row obstN)) || (1 <? Z.abs (col obstS - col obstN)) then
      do sObstN <- squared_distance s obstN;
      do nObstS <- squared_distance n obstS;
      let sStability := sObstN - i_dist is in
      let nStability := nObstS - i_dist jn in
      if (sStability <? 0) || (nStability <? 0) then Ok v
      else
        do v1 <- (if sStability <=? nStability then set_cell v s else Ok v);
        if nStability <=? sStability then set_cell v1 n else Ok v1
    else Ok v
  else Ok v.

(** gvd.cpp:58-69 and 225-234: the neighbour [n] of a cell [s] that propagates its obstacle. The Voronoi map is [None]
    when it was not asked for, and for the Voronoi map itself. *)
Definition lower_one (occ : grid Z) (s : cell) (st : dmap * option dmap) (n : cell) : res (dmap * option dmap) :=
  let (m, v) := st in
  do i <- cur m n;
  if i_raise i then Ok (m, v)
  else
    do is <- cur m s;
    do d <- squared_distance (i_obst is) n;
    if d <? i_dist i then
      do m1 <- put m n (Info d (i_obst is) (i_raise i) true);
      Ok (push m1 n d, v)
    else
      match v with
      | None => Ok (m, v)
      | Some w => do w1 <- check_voro occ m w s n; Ok (m, Some w1)
      end.

Fixpoint fold_res {A B} (f : A -> B -> res A) (a : A) (l : list B) : res A :=
  match l with
  | [] => Ok a
  | b :: r => do a1 <- f a b; fold_res f a1 r
  end.

Section Update.
(** The entry that the priority queue returns: its index among the entries. It is one with the smallest value; the choice
    between several is left to the implementation and may depend on the past (the clock). *)
Variable top : nat -> list (cell * Z) -> nat.

(** gvd.cpp:35-36 and 205-206. *)
Definition pop (m : dmap) : res (cell * dmap) :=
  let k := top (d_clock m) (d_open m) in
  do e <- vget (d_open m) k;
  do q <- verase (d_open m) k;
  Ok (fst e, DMap (d_grid m) q (S (d_clock m))).

Variable occ : grid Z.

(** gvd.cpp:35-70 and 205-235: one iteration of [Update]. *)
Definition update_step (st : dmap * option dmap) : res (dmap * option dmap) :=
  let (m0, v) := st in
  do (s, m) <- pop m0;
  do i <- cur m s;
  if negb (i_proc i) then Ok (m, v)
  else if i_raise i then
    do m1 <- fold_res raise_one m (get_neighbors (rows (d_grid m)) (columns (d_grid m)) s);
    do i1 <- cur m1 s;
    do m2 <- put m1 s (set_raise i1 false);
    Ok (m2, v)
  else
    do o <- is_occupied m (i_obst i);
    if o then
      do v1 <- match v with None => Ok None | Some w => rmap Some (unset_cell w s) end;
      do m1 <- put m s (set_proc i false);
      fold_res (lower_one occ s) (m1, v1) (get_neighbors (rows (d_grid m)) (columns (d_grid m)) s)
    else Ok (m, v).

(** gvd.cpp:30-72 and 200-237, [Update]. *)
Fixpoint update (fuel : nat) (st : dmap * option dmap) : res (dmap * option dmap) :=
  match d_open (fst st) with
  | [] => Ok st
  | _ => match fuel with
         | O => NoFuel
         | S f => do st1 <- update_step st; update f st1
         end
  end.

(** The operations on the maps: gvd.h:25-98, and 291-299 of gvd.cpp, which calls both updates. [GOcc] stands for changes
    of the occupancy matrix. *)
Inductive gop := GSet (c : cell) | GUnset (c : cell) | GVoronoi | GSetEdge (c : cell) | GUnsetEdge (c : cell)
  | GOcc (g : grid Z) | GUpdateObstacles | GUpdateVoronoi.

End Update.

Record gst := GSt { g_obs : dmap; g_vor : option dmap; g_occ : grid Z }.

Definition g_new (occ : grid Z) : res gst :=
  do m <- dm_new (rows occ) (columns occ);
  Ok (GSt m None occ).

Definition on_voronoi (st : gst) (f : dmap -> res dmap) : res gst :=
  match g_vor st with
  | None => UB
  | Some v => do v1 <- f v; Ok (GSt (g_obs st) (Some v1) (g_occ st))
  end.

(** The queues of the two maps may resolve ties differently: [top] and [topv]. *)
Definition g_step (top topv : nat -> list (cell * Z) -> nat) (fuel : nat) (st : gst) (o : gop) : res gst :=
  match o with
  | GSet c => do m <- set_cell (g_obs st) c; Ok (GSt m (g_vor st) (g_occ st))
  | GUnset c => do m <- unset_cell (g_obs st) c; Ok (GSt m (g_vor st) (g_occ st))
  (* gvd.cpp:91-98, [GetVoronoiDistanceMap] *)
  | GVoronoi =>
      match g_vor st with
      | Some _ => Ok st
      | None => do v <- dm_new (rows (d_grid (g_obs st))) (columns (d_grid (g_obs st))); Ok (GSt (g_obs st) (Some v) (g_occ st))
      end
  | GSetEdge c => on_voronoi st (fun v => set_cell v c)
  | GUnsetEdge c => on_voronoi st (fun v => unset_cell v c)
  | GOcc g => Ok (GSt (g_obs st) (g_vor st) g)
  | GUpdateObstacles =>
      do (m, v) <- update top (g_occ st) fuel (g_obs st, g_vor st);
      Ok (GSt m v (g_occ st))
  | GUpdateVoronoi => on_voronoi st (fun v => rmap fst (update topv (g_occ st) fuel (v, None)))
  end.

Definition g_run (top topv : nat -> list (cell * Z) -> nat) (fuel : nat) (st : gst) (ops : list gop) : res gst :=
  fold_res (g_step top topv fuel) st ops.

(** gvd.h:36-39: [GetNearestObstacleCell] and the squared distance of [GetDistanceToNearestObstacle]. *)
Definition nearest_obstacle (m : dmap) (c : cell) : res cell := rmap i_obst (cur m c).
Definition squared_distance_to_obstacle (m : dmap) (c : cell) : res Z := rmap i_dist (cur m c).
