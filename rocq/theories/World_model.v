(** Model of an [ObstacleListOccupancyMap] as a whole: its frames (Coords_model.v), its registry of obstacles and occupancy matrix
    (ObstacleMap_model.v), the cells of its obstacles (Shape_model.v) and its distance map (Gvd_model.v).
    /repo/planner/src/state_validator/obstacle_list_occupancy_map.cpp, occupancy_map.cpp and gvd.cpp. *)
From Coq Require Import Reals.
From Verif Require Import Base RealBase Grid_model Coords_model Pose_model ObstacleMap_model Shape_model Gvd_model.
Local Open Scope R_scope.

(** The map: [m_obstacleDistanceMap] is null until the size is set. *)
Record world := World { wd_frames : frames; wd_map : omap; wd_dist : option gst }.

(** obstacle_list_occupancy_map.cpp:8-11, the constructor. *)
Definition wd_new (resolution : R) (junk : point) : world := World (fr_new resolution junk) om_new None.

Section World.
(** How the queues of the distance maps resolve ties, and the fuel of their updates. *)
Variables top topv : nat -> list (cell * Z) -> nat.
Variable fuel : nat.

(** Calls on the distance map. *)
Definition wd_call (w : world) (ops : list gop) : res world :=
  match wd_dist w with
  | None => UB
  | Some g => do g' <- g_run top topv fuel g ops; Ok (World (wd_frames w) (wd_map w) (Some g'))
  end.

(** occupancy_map.cpp:6-14, [InitializeSize]. *)
Definition wd_size (w : world) (width height : R) : res world :=
  do f <- fr_init (wd_frames w) width height;
  do m <- om_init (wd_map w) (fr_rows f) (fr_cols f);
  match om_matrix m with
  | None => UB
  | Some occ => do g <- g_new occ; Ok (World f m (Some g))
  end.

(** The occupancy matrix is shared with the distance map (gvd.cpp:26): the call [GOcc] stands for its change. *)
Definition occ_change (m : omap) : list gop := match om_matrix m with Some g => [GOcc g] | None => [] end.

(** obstacle_list_occupancy_map.cpp:29-44, [AddObstacle] of the obstacle with identity [o] and contents [x]. *)
Definition wd_add (w : world) (o : nat) (x : obst) : res (world * bool) :=
  match om_matrix (wd_map w) with
  | None => Throw
  | Some _ =>
      match lookup o (om_obs (wd_map w)) with
      | Some _ => Ok (w, false)
      | None =>
          do cells <- boundary_cells (wd_frames w) x;
          do (m, b) <- om_add (wd_map w) o cells;
          do w' <- wd_call (World (wd_frames w) m (wd_dist w)) (map GSet cells ++ occ_change m);
          Ok (w', b)
      end
  end.

(** Lines 46-61, [RemoveObstacle]. *)
Definition wd_remove (w : world) (o : nat) (x : obst) : res (world * bool) :=
  match om_matrix (wd_map w) with
  | None => Throw
  | Some _ =>
      match lookup o (om_obs (wd_map w)) with
      | None => Ok (w, false)
      | Some _ =>
          do cells <- boundary_cells (wd_frames w) x;
          do (m, b) <- om_remove (wd_map w) o cells;
          do w' <- wd_call (World (wd_frames w) m (wd_dist w)) (map GUnset cells ++ occ_change m);
          Ok (w', b)
      end
  end.

(** Histories of calls. [WGvd] is the construction of a [GVD] on the map (gvd.cpp:285-292), [WGvdUpdate] the update of its two
    distance maps (gvd.cpp:298-299; the path cost map is in PathCost_model.v); the map is not resized in between. *)
Inductive wop :=
| WPos (p : point)
| WSize (width height : R)
| WAdd (o : nat) (x : obst)
| WRemove (o : nat) (x : obst)
| WUpdate
| WGvd
| WGvdUpdate.

Definition wd_step (w : world) (x : wop) : res world :=
  match x with
  | WPos p => Ok (World (fr_set_position (wd_frames w) p) (wd_map w) (wd_dist w))
  | WSize width height => wd_size w width height
  | WAdd o x => rmap fst (wd_add w o x)
  | WRemove o x => rmap fst (wd_remove w o x)
  (* occupancy_map.cpp:16-19, [Update] *)
  | WUpdate => wd_call w [GUpdateObstacles]
  | WGvd => wd_call w [GVoronoi]
  | WGvdUpdate => wd_call w [GUpdateObstacles; GUpdateVoronoi]
  end.

Fixpoint wd_run (w : world) (ops : list wop) : res world :=
  match ops with
  | [] => Ok w
  | x :: r => do w' <- wd_step w x; wd_run w' r
  end.

End World.
