(** Model of the queries of the generalized Voronoi diagram at positions of the world, /repo/planner/src/state_validator/gvd.{h,cpp}.
    The diagram was made for the map and its current size (gvd.cpp:285-292), and shares its distance maps. *)
From Coq Require Import Reals.
From Verif Require Import Base RealBase Grid_model Coords_model Gvd_model PathCost_model World_model Visual_model.
Local Open Scope R_scope.

(** gvd.cpp:303-349, the common part: [None] stands for the result [false]. *)
Definition query {A : Type} (w : world) (answer : gst -> cell -> res A) (p : point) : res (option A) :=
  do c <- world_to_cell (wd_frames w) p false;
  if negb (inside_cell (wd_frames w) c) then Ok None
  else
    match wd_dist w with
    | None => UB
    | Some g => rmap Some (answer g c)
    end.

(** The map of edges of the diagram. *)
Definition edges (g : gst) : res dmap := match g_vor g with Some v => Ok v | None => UB end.

(** gvd.cpp:303-310, [GetNearestObstaclePosition]. *)
Definition nearest_obstacle_position (w : world) : point -> res (option point) :=
  query w (fun g c => rmap (cell_to_world (wd_frames w)) (nearest_obstacle (g_obs g) c)).

(** gvd.cpp:312-319, [GetNearestVoronoiEdgePosition]. *)
Definition nearest_edge_position (w : world) : point -> res (option point) :=
  query w (fun g c => do v <- edges g; rmap (cell_to_world (wd_frames w)) (nearest_obstacle v c)).

(** gvd.cpp:321-328, [GetDistanceToNearestObstacle]. *)
Definition distance_to_obstacle (w : world) : point -> res (option R) :=
  query w (fun g c => rmap (reported_distance (fr_res (wd_frames w))) (squared_distance_to_obstacle (g_obs g) c)).

(** gvd.cpp:330-337, [GetDistanceToNearestVoronoiEdge]. *)
Definition distance_to_edge (w : world) : point -> res (option R) :=
  query w (fun g c => do v <- edges g; rmap (reported_distance (fr_res (wd_frames w))) (squared_distance_to_obstacle v c)).

(** gvd.cpp:339-349, [GetPathCost], right after [Update]; the inner [None] is not-a-number. *)
Definition path_cost_at (alpha dMax : R) (w : world) : point -> res (option (option R)) :=
  query w (get_path_cost alpha dMax (fr_res (wd_frames w))).

(** gvd.cpp:379-427, [Visualize], right after [Update]. The rows and columns of the diagram are those of the map when it was made. *)
Definition diagram_picture (absf : R -> R) (alpha dMax : R) (w : world) : res (list Z) :=
  match wd_dist w with
  | None => UB
  | Some g => gvd_picture absf (fr_rows (wd_frames w)) (fr_cols (wd_frames w)) (wd_map w) (g_obs g) (get_path_cost alpha dMax (fr_res (wd_frames w)) g)
  end.
