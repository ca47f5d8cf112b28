(** Specification vocabulary for the distance maps. *)
From Verif Require Import Base Grid_model Grid_spec Gvd_model.
Open Scope Z_scope.

(** Square of the Euclidean distance between the centres of two cells. *)
Definition sqd (a b : cell) : Z := (row a - row b) * (row a - row b) + (col a - col b) * (col a - col b).

(** The squares of all distances in the map are representable. *)
Definition representable (R C : Z) : Prop := 0 < R /\ 0 < C /\ (R - 1) * (R - 1) + (C - 1) * (C - 1) < inf.

(** The queue returns an entry with the smallest value. *)
Definition priority (top : nat -> list (cell * Z) -> nat) : Prop :=
  forall k q, q <> [] -> exists e, nth_error q (top k q) = Some e /\ forall e', In e' q -> snd e <= snd e'.

(** The cells that are obstacles after a history: those added and not removed since. *)
Fixpoint obstacle_after (old : bool) (ops : list gop) (c : cell) : bool :=
  match ops with
  | [] => old
  | GSet d :: r => obstacle_after (if cell_eqb d c then true else old) r c
  | GUnset d :: r => obstacle_after (if cell_eqb d c then false else old) r c
  | _ :: r => obstacle_after old r c
  end.
Definition obstacle (ops : list gop) (c : cell) : Prop := obstacle_after false ops c = true.

(** Histories that stay within the interface: cells and occupancy matrices of the map, and no use of the Voronoi map before
    it was created ([made]). *)
Fixpoint well_used (R C : Z) (made : bool) (ops : list gop) : Prop :=
  match ops with
  | [] => True
  | o :: r =>
      match o with
      | GSet c | GUnset c => inside R C c
      | GVoronoi | GUpdateObstacles => True
      | GSetEdge c | GUnsetEdge c => made = true /\ inside R C c
      | GUpdateVoronoi => made = true
      | GOcc g => rows g = R /\ columns g = C /\ Z.of_nat (length (data g)) = R * C
      end /\ well_used R C (match o with GVoronoi => true | _ => made end) r
  end.

(** What a map reports for a cell is consistent. *)
Definition consistent (R C : Z) (m : dmap) (c : cell) : Prop :=
  (nearest_obstacle m c = Ok no_cell /\ squared_distance_to_obstacle m c = Ok inf) \/
  exists o, nearest_obstacle m c = Ok o /\ inside R C o /\ squared_distance_to_obstacle m c = Ok (sqd c o).

(** No cell waits to be processed. *)
Definition settled (m : dmap) : Prop := d_open m = [].

(** Every obstacle other than [o] is farther from [s] than [o]. *)
Definition only_nearest (O : cell -> Prop) (o s : cell) : Prop :=
  forall o', O o' -> o' <> o -> sqd s o < sqd s o'.

(** The cells reached from [o] by touching cells whose only nearest obstacle is [o]. *)
Inductive region (R C : Z) (O : cell -> Prop) (o : cell) : cell -> Prop :=
| region_here : region R C O o o
| region_step s n : region R C O o s -> only_nearest O o s -> inside R C s -> inside R C n -> touches s n -> region R C O o n.

(** [d] is the smallest squared distance from [c] to an obstacle. *)
Definition smallest (R C : Z) (O : cell -> Prop) (c : cell) (d : Z) : Prop :=
  (exists o, inside R C o /\ O o /\ sqd c o = d) /\ forall o, inside R C o -> O o -> d <= sqd c o.

(** Removals of obstacles, and edges set or unset from outside. *)
Definition is_unset (o : gop) : bool := match o with GUnset _ => true | _ => false end.
Definition is_edge (o : gop) : bool := match o with GSetEdge _ | GUnsetEdge _ => true | _ => false end.

(** The history runs to its end, from a new map and with enough fuel, without leaving the memory, and [P] holds then. *)
Definition reaches (top topv : nat -> list (cell * Z) -> nat) (occ : grid Z) (ops : list gop) (P : gst -> Prop) : Prop :=
  exists fuel0 st0 st, g_new occ = Ok st0 /\ (forall fuel, (fuel0 <= fuel)%nat -> g_run top topv fuel st0 ops = Ok st) /\ P st.

(** An occupancy matrix of the size of the map. *)
Definition sized (R C : Z) (occ : grid Z) : Prop := rows occ = R /\ columns occ = C /\ Z.of_nat (length (data occ)) = R * C.
