(** Specification vocabulary for the edges of the Voronoi diagram. *)
From Coq Require Import Reals.
From Verif Require Import Base Grid_model Grid_spec Gvd_model Gvd_spec.
Open Scope Z_scope.

(** The two cells neither coincide nor touch. *)
Definition far (a b : cell) : Prop := 1 < Z.abs (row a - row b) \/ 1 < Z.abs (col a - col b).

(** The border between the obstacle cells [a] and [b] runs between [s] and its neighbour [n]: [s] is not nearer to [b] than to [a],
    [n] not nearer to [a] than to [b], and of the two cells [s] is the one for which the two distances differ less. Cells of obstacles
    that touch have no border, and neither have [s] and [n] if they are next to [a] and [b]. *)
Definition border (s n a b : cell) : Prop :=
  far a b /\ (1 < sqd s a \/ 1 < sqd n b) /\ sqd s a <= sqd s b /\ sqd n b <= sqd n a /\
  sqd s b - sqd s a <= sqd n a - sqd n b.

(** The number of an obstacle cell is read from the occupancy matrix by the updates of the obstacles: every obstacle cell has its
    number there, other cells have the number of no obstacle. The diagram exists by then, and nobody else touches its edges. *)
Fixpoint numbered (R C : Z) (number : cell -> Z) (made : bool) (occ : grid Z) (old : cell -> bool) (ops : list gop) : Prop :=
  match ops with
  | [] => True
  | o :: r =>
      match o with
      | GUpdateObstacles => made = true /\ forall c, inside R C c ->
          (old c = true -> grid_get occ c = Ok (number c)) /\
          (old c = false -> forall d, inside R C d -> old d = true -> grid_get occ c <> Ok (number d))
      | GSetEdge _ | GUnsetEdge _ => False
      | _ => True
      end /\
      numbered R C number (match o with GVoronoi => true | _ => made end) (match o with GOcc g => g | _ => occ end)
        (fun c => obstacle_after (old c) [o] c) r
  end.

(** Distance between the centres of two cells, in cells. *)
Definition cell_distance (a b : cell) : R := sqrt (IZR (sqd a b)).

(** [p] leads from [s] to [e] inside the map, by steps to one of the eight neighbours. *)
Fixpoint walk (R C : Z) (s : cell) (p : list cell) (e : cell) : Prop :=
  match p with
  | [] => inside R C s /\ s = e
  | n :: r => inside R C s /\ touches s n /\ walk R C n r e
  end.
