(** Model of the grid propagator of [AStarN2], /repo/planner/src/algo/a_star_n2.cpp. *)
From Verif Require Import Base Grid_model AStar_model.
Open Scope Z_scope.

Section N2.
  Context {C : Type}.
  (** The size of the map (m_map->Rows(), m_map->Columns()) and the path cost function
      (a_star_n2.cpp:10). *)
  Variables (rows columns : Z) (cost : cell -> cell -> C).

  (** a_star_n2.cpp:18-26, the loop of [GetNeighborStates]. [occ] is the virtual function IsOccupied, which may
      read outside the map; [&&] evaluates its second operand only if needed. *)
  Fixpoint n2_loop (occ : cell -> res bool) (p : cell) (l : list cell) : res (list (cell * unit * C)) :=
    match l with
    | [] => Ok []
    | n :: l' =>
      do o <- occ n;
      do skip <- (if o then Ok true
                  else if is_diagonal_to n p then
                         do o1 <- occ (Cell (row n) (col p));
                         if o1 then occ (Cell (row p) (col n)) else Ok false
                       else Ok false);
      do rest <- n2_loop occ p l';
      Ok (if skip then rest else (n, tt, cost p n) :: rest)
    end.

  (** a_star_n2.cpp:12-28, [GetNeighborStates]. *)
  Definition n2_neighbors_res (occ : cell -> res bool) (p : cell) : res (list (cell * unit * C)) :=
    n2_loop occ p (get_neighbors rows columns p).

  (** The same for a total occupancy function, in the form used by the search model. *)
  Definition n2_neighbors (occ : cell -> bool) (p : cell) : list (cell * unit * C) :=
    match n2_neighbors_res (fun c => Ok (occ c)) p with
    | Ok l => l
    | _ => []
    end.
  Definition n2_succ (occ : cell -> bool) (_ : unit) (p : cell) : list (cell * unit * C) * unit :=
    (n2_neighbors occ p, tt).
End N2.

(** a_star_n2.h:29-34, [AStarN2]: graph search on cells. *)
Definition n2_search {C} (ltb : C -> C -> bool) (add : C -> C -> C) (zero : C)
    (rows columns : Z) (cost : cell -> cell -> C) (occ : cell -> bool) (h : cell -> C) (init goal : cell) (fuel : nat) :=
  search_path cell_eqb ltb add zero h (n2_succ rows columns cost occ) (fun s => cell_eqb s goal) (fun _ _ => true) true
    fuel init tt.
