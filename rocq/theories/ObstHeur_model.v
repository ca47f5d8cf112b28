(** Model of [ObstaclesHeuristic], /repo/planner/src/algo/heuristics.{h,cpp}. *)
From Coq Require Import Reals.
From Verif Require Import Base RealBase Grid_model Frontier_model Coords_model.
Open Scope Z_scope.

Section Update.
  (** The arithmetic of [float]: order, sum, the literals 0 and 1, and [std::sqrt(2.0f)]. *)
  Context {C : Type}.
  Variables (ltb : C -> C -> bool) (add : C -> C -> C) (zero one diag : C).

  (** A [float] without not-a-number; [None] is infinity. *)
  Definition value : Type := option C.
  Definition v_gtb (a b : value) : bool :=
    match a, b with
    | Some x, Some y => ltb y x
    | None, Some _ => true
    | _, None => false
    end.

  (** grid.h:41-61, [GridCell<float>]; heuristics.h:39-57, [CompareCell] and [EqualCell]. *)
  Definition elem : Type := cell * value.
  Definition e_cmp (a b : elem) : bool := v_gtb (snd a) (snd b).
  Definition e_eq (a b : elem) : bool := cell_eqb (fst a) (fst b).

  (** heuristics.h:74-75, [m_cost] and [m_explored]. *)
  Record ostate := OState { o_cost : grid value; o_explored : grid bool }.

  (** heuristics.cpp:97-104, the constructor, for a map of this size. *)
  Definition oh_new (rows columns : Z) : res ostate :=
    do c <- grid_new rows columns None;
    do e <- grid_new rows columns false;
    Ok (OState c e).

  (** heuristics.cpp:108-113: the cells that the loops visit, ... *)
  Definition zseq (n : Z) : list Z := map Z.of_nat (seq 0 (Z.to_nat n)).
  Definition map_cells (rows columns : Z) : list cell := flat_map (fun r => map (fun c => Cell r c) (zseq columns)) (zseq rows).
  (** ... and their effect on the two grids. *)
  Definition oh_reset (rows columns : Z) (st : ostate) : res ostate :=
    do c <- grid_writes (o_cost st) (map (fun p => (p, None)) (map_cells rows columns));
    do e <- grid_writes (o_explored st) (map (fun p => (p, false)) (map_cells rows columns));
    Ok (OState c e).

  (** heuristics.cpp:128-132: whether the neighbour [n] of [c] is skipped; [occ] is [IsOccupied]. *)
  Definition oh_skipped (occ : cell -> res bool) (c n : cell) : res bool :=
    do o <- occ n;
    if o then Ok true
    else if is_diagonal_to n c then
      do o1 <- occ (Cell (row n) (col c));
      if o1 then occ (Cell (row c) (col n)) else Ok false
    else Ok false.

  (** heuristics.cpp:127-151, the body of the inner loop. *)
  Definition oh_visit (occ : cell -> res bool) (c : cell) (fst_ : frontier elem * ostate) (n : cell) : res (frontier elem * ostate) :=
    let (fr, st) := fst_ in
    do skipped <- oh_skipped occ c n;
    if skipped then Ok (fr, st)
    else
      let transitionCost := if (row c =? row n) || (col c =? col n) then one else diag in
      do cost <- grid_get (o_cost st) c;
      let pathCost := option_map (add transitionCost) cost in
      let inFrontier := f_find e_eq (n, Some zero) fr in
      do inExplored <- grid_get (o_explored st) n;
      match inFrontier with
      | None =>
          if inExplored then Ok (fr, st)
          else
            do (_, fr') <- f_push e_cmp e_eq (n, pathCost) fr;
            do g <- grid_set (o_cost st) n pathCost;
            Ok (fr', OState g (o_explored st))
      | Some f =>
          do old <- grid_get (o_cost st) n;
          if v_gtb (snd f) old then
            do (_, fr1) <- f_remove e_cmp e_eq (n, Some zero) fr;
            do (_, fr2) <- f_push e_cmp e_eq (n, pathCost) fr1;
            do g <- grid_set (o_cost st) n pathCost;
            Ok (fr2, OState g (o_explored st))
          else Ok (fr, st)
      end.

  Fixpoint oh_visit_all (occ : cell -> res bool) (c : cell) (l : list cell) (fst_ : frontier elem * ostate) : res (frontier elem * ostate) :=
    match l with
    | [] => Ok fst_
    | n :: l' => do fst_ <- oh_visit occ c fst_ n; oh_visit_all occ c l' fst_
    end.

  (** heuristics.cpp:123-152, the outer loop. *)
  Fixpoint oh_loop (fuel : nat) (rows columns : Z) (occ : cell -> res bool) (fst_ : frontier elem * ostate) : res ostate :=
    match fuel with
    | O => NoFuel
    | S fuel' =>
        let (fr, st) := fst_ in
        if f_is_empty fr then Ok st
        else
          do (x, fr1) <- f_pop e_eq fr;
          let c := fst x in
          do e <- grid_set (o_explored st) c true;
          do fst_ <- oh_visit_all occ c (get_neighbors rows columns c) (fr1, OState (o_cost st) e);
          oh_loop fuel' rows columns occ fst_
    end.

  (** heuristics.cpp:106-153, [Update], for a map of this size and the cell [start] of the goal. *)
  Definition oh_update (fuel : nat) (rows columns : Z) (occ : cell -> res bool) (start : cell) (st : ostate) : res ostate :=
    do st <- oh_reset rows columns st;
    if negb (cell_is_valid start) then Ok st
    else
      do (_, fr) <- f_push e_cmp e_eq (start, Some zero) f_empty;
      do g <- grid_set (o_cost st) start (Some zero);
      oh_loop fuel rows columns occ (fr, OState g (o_explored st)).
End Update.
Arguments value : clear implicits.
Arguments ostate : clear implicits.
Arguments OState {C}.
Arguments o_cost {C}.
Arguments o_explored {C}.

(** heuristics.cpp:99 and 98: [costMultiplier] and [diagonalResolution]. *)
Definition oh_multiplier (resolution reverse forward : R) : R := (Rmin reverse forward * resolution)%R.
Definition oh_diagonal (resolution : R) : R := (sqrt 2 * resolution)%R.

(** heuristics.cpp:155-165, [GetHeuristicValue]: [goal] and [position] are positions; the result is infinite if [m_cost] is. *)
Definition oh_value (f : frames) (reverse forward : R) (goal position : point) (st : ostate R) : res (option R) :=
  let euclidean := (let d := psub goal position in sqrt (fst d * fst d + snd d * snd d))%R in
  do c <- world_to_cell f position true;
  if negb (cell_is_valid c) then Ok (Some euclidean)
  else
    do explored <- grid_get (o_explored st) c;
    if negb explored then Ok (Some euclidean)
    else
      do cost <- grid_get (o_cost st) c;
      Ok (option_map (fun x => Rmax (x * oh_multiplier (fr_res f) reverse forward - oh_diagonal (fr_res f))%R euclidean) cost).
