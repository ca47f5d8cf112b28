(** Model of ObstacleListOccupancyMap,
    /repo/planner/src/state_validator/obstacle_list_occupancy_map.{h,cpp}.
    An obstacle is known by its identity (the pointer [Ref<Obstacle>], a [nat] here). Its boundary cells depend on its
    pose and on the map at the time of the call, so that each call is given the cells it computes
    (rasterized as in Raster_model.v). Identifiers are [Z]: the wrap-around of unsigned integers is not modelled.
    The updates of the distance map (cpp:39, 58) are modelled in Gvd_model.v. *)
From Verif Require Import Base Grid_model.
Open Scope Z_scope.

(** std::set<unsigned int> as a sorted list. *)
Fixpoint set_insert (i : Z) (ids : list Z) : list Z :=
  match ids with
  | [] => [i]
  | j :: r => if i <? j then i :: ids else if i =? j then ids else j :: set_insert i r
  end.
Definition set_erase (i : Z) (ids : list Z) : list Z := filter (fun j => negb (j =? i)) ids.

(** cpp:21, [std::adjacent_find] with the predicate a + 1 != b: the element before the first gap. *)
Fixpoint adjacent_gap (ids : list Z) : option Z :=
  match ids with
  | a :: ((b :: _) as r) => if negb (a + 1 =? b) then Some a else adjacent_gap r
  | _ => None
  end.

(** cpp:13-27, [FindSmallestIDAvailable]. *)
Definition find_smallest_id (ids : list Z) : Z :=
  match ids with
  | [] => 0
  | h :: _ =>
    if h >? 0 then 0
    else match adjacent_gap ids with
         | None => last ids 0 + 1
         | Some a => a + 1
         end
  end.

(** obstacle_list_occupancy_map.h:25-27 and occupancy_map.h:130: [m_obstacles], [m_obstacleIDs], [m_occupancyMatrix]. *)
Record omap := OMap { om_obs : list (nat * Z); om_ids : list Z; om_matrix : option (grid Z) }.

(** cpp:8-11. *)
Definition om_new : omap := OMap [] [] None.

Fixpoint lookup (o : nat) (l : list (nat * Z)) : option Z :=
  match l with
  | [] => None
  | (o', i) :: r => if Nat.eqb o' o then Some i else lookup o r
  end.

(** cpp:37-40, 56-59: the loop writing [v] in each cell. *)
Fixpoint paint (g : grid Z) (cells : list cell) (v : Z) : res (grid Z) :=
  match cells with
  | [] => Ok g
  | c :: r => do g' <- grid_set g c v; paint g' r v
  end.

(** occupancy_map.cpp:6-14, [InitializeSize], the part about the matrix; [m], [n] are the rows and columns computed. *)
Definition om_init (st : omap) (m n : Z) : res omap :=
  do g <- grid_new m n (-1);
  Ok (OMap (om_obs st) (om_ids st) (Some g)).

(** cpp:29-44, [AddObstacle]. *)
Definition om_add (st : omap) (o : nat) (cells : list cell) : res (omap * bool) :=
  match om_matrix st with
  | None => Throw
  | Some g =>
    let id := find_smallest_id (om_ids st) in
    match lookup o (om_obs st) with
    | Some _ => Ok (st, false)
    | None =>
      do g' <- paint g cells id;
      Ok (OMap ((o, id) :: om_obs st) (set_insert id (om_ids st)) (Some g'), true)
    end
  end.

(** cpp:46-61, [RemoveObstacle]. *)
Definition om_remove (st : omap) (o : nat) (cells : list cell) : res (omap * bool) :=
  match om_matrix st with
  | None => Throw
  | Some g =>
    match lookup o (om_obs st) with
    | None => Ok (st, false)
    | Some id =>
      do g' <- paint g cells (-1);
      Ok (OMap (filter (fun p => negb (Nat.eqb (fst p) o)) (om_obs st)) (set_erase id (om_ids st)) (Some g'), true)
    end
  end.

(** obstacle_list_occupancy_map.h:20, [GetNumObstacles]. *)
Definition om_num (st : omap) : Z := Z.of_nat (length (om_obs st)).

(** occupancy_map.h:48, [GetOccupancyValue]. *)
Definition om_value (st : omap) (c : cell) : res Z :=
  match om_matrix st with
  | None => UB
  | Some g => grid_get g c
  end.

(** cpp:63-69, [IsOccupied]. *)
Definition om_occupied (st : omap) (c : cell) : res bool :=
  match om_matrix st with
  | None => Throw
  | Some g => do v <- grid_get g c; Ok (0 <=? v)
  end.

(** Histories of calls. *)
Inductive op :=
| OInit (m n : Z)
| OAdd (o : nat) (cells : list cell)
| ORemove (o : nat) (cells : list cell).

Definition om_step (st : omap) (x : op) : res omap :=
  match x with
  | OInit m n => om_init st m n
  | OAdd o cells => rmap fst (om_add st o cells)
  | ORemove o cells => rmap fst (om_remove st o cells)
  end.
Fixpoint om_run (st : omap) (ops : list op) : res omap :=
  match ops with
  | [] => Ok st
  | x :: r => do st' <- om_step st x; om_run st' r
  end.
