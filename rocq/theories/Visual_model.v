(** Model of the pictures written by [ObstaclesHeuristic::Visualize], [HybridAStar::VisualizeObstacleHeuristic] and [GVD::Visualize],
    /repo/planner/src/algo/heuristics.cpp, hybrid_a_star.cpp and state_validator/gvd.cpp. A file is the list of its bytes; it can be
    opened and written, and no byte is translated. Floats are modelled by real numbers. *)
From Coq Require Import Reals.
From Verif Require Import Base RealBase Grid_model ObstacleMap_model Gvd_model ObstHeur_model Planner_model.
Open Scope Z_scope.

(** [fprintf] with [%d]. *)
Fixpoint digits (fuel : nat) (n : Z) (rest : list Z) : list Z :=
  match fuel with
  | O => rest
  | S fuel' => if n <? 10 then 48 + n :: rest else digits fuel' (n / 10) (48 + n mod 10 :: rest)
  end.
Definition decimal (n : Z) : list Z :=
  if n <? 0 then 45 :: digits (S (Z.to_nat (Z.log2 (- n)))) (- n) [] else digits (S (Z.to_nat (Z.log2 n))) n [].

(** heuristics.cpp:184-185 and gvd.cpp:396-397: "P6\n#\n%d %d\n255\n". *)
Definition header (sizeX sizeY : Z) : list Z :=
  [80; 54; 10; 35; 10] ++ decimal sizeX ++ [32] ++ decimal sizeY ++ [10; 50; 53; 53; 10].

(** heuristics.cpp:186-187 and gvd.cpp:398-399: the cells in the order of the pixels. *)
Definition picture_cells (sizeX sizeY : Z) : list cell :=
  flat_map (fun y => map (fun x => Cell x y) (zseq sizeX)) (rev (zseq sizeY)).

(** [fputc] converts to [unsigned char]. *)
Definition fputc (c : Z) : Z := c mod 256.

(** The pixels of a list of cells. *)
Fixpoint pixels (color : cell -> res (Z * Z * Z)) (l : list cell) : res (list Z) :=
  match l with
  | [] => Ok []
  | c :: r =>
      do (rg, b) <- color c;
      do rest <- pixels color r;
      Ok (fputc (fst rg) :: fputc (snd rg) :: fputc b :: rest)
  end.

Definition file (sizeX sizeY : Z) (color : cell -> res (Z * Z * Z)) : res (list Z) :=
  do l <- pixels color (picture_cells sizeX sizeY);
  Ok (header sizeX sizeY ++ l).

(** * The costs of the obstacle heuristic *)

(** heuristics.cpp:177-182: the largest finite cost; [None] is minus infinity. *)
Fixpoint max_cost (costs : grid (value R)) (l : list cell) (best : option R) : res (option R) :=
  match l with
  | [] => Ok best
  | c :: r =>
      do x <- grid_get costs c;
      max_cost costs r
        match x, best with
        | None, _ => best
        | Some x, None => Some x
        | Some x, Some b => Some (Rmax b x)
        end
  end.

(** heuristics.cpp:196-198: the grey level. Not-a-number (0/0, infinity/infinity) becomes 0, because [std::min] and [std::max]
    return their first argument unless the comparison holds; divisions by zero are infinite. *)
Definition grey (best cost : option R) : Z :=
  match best, cost with
  | None, _ => 0
  | Some m, None => if Rltb m 0 then 255 else 0
  | Some m, Some x =>
      if Reqb m 0 then (if Rltb x 0 then 255 else 0)
      else Rtrunc (Rmax 0 (Rmin ((m - x) / m * 255) 255))%R
  end.

(** heuristics.cpp:188-202: the color of a cell. *)
Definition cost_color (st : ostate R) (best : option R) (c : cell) : res (Z * Z * Z) :=
  do explored <- grid_get (o_explored st) c;
  if negb explored then Ok (0, 0, 0)
  else
    do cost <- grid_get (o_cost st) c;
    let g := grey best cost in Ok (g, g, g).

(** heuristics.cpp:167-206, [Visualize]. *)
Definition oh_picture (st : ostate R) : res (list Z) :=
  let sizeX := rows (o_cost st) in
  let sizeY := columns (o_cost st) in
  do best <- max_cost (o_cost st) (map_cells sizeX sizeY) None;
  file sizeX sizeY (cost_color st best).

(** hybrid_a_star.cpp:306-309, [VisualizeObstacleHeuristic]: the pointer is null until [Initialize]. *)
Definition sy_picture {Rng : Type} (s : system Rng) : res (list Z) :=
  match pl_parts (sy_planner s) with
  | None => UB
  | Some (Parts _ _ _ o) => oh_picture o
  end.

(** * The diagram *)

(** gvd.cpp:388-393: the largest value of the occupancy matrix. *)
Fixpoint max_value (m : omap) (l : list cell) (best : Z) : res Z :=
  match l with
  | [] => Ok best
  | c :: r => do x <- om_value m c; max_value m r (Z.max best x)
  end.

Local Open Scope R_scope.

Section Color.
(** The function [abs] that the unqualified name refers to: that of [double], or that of [int] after a conversion. *)
Variable absf : R -> R.

(** [fmod] *)
Definition rfmod (x y : R) : R := x - y * IZR (Rtrunc (x / y)).

(** gvd.cpp:351-377, [HSVToRGB]. *)
Definition hsv_to_rgb (H S V : R) : Z * Z * Z :=
  let H := H * 360 in
  let S := S * 100 in
  let V := V * 100 in
  let s := S / 100 in
  let v := V / 100 in
  let C := s * v in
  let X := C * (1 - absf (rfmod (H / 60) 2 - 1)) in
  let m := v - C in
  let '(r, g, b) :=
    if Rleb 0 H && Rltb H 60 then (C, X, 0)
    else if Rleb 60 H && Rltb H 120 then (X, C, 0)
    else if Rleb 120 H && Rltb H 180 then (0, C, X)
    else if Rleb 180 H && Rltb H 240 then (0, X, C)
    else if Rleb 240 H && Rltb H 300 then (X, 0, C)
    else (C, 0, X) in
  (Rtrunc ((r + m) * 255), Rtrunc ((g + m) * 255), Rtrunc ((b + m) * 255)).

(** gvd.cpp:400-424: the color of a cell; [costs] is [m_pathCostMap], with [None] for not-a-number. *)
Definition gvd_color (m : omap) (obst : dmap) (costs : cell -> res (option R)) (numObstacles : Z) (c : cell) : res (Z * Z * Z) :=
  do occupied <- om_occupied m c;
  if occupied then Ok (0, 0, 0)%Z
  else
    do o <- nearest_obstacle obst c;
    if negb (cell_is_valid o) then Ok (0, 0, 0)%Z
    else
      do v <- om_value m o;
      do cost <- costs c;
      let h := IZR v / IZR (numObstacles + 1) in
      let l := match cost with Some x => Rmax 0 (Rmin (1 - x) 1) | None => 0 end in
      Ok (hsv_to_rgb h 1 l).

(** gvd.cpp:379-427, [Visualize]. *)
Definition gvd_picture (rows columns : Z) (m : omap) (obst : dmap) (costs : cell -> res (option R)) : res (list Z) :=
  do num <- max_value m (map_cells rows columns) 0;
  file rows columns (gvd_color m obst costs num).
End Color.
