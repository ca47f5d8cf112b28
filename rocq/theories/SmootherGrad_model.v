(** Model of the gradient terms of the smoother, /repo/planner/src/algo/smoother.cpp. Floats are modelled by real numbers;
    the result NaN of a division by zero is modelled by the outcome [UB] (the position it is added to is cast to [int] later). *)
From Coq Require Import Reals.
From Verif Require Import Base RealBase Grid_model Coords_model Straight_model Gvd_model Smoother_model.
Local Open Scope R_scope.

(** Eigen: multiplication by a scalar, [dot] and [normalized] (which keeps a zero vector). *)
Definition scale (k : R) (v : point) : point := (k * fst v, k * snd v).
Definition dot (a b : point) : R := fst a * fst b + snd a * snd b.
Definition normalized (v : point) : point := if Rltb 0 (pnorm v) then scale (/ pnorm v) v else v.

(** smoother.h:28-60 and the values used with them: [unsafeRadius] (smoother.cpp:82), [alpha] and [dMax] (gvd.h). *)
Record sparams := SParams {
  w_path : R; w_smooth : R; w_voronoi : R; w_collision : R; w_curvature : R;
  max_curvature : R; learning_rate : R; unsafe_radius : R; vor_alpha : R; vor_dmax : R }.

(** smoother.cpp:108. *)
Definition path_term (w : R) (orig curr : point) : point := scale w (psub orig curr).

(** smoother.cpp:115, [dir] is [dirToClosestObs]. *)
Definition collision_term (w unsafeRadius : R) (dir : point) : point := scale (w * (pnorm dir - unsafeRadius) / pnorm dir) dir.

(** smoother.cpp:125-133. [dirO] and [dirV] are the directions to the closest obstacle and Voronoi edge. *)
Definition voronoi_term (w alpha dMax : R) (dirO dirV : point) : point :=
  let obstDist := pnorm dirO in
  let voroDist := pnorm dirV in
  let alphaPlusObstDist := alpha + obstDist in
  let obstDistMinusDMax := obstDist - dMax in
  let obstDistPlusVoroDist := obstDist + voroDist in
  let dMaxSquared := dMax * dMax in
  let pvdv := (alpha / alphaPlusObstDist) * (obstDistMinusDMax * obstDistMinusDMax / dMaxSquared)
              * (obstDist / (obstDistPlusVoroDist * obstDistPlusVoroDist)) in
  let pvdo := (alpha / alphaPlusObstDist) * (voroDist / obstDistPlusVoroDist) * (obstDistMinusDMax / dMaxSquared)
              * (- obstDistMinusDMax / alphaPlusObstDist - obstDistMinusDMax / obstDistPlusVoroDist + 2) in
  scale w (padd (scale (pvdo / obstDist) dirO) (scale (pvdv / voroDist) dirV)).

(** smoother.cpp:138. *)
Definition smoothing_term (w : R) (xm2 xm1 x xp1 xp2 : point) : point :=
  scale w (padd (psub (padd (psub xm2 (scale 4 xm1)) (scale 6 x)) (scale 4 xp1)) xp2).

(** smoother.cpp:107-138. [nearest_obstacle] and [nearest_edge] are the lookups in the distance maps. *)
Definition local_terms (p : sparams) (f : frames) (nearest_obstacle nearest_edge : cell -> res cell)
  (orig g0 xm2 xm1 x xp1 xp2 : point) : res point :=
  let g := padd g0 (path_term (w_path p) orig x) in
  do inside <- inside_position f x;
  do g <- (if inside then
      do c <- world_to_cell f x true;
      do o <- nearest_obstacle c;
      let dirO := psub x (cell_to_world f o) in
      let obstDist := pnorm dirO in
      do g <- (if Rltb obstDist (unsafe_radius p) then
          if Reqb obstDist 0 then UB else Ok (padd g (collision_term (w_collision p) (unsafe_radius p) dirO))
        else Ok g);
      if Rltb obstDist (vor_dmax p) && Rltb 0 (w_voronoi p) then
        do v <- nearest_edge c;
        let dirV := psub x (cell_to_world f v) in
        if Rltb 0 (pnorm dirV) then
          if Reqb obstDist 0 then UB else Ok (padd g (voronoi_term (w_voronoi p) (vor_alpha p) (vor_dmax p) dirO dirV))
        else Ok g
      else Ok g
    else Ok g);
  Ok (padd g (smoothing_term (w_smooth p) xm2 xm1 x xp1 xp2)).

(** smoother.cpp:10-13. *)
Definition orthogonal_complement (a b : point) : point := psub a (scale (dot a b / (pnorm b * pnorm b)) b).

(** [std::clamp] to the range of the cosine. *)
Definition clamp1 (x : R) : R := Rmax (-1) (Rmin x 1).

(** smoother.cpp:160-214, [CalculateCurvatureTerm]. *)
Definition curvature_term (w maxCurvature : R) (xm x xp : point) (g : point * point * point) : res (point * point * point) :=
  let '(gm, gi, gp) := g in
  let dX := psub x xm in
  let dX1 := psub xp x in
  if Reqb (pnorm dX) 0 then UB
  else
    let deltaPhi := acos (clamp1 (dot (normalized dX) (normalized dX1))) in
    let kappa := deltaPhi / pnorm dX in
    if Rleb kappa maxCurvature then Ok (gm, gi, gp)
    else if Reqb (pnorm dX1) 0 then UB
    else if Reqb (1 - cos deltaPhi * cos deltaPhi) 0 then UB
    else
      let denominator := pnorm dX * pnorm dX1 in
      let dcos_dX := scale (/ denominator) (orthogonal_complement dX1 dX) in
      let dcos_dX1 := scale (/ denominator) (orthogonal_complement dX dX1) in
      let dphi_dcos := -1 / sqrt (1 - cos deltaPhi * cos deltaPhi) in
      let coef1 := 1 / pnorm dX * dphi_dcos in
      let coef2 := scale (deltaPhi / (pnorm dX * pnorm dX)) (normalized dX) in
      let dk_m := padd (scale coef1 (scale (-1) dcos_dX)) coef2 in
      let dk_i := psub (scale coef1 (psub dcos_dX dcos_dX1)) coef2 in
      let dk_p := scale coef1 dcos_dX1 in
      let k := w * (kappa - maxCurvature) in
      Ok (padd gm (scale k dk_m), padd gi (scale k dk_i), padd gp (scale k dk_p)).

(** smoother.cpp:147. *)
Definition move (p : sparams) (x g : point) : point := psub x (scale (learning_rate p) g).

(** The smoother with these terms. *)
Definition run {T} (p : sparams) (f : frames) (nearest_obstacle nearest_edge : cell -> res cell) (valid : point * T -> res bool)
  (maxIterations : Z) (tolerance : R) (fuel : nat) (initialized : bool) (old path : list (point * T)) (cusp : Z -> bool) :
  res (status * list (point * T)) :=
  smooth point T point (0, 0) (local_terms p f nearest_obstacle nearest_edge) (curvature_term (w_curvature p) (max_curvature p))
    (move p) pnorm valid maxIterations tolerance fuel initialized old path cusp.
