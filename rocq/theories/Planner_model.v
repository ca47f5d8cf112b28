(** Model of the planner as a whole: a map, the validators made for it and [HybridAStar], from construction to [SearchPath].
    /repo/planner/src/algo/hybrid_a_star.{h,cpp}, smoother.{h,cpp} and state_validator_occupancy_map.cpp. The parts are in
    World_model.v, Validator_model.v, PathCost_model.v, ObstHeur_model.v, NonHol_model.v, Hybrid_model.v and
    SmootherGrad_model.v. Floats are modelled by reals. *)
From Coq Require Import Reals.
From Verif Require Import Base RealBase Grid_model Coords_model Pose_model Straight_model ObstacleMap_model Shape_model Gvd_model PathCost_model
  Validator_model World_model ObstHeur_model NonHol_model Smoother_model SmootherGrad_model AStar_model Hybrid_model.
Local Open Scope R_scope.

(** A [StateValidatorOccupancyMap]: the bounds of its state space, [minSafeRadius] and [minPathInterpolationDistance]
    (state_validator_occupancy_map.h:31-34). *)
Record validator := Checker { va_lower : pose; va_upper : pose; va_safe : R; va_step : R }.

(** smoother.h:28-60, [Smoother::Parameters]. *)
Record smoothing := Smoothing {
  sm_tolerance : R; sm_iterations : Z; sm_rate : R; sm_path : R; sm_smooth : R; sm_voronoi : R; sm_collision : R; sm_curvature : R;
  sm_ratio : R; sm_max : R
}.
Definition default_smoothing (maxCurvature : R) : smoothing :=
  Smoothing (1 / 1000) 2000 (1 / 100) 0 (4 / 10) (2 / 100) (2 / 10) (4 / 10) (2 / 10) maxCurvature.

(** The distance maps that the [GVD] of the planner refers to (gvd.h:172-174): those of the map, or, once the map was given a new size
    and made new ones, those from before. *)
Inductive diagram := OfMap | Former (g : gst).

(** What [Initialize] makes: the validator, the diagram and the heuristics. *)
Record parts := Parts { pa_validator : nat; pa_gvd : diagram; pa_nonhol : nonhol; pa_obst : ostate R }.

(** hybrid_a_star.h:242-260 and path_planner.h:33-36. [pl_smoothing] is [m_param] of the smoother; [pl_stats] is the status of the
    last graph search in [m_stats] ([true] for Success; the default is Failure); the status of the last smoothing is left out. *)
Record planner := Planner {
  pl_params : params; pl_init : pose; pl_goal : pose; pl_step : R; pl_ready : bool; pl_parts : option parts;
  pl_smoothing : smoothing; pl_path : list pose; pl_stats : bool
}.

(** One map, the validators made for it so far, one planner and the random generator. *)
Record system (Rng : Type) := System { sy_world : world; sy_validators : list validator; sy_planner : planner; sy_rng : Rng }.
Arguments System {Rng}.
Arguments sy_world {Rng}.
Arguments sy_validators {Rng}.
Arguments sy_planner {Rng}.
Arguments sy_rng {Rng}.

(** hybrid_a_star.cpp:199-204 and smoother.cpp:15-16, the constructors; [Pose2d] is zero by default. *)
Definition pl_new (m : params) : planner :=
  Planner m (Pose 0 0 0) (Pose 0 0 0) (1 / 10) false None (default_smoothing 1) [] false.

(** The map takes a new size: the diagram keeps the distance maps it has (shared pointers). [old] is the map before. *)
Definition detach (old : world) (p : planner) : planner :=
  match pl_parts p with
  | Some (Parts v OfMap h o) =>
      match wd_dist old with
      | Some g => Planner (pl_params p) (pl_init p) (pl_goal p) (pl_step p) (pl_ready p) (Some (Parts v (Former g) h o)) (pl_smoothing p) (pl_path p) (pl_stats p)
      | None => p
      end
  | _ => p
  end.

(** smoother.cpp:120 and 126-128: the parameters in the form of SmootherGrad_model.v; [alpha] and [dMax] are those of the path cost
    (gvd.h:169-170). *)
Definition gradient_params (s : smoothing) (minSafe : R) : sparams :=
  SParams (sm_path s) (sm_smooth s) (sm_voronoi s) (sm_collision s) (sm_curvature s) (sm_max s) (sm_rate s) (minSafe * (1 + sm_ratio s)) 20 30.

Definition split_pose (p : pose) : point * R := (position p, pth p).
Definition join_pose (x : point * R) : pose := Pose (fst (fst x)) (snd (fst x)) (snd x).

Section Planner.
(** How the queues of the distance maps resolve ties, the fuel of all loops, and [Random<double>::SampleUniform(0, 1)]. *)
Variables top topv : nat -> list (cell * Z) -> nat.
Variable fuel : nat.
Variable Rng : Type.
Variable draw : Rng -> R * Rng.
Notation system := (system Rng).

(** state_validator_occupancy_map.cpp:6-13, the constructor, for a state space with these bounds: it sets the size of the map. *)
Definition sy_validator (s : system) (lower upper : pose) : res system :=
  do w <- wd_size (sy_world s) (px upper - px lower) (py upper - py lower);
  Ok (System w (sy_validators s ++ [Checker lower upper 1 (1 / 10)]) (detach (sy_world s) (sy_planner s)) (sy_rng s)).

(** hybrid_a_star.cpp:206-235, [Initialize], with a null pointer or the validator of this number. smoother.cpp:18-31: the smoother
    takes new parameters. *)
Definition sy_initialize (s : system) (v : option nat) : res (system * bool) :=
  let p := sy_planner s in
  match v with
  | None =>
      Ok (System (sy_world s) (sy_validators s)
            (Planner (pl_params p) (pl_init p) (pl_goal p) (pl_step p) false (pl_parts p) (pl_smoothing p) (pl_path p) (pl_stats p)) (sy_rng s), false)
  | Some v =>
      let m := pl_params p in
      do va <- vget (sy_validators s) v;
      do w <- wd_step top topv fuel (sy_world s) WGvd;
      do h <- nh_build (va_lower va) (va_upper va) (hp_res m) (hp_ang m) (hp_radius m) (hp_reverse m) (hp_forward m) (hp_switching m);
      do o <- oh_new (fr_rows (wd_frames w)) (fr_cols (wd_frames w));
      Ok (System w (sy_validators s)
            (Planner m (pl_init p) (pl_goal p) (pl_step p) true (Some (Parts v OfMap h o)) (default_smoothing (1 / hp_radius m)) (pl_path p) (pl_stats p)) (sy_rng s), true)
  end.

(** gvd.cpp:294-301, [Update] of the diagram: the map, the diagram and its distance maps afterwards. *)
Definition update_diagram (w : world) (d : diagram) : res (world * diagram * gst) :=
  match d with
  | OfMap =>
      do w' <- wd_step top topv fuel w WGvdUpdate;
      match wd_dist w' with Some g => Ok (w', OfMap, g) | None => UB end
  | Former g =>
      do g' <- g_run top topv fuel g [GUpdateObstacles; GUpdateVoronoi];
      Ok (w, Former g', g')
  end.

(** gvd.h:78, [GetNearestVoronoiEdgeCell]. *)
Definition nearest_edge (g : gst) (c : cell) : res cell :=
  match g_vor g with Some v => nearest_obstacle v c | None => UB end.

(** a_star.h:74-110 and hybrid_a_star.cpp:224-227, the combined heuristic. *)
Definition combined (m : params) (f : frames) (h : nonhol) (o : ostate R) (goal p : pose) : res xreal :=
  do a <- nh_value h goal p;
  do b <- oh_value f (hp_reverse m) (hp_forward m) (position goal) (position p) o;
  Ok (x_max a b).

(** smoother.cpp:33-225, [Smooth] of the planner, and whether the status is not negative. *)
Definition smooth_path (s : smoothing) (va : validator) (f : frames) (clearance : cell -> res R) (g : gst) (poses : list pose) (cusps : list nat) :
  res (bool * list pose) :=
  do (status, out) <- run (gradient_params s (va_safe va)) f (nearest_obstacle (g_obs g)) (nearest_edge g)
    (fun x => is_state_valid f clearance (va_lower va) (va_upper va) (va_safe va) (join_pose x))
    (sm_iterations s) (sm_tolerance s) fuel true [] (map split_pose poses) (fun i => existsb (fun n => Z.eqb (Z.of_nat n) i) cusps);
  Ok ((0 <=? code status)%Z, map join_pose out).

(** hybrid_a_star.cpp:237-304, [SearchPath], and whether it returns Success. *)
Definition sy_search (s : system) : res (system * bool) :=
  let p := sy_planner s in
  if negb (pl_ready p) then Ok (s, false)
  else
    match pl_parts p with
    | None => UB
    | Some (Parts v d h o) =>
        let m := pl_params p in
        let f := wd_frames (sy_world s) in
        let res := fr_res f in
        do va <- vget (sy_validators s) v;
        do start <- world_to_cell f (position (pl_goal p)) true;
        do o' <- oh_update Rltb Rplus 0 1 (sqrt 2) fuel (fr_rows f) (fr_cols f) (om_occupied (wd_map (sy_world s))) start o;
        do (wd, g) <- update_diagram (sy_world s) d;
        let (w', d') := wd in
        match wd_dist w' with
        | None => UB
        | Some gm =>
            let clearance := map_clearance (g_obs gm) res in
            do (sol, st) <- graph_search m f (get_path_cost 20 30 res g) res
              (is_path_valid f clearance (va_lower va) (va_upper va) (va_safe va) (va_step va) fuel)
              (combined m f h o' (pl_goal p)) Rng draw (pl_goal p) fuel fuel (pl_init p) (sy_rng s);
            do rng <- st_prop st;
            do (b, path) <- hybrid_result fuel (pl_step p) (smooth_path (pl_smoothing p) va f clearance g) true (Ok sol) (pl_path p);
            Ok (System w' (sy_validators s)
                  (Planner m (pl_init p) (pl_goal p) (pl_step p) true (Some (Parts v d' h o')) (pl_smoothing p) path b) rng, b)
        end
    end.

(** Histories of calls: on the map (other users of it may also make diagrams), construction of validators and their public fields,
    and the methods of the planner: [Initialize], [SetInitState] and [SetGoalState] (path_planner.h:19-20), the field
    [pathInterpolation], [SetSmootherParameters] (hybrid_a_star.h:231) and [SearchPath]. *)
Inductive call :=
| PMap (x : wop)
| PValidator (lower upper : pose)
| PSafe (v : nat) (r : R)
| PStep (v : nat) (r : R)
| PInitialize (v : option nat)
| PInit (q : pose)
| PGoal (q : pose)
| PInterpolation (r : R)
| PSmoothing (x : smoothing)
| PSearch.

(** state_validator_occupancy_map.cpp:15-26, [IsStateValid] of the validator of this number. *)
Definition sy_valid (s : system) (v : nat) (q : pose) : res bool :=
  do va <- vget (sy_validators s) v;
  match wd_dist (sy_world s) with
  | None => UB
  | Some g =>
      let f := wd_frames (sy_world s) in
      is_state_valid f (map_clearance (g_obs g) (fr_res f)) (va_lower va) (va_upper va) (va_safe va) q
  end.

(** Changes of the planner, and of a validator. *)
Definition with_planner (s : system) (p : planner) : system := System (sy_world s) (sy_validators s) p (sy_rng s).
Definition change_validator (s : system) (v : nat) (g : validator -> validator) : res system :=
  do va <- vget (sy_validators s) v;
  do l <- vset (sy_validators s) v (g va);
  Ok (System (sy_world s) l (sy_planner s) (sy_rng s)).

Definition sy_step (s : system) (x : call) : res system :=
  let p := sy_planner s in
  match x with
  | PMap x =>
      do w <- wd_step top topv fuel (sy_world s) x;
      Ok (System w (sy_validators s) (match x with WSize _ _ => detach (sy_world s) p | _ => p end) (sy_rng s))
  | PValidator lower upper => sy_validator s lower upper
  | PSafe v r => change_validator s v (fun va => Checker (va_lower va) (va_upper va) r (va_step va))
  | PStep v r => change_validator s v (fun va => Checker (va_lower va) (va_upper va) (va_safe va) r)
  | PInitialize v => rmap fst (sy_initialize s v)
  | PInit q => Ok (with_planner s (Planner (pl_params p) q (pl_goal p) (pl_step p) (pl_ready p) (pl_parts p) (pl_smoothing p) (pl_path p) (pl_stats p)))
  | PGoal q => Ok (with_planner s (Planner (pl_params p) (pl_init p) q (pl_step p) (pl_ready p) (pl_parts p) (pl_smoothing p) (pl_path p) (pl_stats p)))
  | PInterpolation r => Ok (with_planner s (Planner (pl_params p) (pl_init p) (pl_goal p) r (pl_ready p) (pl_parts p) (pl_smoothing p) (pl_path p) (pl_stats p)))
  | PSmoothing x => Ok (with_planner s (Planner (pl_params p) (pl_init p) (pl_goal p) (pl_step p) (pl_ready p) (pl_parts p) x (pl_path p) (pl_stats p)))
  | PSearch => rmap fst (sy_search s)
  end.

Fixpoint sy_run (s : system) (l : list call) : res system :=
  match l with
  | [] => Ok s
  | x :: r => do s' <- sy_step s x; sy_run s' r
  end.

(** A new map and a new planner. *)
Definition sy_new (resolution : R) (junk : point) (m : params) (rng : Rng) : system :=
  System (wd_new resolution junk) [] (pl_new m) rng.
End Planner.
