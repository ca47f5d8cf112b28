(** Model of Hybrid A*, /repo/planner/src/algo/hybrid_a_star.{h,cpp}, over the reals. *)
From Coq Require Import Reals.
From Verif Require Import Base RealBase Grid_model Coords_model Pose_model Straight_model Bicycle_model Composite_model Rs_model
  Validator_model Frontier_model AStar_model.
Local Open Scope R_scope.

(** ** Costs *)

(** A [double] that is not NaN; [None] is infinity. *)
Definition xreal : Type := option R.
Definition x_ltb (a b : xreal) : bool :=
  match a, b with
  | Some x, Some y => Rltb x y
  | Some _, None => true
  | None, _ => false
  end.
Definition x_add (a b : xreal) : xreal :=
  match a, b with
  | Some x, Some y => Some (x + y)
  | _, _ => None
  end.
Definition x_max (a b : xreal) : xreal := if x_ltb a b then b else a.

(** ** Parameters, states and actions *)

(** hybrid_a_star.h:29-38. *)
Record params := Params {
  hp_wheelbase : R; hp_radius : R; hp_switching : R; hp_reverse : R; hp_forward : R; hp_voronoi : R;
  hp_motions : nat; hp_res : R; hp_ang : R
}.

(** hybrid_a_star.cpp:19. *)
Definition hp_model (m : params) : bicycle := Bicycle (hp_wheelbase m) 0.

(** hybrid_a_star.cpp:21-28, [m_deltas]. *)
Definition hp_max (m : params) : R := steering_from_radius (hp_model m) (hp_radius m).
Definition deltas (m : params) : list R :=
  0 :: flat_map (fun i => let delta := (INR i + 1) / 2 * hp_max m in [delta; - delta]) (seq 0 (hp_motions m / 2)).

(** 2dplane.h:36-45, [WrapTheta] of [Pose2<int>]: the sum with a [double] is truncated to an [int] after each iteration. *)
Fixpoint int_above (fuel : nat) (t : Z) : Z :=
  match fuel with
  | O => t
  | S k => if Rltb PI (IZR t) then int_above k (Rtrunc (IZR t - 2 * PI)) else t
  end.
Fixpoint int_below (fuel : nat) (t : Z) : Z :=
  match fuel with
  | O => t
  | S k => if Rltb (IZR t) (- PI) then int_below k (Rtrunc (IZR t + 2 * PI)) else t
  end.
(** Each iteration brings [t] closer to zero, see [C52_seven_headings]. *)
Definition int_wrap (t : Z) : Z := int_below (Z.to_nat (Z.abs t)) (int_above (Z.to_nat (Z.abs t)) t).

(** [Pose2i]. *)
Record ipose := IPose { ix : Z; iy : Z; ith : Z }.
(** 2dplane.h:81-84, [operator==]. *)
Definition ipose_eqb (a b : ipose) : bool := (Z.eqb (ix a) (ix b) && Z.eqb (iy a) (iy b) && Z.eqb (ith a) (ith b))%bool.

(** hybrid_a_star.h:104-111, [DiscretizePose]; the constructor of [Pose2i] wraps the last argument. *)
Definition discretize (m : params) (p : pose) : res ipose :=
  do x <- cast_int (px p / hp_res m);
  do y <- cast_int (py p / hp_res m);
  do t <- cast_int (wrap_theta (pth p) / hp_ang m);
  Ok (IPose x y (int_wrap t)).

(** hybrid_a_star.h:59-65, [State]. *)
Record hstate := HState { hs_dir : direction; hs_cell : ipose; hs_pose : pose }.
(** hybrid_a_star.h:81-86, [State::Equal]. *)
Definition hs_eqb (a b : hstate) : bool := ipose_eqb (hs_cell a) (hs_cell b).

(** hybrid_a_star.h:90-93, [Action]: the two kinds of paths that the search creates. *)
Inductive drive_path := Steered (c : csteer) | Connected (q : rspath).

Definition dp_init (p : drive_path) : pose := match p with Steered c => c_init c | Connected q => q_init q end.
Definition dp_final (p : drive_path) : pose := match p with Steered c => c_final c | Connected q => q_final q end.
Definition dp_length (p : drive_path) : R := match p with Steered c => c_length c | Connected q => q_length q end.
Definition dp_at (p : drive_path) (r : R) : pose := match p with Steered c => c_at c r | Connected q => rs_at q r end.
Definition dp_direction (p : drive_path) (r : R) : direction := match p with Steered c => c_get_direction c r | Connected q => rs_direction q r end.
Definition dp_cusps (p : drive_path) : list R := match p with Steered c => c_cusps c | Connected q => rs_cusps q end.
Definition dp_truncate (p : drive_path) (r : R) : drive_path :=
  match p with Steered c => Steered (c_truncate c r) | Connected q => Connected (rs_truncate q r) end.
(** As the validator sees it. *)
Definition as_path (p : drive_path) : path := Path (dp_init p) (dp_length p) (fun r => Ok (dp_at p r)).

(** hybrid_a_star.cpp:41-48 and 50-57, [CreateStateFromPath] and [CreateStateFromPose]. *)
Definition state_of_path (m : params) (p : drive_path) : res hstate :=
  do c <- discretize m (dp_final p); Ok (HState (dp_direction p 1) c (dp_final p)).
Definition state_of_pose (m : params) (p : pose) : res hstate :=
  do c <- discretize m p; Ok (HState NoMotion c p).

(** hybrid_a_star.h:208-211, [IdenticalPoses]. The unqualified [abs] is taken as the absolute value of a double. *)
Definition identical_poses (a b : pose) : bool :=
  Rltb (pnorm (psub (position a) (position b))) (1 / 1000) && Rltb (Rabs (pth a - pth b)) (1 / 1000 * PI / 180).

(** ** The propagator and the search *)
Section Hybrid.
Variable m : params.
(** The map: its frames, the path cost of a cell ([GVD::GetPathCost]; [None] is NaN), and the resolution of the Voronoi diagram. *)
Variable f : frames.
Variable field : cell -> res (option R).
Variable vres : R.
(** [IsPathValid] of the validator: the verdict, and the ratio up to which the path is valid. *)
Variable validate : path -> res (bool * R).
(** The heuristic, for the goal of the search. *)
Variable heur : pose -> res xreal.
(** [Random<double>::SampleUniform(0, 1)]. *)
Variable Rng : Type.
Variable draw : Rng -> R * Rng.
Variable goal : pose.

(** hybrid_a_star.cpp:100-105: each iteration overwrites [voronoiCost]. *)
Fixpoint voronoi_loop (fuel : nat) (p : path) (len : R) (cost : option R) : res (option R) :=
  if Rltb len (p_length p) then
    match fuel with
    | O => NoFuel
    | S k =>
        do x <- p_at p (len / p_length p);
        do c <- world_to_cell f (position x) false;
        do v <- field c;
        voronoi_loop k p (len + vres * sqrt 2) v
    end
  else Ok cost.

(** hybrid_a_star.cpp:93-109, [GetVoronoiCost]. A transition cost that is not a number breaks the order that the frontier
    relies on, and is taken as undefined. *)
Definition voronoi_cost (fuel : nat) (p : drive_path) : res R :=
  do v <- voronoi_loop fuel (as_path p) 0 (Some 0);
  match v with
  | None => UB
  | Some v => Ok (hp_voronoi m * (v * (vres * sqrt 2)))
  end.

(** hybrid_a_star.cpp:130-145, the cost of a path with constant steering. *)
Definition steer_cost (fuel : nat) (dir : direction) (p : drive_path) : res xreal :=
  let pathCost := match dir with Forward => hp_forward m * dp_length p | Backward => hp_reverse m * dp_length p | NoMotion => 0 end in
  let switchingCost := if dir_eqb (dp_direction p 1) (dp_direction p 1) then 0 else hp_switching m in
  do v <- voronoi_cost fuel p;
  Ok (Some (pathCost + switchingCost + v)).

(** hybrid_a_star.cpp:111-147, [GetConstantSteerChild]. *)
Definition steer_child (fuel : nat) (s : hstate) (delta : R) (dir : direction) : res (option (hstate * drive_path * xreal)) :=
  let p := Steered (c_new (hp_model m) (hs_pose s) delta (hp_res m * (3 / 2)) dir) in
  do child <- state_of_path m p;
  do (ok, last) <- validate (as_path p);
  if ok then do c <- steer_cost fuel dir p; Ok (Some (child, p, c))
  else
    let p := dp_truncate p last in
    do cell <- discretize m (dp_final p);
    let child := HState (hs_dir child) cell (dp_final p) in
    if hs_eqb s child then Ok None
    else do c <- steer_cost fuel dir p; Ok (Some (child, p, c)).

(** hybrid_a_star.cpp:149-173, [GetReedsSheppChild]. *)
Definition rs_child (fuel : nat) (s : hstate) : res (option (hstate * drive_path * xreal)) :=
  do g <- optimal_path (hs_pose s) goal (hp_radius m) (hp_reverse m) (hp_forward m) (hp_switching m);
  let q := rs_new (hs_pose s) g (hp_radius m) in
  let p := Connected q in
  do (ok, _) <- validate (as_path p);
  if negb ok then Ok None
  else
    do child <- state_of_path m p;
    do v <- voronoi_cost fuel p;
    Ok (Some (child, p, x_add (rs_cost q (hp_switching m) (hp_reverse m) (hp_forward m)) (Some v))).

Definition opt_list {A} (o : option A) : list A := match o with Some a => [a] | None => [] end.

(** hybrid_a_star.cpp:63-77. *)
Fixpoint steer_children (fuel : nat) (s : hstate) (ds : list R) : res (list (hstate * drive_path * xreal)) :=
  match ds with
  | [] => Ok []
  | delta :: r =>
      do a <- steer_child fuel s delta Forward;
      do b <- steer_child fuel s delta Backward;
      do l <- steer_children fuel s r;
      Ok (opt_list a ++ opt_list b ++ l)
  end.

(** hybrid_a_star.cpp:81-82: whether to try a connection. *)
Definition try_connection (g : Rng) (h : xreal) : bool * Rng :=
  match h with
  | Some v => if Rltb v 10 then (true, g) else let (u, g') := draw g in (Rltb u (10 / (v * v)), g')
  | None => let (u, g') := draw g in (Rltb u 0, g')
  end.

(** hybrid_a_star.cpp:59-91, [GetNeighborStates]. *)
Definition neighbors (fuel : nat) (g : Rng) (s : hstate) : res (list (hstate * drive_path * xreal) * Rng) :=
  do l <- steer_children fuel s (deltas m);
  do h <- heur (hs_pose s);
  let (try, g') := try_connection g h in
  if try then do c <- rs_child fuel s; Ok (l ++ opt_list c, g')
  else Ok (l, g').

(** a_star.h:390: the heuristic is evaluated at each neighbour. *)
Fixpoint estimates_ok (l : list (hstate * drive_path * xreal)) : res unit :=
  match l with
  | [] => Ok tt
  | (s, _, _) :: r => do _ <- heur (hs_pose s); estimates_ok r
  end.

(** The propagator for [AStar_model]. Its internal state is that of the random generator, or an error, which stays: see
    [graph_search]. *)
Definition h_succ (fuel : nat) (g : res Rng) (s : hstate) : list (hstate * drive_path * xreal) * res Rng :=
  match g with
  | Ok g =>
      match (do (l, g') <- neighbors fuel g s; do _ <- estimates_ok l; Ok (l, g')) with
      | Ok (l, g') => (l, Ok g')
      | UB => ([], UB)
      | Throw => ([], Throw)
      | NoFuel => ([], NoFuel)
      end
  | e => ([], e)
  end.

(** The value of the heuristic; errors have been reported by [h_succ]. *)
Definition h_value (s : hstate) : xreal := match heur (hs_pose s) with Ok v => v | _ => None end.

(** hybrid_a_star.h:193-196, [IsSolution]. *)
Definition h_solution (s : hstate) : bool := identical_poses (hs_pose s) goal.
(** hybrid_a_star.h:203, the condition of [ProcessPossibleShortcut]. *)
Definition h_guard (frontier child : hstate) : bool := identical_poses (hs_pose frontier) (hs_pose child).

Definition hnode : Type := node hstate drive_path xreal.

(** hybrid_a_star.cpp:253-255 and h:180, the graph search. [vfuel] bounds the samples of the Voronoi cost of a path, [fuel] the
    expanded states. *)
Definition graph_search (vfuel fuel : nat) (init : pose) (g : Rng) : res (option hnode * search hstate drive_path xreal (res Rng)) :=
  do si <- state_of_pose m init;
  do _ <- state_of_pose m goal;
  do (sol, st) <- search_path hs_eqb x_ltb x_add (Some 0) h_value (h_succ vfuel) h_solution h_guard true fuel si (Ok g);
  do _ <- st_prop st;
  Ok (sol, st).
End Hybrid.

(** hybrid_a_star.cpp:316-323, [GetGraphSearchPath]. The action of the root, which is never read, is any path. *)
Definition dflt_path : drive_path := Connected (RsPath (Pose 0 0 0) (Pose 0 0 0) 0 g_new 1).
Definition search_motions (sol : option hnode) : res (list drive_path) := get_actions dflt_path sol.

(** hybrid_a_star.cpp:175-183, [GetCompositePath]. *)
Definition dp_composite (l : list drive_path) : composite pose drive_path :=
  fold_left (push_back pose drive_path dp_length dp_final) l (k_new pose drive_path (Pose 0 0 0)).
Definition dp_composite_at (c : composite pose drive_path) (r : R) : res pose :=
  k_at pose drive_path dp_length (fun p r => Ok (dp_at p r)) c r.

(** ** Sampling *)

(** [std::set<double>::insert]. *)
Fixpoint rset_insert (x : R) (l : list R) : list R :=
  match l with
  | [] => [x]
  | y :: r => if Rltb x y then x :: l else if Rltb y x then y :: rset_insert x r else l
  end.

(** hybrid_a_star.cpp:271-273. *)
Definition cusp_set (cusps : list R) : list R := rset_insert 1 (rset_insert 0 (fold_left (fun s x => rset_insert x s) cusps [])).

(** hybrid_a_star.cpp:276-287: [its] are the elements from [cuspRatioIt] on; dereferencing the end is undefined. The result is
    the ratios and the indices of the cusps. *)
Fixpoint sample_loop (fuel : nat) (total step len : R) (its ratios : list R) (cusps : list nat) : res (list R * list nat) :=
  if Rleb len total then
    match fuel with
    | O => NoFuel
    | S k =>
        match its with
        | [] => UB
        | c :: its' =>
            let cuspLength := c * total in
            if Rleb (cuspLength - step / 2) len && Rltb len (cuspLength + step / 2)
            then sample_loop k total step (len + step) its' (ratios ++ [c]) (cusps ++ [length ratios])
            else sample_loop k total step (len + step) its (ratios ++ [len / total]) cusps
        end
    end
  else Ok (ratios, cusps).
Definition sample (fuel : nat) (total step : R) (cusps : list R) : res (list R * list nat) :=
  sample_loop fuel total step 0 (cusp_set cusps) [] [].

(** path.h:37-44. *)
Fixpoint interpolate_all {A} (at_ : R -> res A) (l : list R) : res (list A) :=
  match l with
  | [] => Ok []
  | r :: rest => do x <- at_ r; do xs <- interpolate_all at_ rest; Ok (x :: xs)
  end.

(** hybrid_a_star.cpp:265-290: the sampled path and the indices of its cusps. *)
Definition sampled_path (fuel : nat) (step : R) (c : composite pose drive_path) : res (list pose * list nat) :=
  let cusps := k_cusps pose drive_path dp_length dp_direction dp_cusps c in
  do (ratios, indices) <- sample fuel (k_length _ _ c) step cusps;
  do poses <- interpolate_all (dp_composite_at c) ratios;
  Ok (poses, indices).

(** hybrid_a_star.cpp:237-304, [SearchPath]: the new status ([true] for Success) and the new [m_path]. [sol] is the outcome of the
    graph search, and [smoother] the smoother, which returns whether it succeeded, and its path. *)
Definition hybrid_result (fuel : nat) (step : R) (smoother : list pose -> list nat -> res (bool * list pose)) (initialized : bool)
  (sol : res (option hnode)) (old : list pose) : res (bool * list pose) :=
  if negb initialized then Ok (false, old)
  else
    do sol <- sol;
    match sol with
    | None => Ok (false, old)
    | Some n =>
        do l <- search_motions (Some n);
        do (poses, indices) <- sampled_path fuel step (dp_composite l);
        do (ok, smooth) <- smoother poses indices;
        Ok (true, if ok then smooth else poses)
    end.
