(** Model of heuristics as objects shared between planners: /repo/planner/src/algo/a_star.h:31-146, 315-364 and
    bidirectional_a_star.h:8-39, 101-148. [AStarApi_model.v] and [Bidir_model.v] treat a heuristic as a function that is given once
    the goal is set; here it is an object that keeps the goal, and several planners, or other heuristics, may hold it. *)
From Verif Require Import Base Frontier_model AStar_model Bidir_model.

Section Objects.
  Variables (S A C : Type).
  Variable eqs : S -> S -> bool.
  Variables (ltb : C -> C -> bool) (add : C -> C -> C) (zero : C).
  (** [std::max] and minus infinity on costs (a_star.h:104-106), [x / 2.0] (bidirectional_a_star.h:32) and
      [k + (a - b) / 2.0] (bidirectional_a_star.h:21). *)
  Variables (vmax : C -> C -> C) (bottom : C) (half : C -> C) (avg : C -> C -> C -> C).

  (** An object, with the references it holds; objects are numbered. State types of adapters are merged into one type. *)
  Inductive hobj :=
  | HFcn (func : S -> S -> C) (goal : S)             (* a_star.h:66-82, [AStarConcreteHeuristicFcn] *)
  | HCombined (parts : list nat)                     (* a_star.h:87-120, [AStarCombinedHeuristic] *)
  | HAdapter (inner : nat) (func : S -> S)           (* a_star.h:124-146, [AStarHeuristicAdapter] *)
  | HAverage (toGoal toInit : nat) (constant : C).   (* bidirectional_a_star.h:10-39; [m_init] and [m_goal] are never read *)

  (** The objects, by number. They are kept alive by the references to them, so none is ever removed here. *)
  Definition heap := list hobj.

  Definition put (hp : heap) (id : nat) (o : hobj) : heap := firstn id hp ++ o :: skipn (Datatypes.S id) hp.

  (** [SetGoal]: a_star.h:60, 112-116, 135-138; bidirectional_a_star.h:10 inherits the first of them. A cycle of references is an
      infinite recursion, [NoFuel]. *)
  Fixpoint set_goal (depth : nat) (hp : heap) (id : nat) (goal : S) : res heap :=
    match depth with
    | O => NoFuel
    | Datatypes.S d =>
      match nth_error hp id with
      | None => UB
      | Some (HFcn func _) => Ok (put hp id (HFcn func goal))
      | Some (HCombined parts) =>
        (fix loop (hp : heap) (ids : list nat) : res heap :=
           match ids with
           | [] => Ok hp
           | i :: r => do hp1 <- set_goal d hp i goal; loop hp1 r
           end) hp parts
      | Some (HAdapter inner func) => set_goal d hp inner (func goal)
      | Some (HAverage _ _ _) => Ok hp
      end
    end.

  (** [GetHeuristicValue]: a_star.h:74-77, 102-109, 130-133; bidirectional_a_star.h:19-22. The result is the function of the state. *)
  Fixpoint value (depth : nat) (hp : heap) (id : nat) : res (S -> C) :=
    match depth with
    | O => NoFuel
    | Datatypes.S d =>
      match nth_error hp id with
      | None => UB
      | Some (HFcn func goal) => Ok (fun s => func s goal)
      | Some (HCombined parts) =>
        do hs <- (fix loop (ids : list nat) : res (list (S -> C)) :=
                    match ids with
                    | [] => Ok []
                    | i :: r => do h <- value d hp i; do hs <- loop r; Ok (h :: hs)
                    end) parts;
        Ok (fun s => fold_left (fun v h => vmax v (h s)) hs bottom)
      | Some (HAdapter inner func) => do h <- value d hp inner; Ok (fun s => h (func s))
      | Some (HAverage toGoal toInit constant) =>
        do a <- value d hp toGoal;
        do b <- value d hp toInit;
        Ok (fun s => avg constant (a s) (b s))
      end
    end.

  (** bidirectional_a_star.h:28-33, [Update] of an average. *)
  Definition update_average (depth : nat) (hp : heap) (id : nat) (goal : S) : res heap :=
    match nth_error hp id with
    | Some (HAverage toGoal toInit _) => do b <- value depth hp toInit; Ok (put hp id (HAverage toGoal toInit (half (b goal))))
    | _ => UB
    end.

  (** A deterministic propagator. *)
  Definition propagator : Type := S -> list (S * A * C).

  (** The members [m_propagator], [m_heuristic] and [isInitialized] of an [AStar] object (a_star.h:429-443). *)
  Record setup := Setup { su_held : option (propagator * nat); su_ok : bool }.

  (** a_star.h:315-323, [Initialize]; [None] stands for a null pointer. *)
  Definition initialize (x : setup) (p : option propagator) (h : option nat) : setup :=
    match p, h with
    | Some p, Some h => Setup (Some (p, h)) true
    | _, _ => Setup (su_held x) false
    end.

  (** A planner and what its searches left: an [AStar], or a [BidirectionalAStar] (bidirectional_a_star.h:200-205, with the raw
      pointers to the averages). *)
  Inductive solver :=
  | Uni (x : setup) (sol : option (node S A C))
  | Duo (f r : setup) (favg ravg : option nat) (ok : bool) (sol : option (node S A C * node S A C)).
  Record planner := Planner { pl_init : S; pl_goal : S; pl_solver : solver }.

  (** The objects of a program. *)
  Record world := World { w_heap : heap; w_planners : list planner }.
  Definition world_new : world := World [] [].

  Inductive call :=
  | NewHeuristic (o : hobj)                               (* the constructors; uninitialized members have any value *)
  | AddPart (id part : nat)                               (* a_star.h:92-100, [Add] *)
  | NewAStar (d : S)                                      (* [d]: the unspecified value of the states *)
  | NewBidirectional (d : S)
  | SetInit (p : nat) (s : S)                             (* path_planner.h:31-32 *)
  | SetGoal (p : nat) (s : S)
  | InitAStar (p : nat) (prop : option propagator) (h : option nat)
  | InitBidirectional (p : nat) (fprop rprop : option propagator) (fh rh : option nat)
  | SearchPath (p : nat).

  (** What a call returns: the result of [Initialize], or the status of [SearchPath], where [true] is Success. *)
  Inductive answer := Nothing | Initialized (ok : bool) | Searched (ok : bool).

  Definition put_planner (w : world) (p : nat) (x : planner) : world :=
    World (w_heap w) (firstn p (w_planners w) ++ x :: skipn (Datatypes.S p) (w_planners w)).

  (** bidirectional_a_star.h:121-122, the [dynamic_cast] to an average. *)
  Definition as_average (hp : heap) (h : option (propagator * nat)) : option nat :=
    match h with
    | Some (_, id) => match nth_error hp id with Some (HAverage _ _ _) => Some id | _ => None end
    | None => None
    end.

  (** bidirectional_a_star.h:115-125, [Initialize]. *)
  Definition initialize_both (hp : heap) (f r : setup) (favg ravg : option nat) (fp rp : option propagator) (fh rh : option nat) :
      setup * setup * option nat * option nat * bool :=
    let f' := initialize f fp fh in
    if negb (su_ok f') then (f', r, favg, ravg, false)
    else
      let r' := initialize r rp rh in
      if negb (su_ok r') then (f', r', favg, ravg, false)
      else (f', r', as_average hp (su_held f'), as_average hp (su_held r'), true).

  (** bidirectional_a_star.h:137-140. *)
  Definition update_averages (depth : nat) (hp : heap) (favg ravg : option nat) (init goal : S) : res heap :=
    match favg, ravg with
    | Some a, Some b => do hp1 <- update_average depth hp a goal; update_average depth hp1 b init
    | _, _ => Ok hp
    end.

  Variable graph : bool.
  (** Bounds on the nesting of heuristics and on the loop of a search. *)
  Variables depth fuel : nat.

  Definition step (w : world) (c : call) : res (answer * world) :=
    match c with
    | NewHeuristic o => Ok (Nothing, World (w_heap w ++ [o]) (w_planners w))
    | AddPart id part =>
      match nth_error (w_heap w) id with
      | Some (HCombined parts) => Ok (Nothing, World (put (w_heap w) id (HCombined (parts ++ [part]))) (w_planners w))
      | _ => UB
      end
    | NewAStar d => Ok (Nothing, World (w_heap w) (w_planners w ++ [Planner d d (Uni (Setup None false) None)]))
    | NewBidirectional d =>
      Ok (Nothing, World (w_heap w) (w_planners w ++ [Planner d d (Duo (Setup None false) (Setup None false) None None false None)]))
    | SetInit p s =>
      match nth_error (w_planners w) p with
      | Some x => Ok (Nothing, put_planner w p (Planner s (pl_goal x) (pl_solver x)))
      | None => UB
      end
    | SetGoal p s =>
      match nth_error (w_planners w) p with
      | Some x => Ok (Nothing, put_planner w p (Planner (pl_init x) s (pl_solver x)))
      | None => UB
      end
    | InitAStar p prop h =>
      match nth_error (w_planners w) p with
      | Some (Planner i g (Uni x sol)) =>
        let x' := initialize x prop h in
        Ok (Initialized (su_ok x'), put_planner w p (Planner i g (Uni x' sol)))
      | _ => UB
      end
    | InitBidirectional p fp rp fh rh =>
      match nth_error (w_planners w) p with
      | Some (Planner i g (Duo f r favg ravg _ sol)) =>
        let '(f', r', fa, ra, ok) := initialize_both (w_heap w) f r favg ravg fp rp fh rh in
        Ok (Initialized ok, put_planner w p (Planner i g (Duo f' r' fa ra ok sol)))
      | _ => UB
      end
    | SearchPath p =>
      match nth_error (w_planners w) p with
      (* a_star.h:326-346 *)
      | Some (Planner i g (Uni x sol)) =>
        if su_ok x then
          match su_held x with
          | None => UB
          | Some (prop, id) =>
            do hp <- set_goal depth (w_heap w) id g;
            do h <- value depth hp id;
            do (sol', _) <- search_path eqs ltb add zero h (fun (_ : unit) s => (prop s, tt)) (fun s => eqs s g)
                              (fun _ _ => true) graph fuel i tt;
            Ok (Searched (match sol' with Some _ => true | None => false end),
                put_planner (World hp (w_planners w)) p (Planner i g (Uni x sol')))
          end
        else Ok (Searched false, w)
      (* bidirectional_a_star.h:130-178 *)
      | Some (Planner i g (Duo f r favg ravg ok sol)) =>
        if ok then
          do hp0 <- update_averages depth (w_heap w) favg ravg i g;
          match su_held f, su_held r with
          | Some (fp, fid), Some (rp, rid) =>
            do hp1 <- set_goal depth hp0 fid g;
            do hp2 <- set_goal depth hp1 rid i;
            do hf <- value depth hp2 fid;
            do hr <- value depth hp2 rid;
            do (found, b) <- bi_search eqs ltb add zero hf hr (fun (_ : unit) s => (fp s, tt)) (fun (_ : unit) s => (rp s, tt))
                               graph fuel i g tt tt;
            Ok (Searched found, put_planner (World hp2 (w_planners w)) p (Planner i g (Duo f r favg ravg ok (b_sol b))))
          | _, _ => UB
          end
        else Ok (Searched false, w)
      | None => UB
      end
    end.

  Fixpoint run (w : world) (cs : list call) : res (list answer * world) :=
    match cs with
    | [] => Ok ([], w)
    | c :: r =>
      do (a, w1) <- step w c;
      do (l, w2) <- run w1 r;
      Ok (a :: l, w2)
    end.

  (** a_star.h:254-269 and bidirectional_a_star.h:66-72, [GetPath]. *)
  Definition get_planner_path (x : planner) : res (list S) :=
    match pl_solver x with
    | Uni _ sol => get_path sol
    | Duo _ _ _ _ _ sol => bi_path sol
    end.
  (** a_star.h:294-299 and bidirectional_a_star.h:81-84, [GetOptimalCost]; [None] is infinity. *)
  Definition get_planner_cost (x : planner) : option C :=
    match pl_solver x with
    | Uni _ sol => get_optimal_cost zero sol
    | Duo _ _ _ _ _ sol => bi_cost add zero sol
    end.
End Objects.

Arguments HFcn {S C}.
Arguments HCombined {S C}.
Arguments HAdapter {S C}.
Arguments HAverage {S C}.
Arguments put {S C}.
Arguments set_goal {S C}.
Arguments value {S C}.
Arguments update_average {S C}.
Arguments Setup {S A C}.
Arguments su_held {S A C}.
Arguments su_ok {S A C}.
Arguments initialize {S A C}.
Arguments Uni {S A C}.
Arguments Duo {S A C}.
Arguments Planner {S A C}.
Arguments pl_init {S A C}.
Arguments pl_goal {S A C}.
Arguments pl_solver {S A C}.
Arguments World {S A C}.
Arguments w_heap {S A C}.
Arguments w_planners {S A C}.
Arguments world_new {S A C}.
Arguments NewHeuristic {S A C}.
Arguments AddPart {S A C}.
Arguments NewAStar {S A C}.
Arguments NewBidirectional {S A C}.
Arguments SetInit {S A C}.
Arguments SetGoal {S A C}.
Arguments InitAStar {S A C}.
Arguments InitBidirectional {S A C}.
Arguments SearchPath {S A C}.
Arguments put_planner {S A C}.
Arguments as_average {S A C}.
Arguments initialize_both {S A C}.
Arguments update_averages {S C}.
Arguments step {S A C}.
Arguments run {S A C}.
Arguments get_planner_path {S A C}.
Arguments get_planner_cost {S A C}.
