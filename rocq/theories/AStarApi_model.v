(** Model of the public life cycle of an [AStar] object: /repo/planner/src/algo/path_planner.h and
    a_star.h. *)
From Verif Require Import Base Frontier_model AStar_model.

Section Api.
  Variables (S A C : Type).
  Variable eqs : S -> S -> bool.
  Variables (ltb : C -> C -> bool) (add : C -> C -> C) (zero : C).
  Variable dflt : A.

  (** A propagator and a heuristic as passed to [Initialize] (a_star.h:315). The heuristic receives
      the goal through [SetGoal] (a_star.h:48, 363). The propagator is deterministic here. *)
  Record env := Env { env_succ : S -> list (S * A * C); env_h : S -> S -> C }.

  (** Members of the planner that survive a call: path_planner.h:39-40 and a_star.h:430-440. The
      frontier and explored set are cleared by each search (a_star.h:354-355), so they are not
      kept. *)
  Record planner := Planner {
    pl_init : S;
    pl_goal : S;
    pl_env : option env;
    pl_inited : bool;
    pl_sol : option (node S A C)
  }.

  (** A new object. [d] is the unspecified initial value of [m_init] and [m_goal]
      (path_planner.h:39-40). *)
  Definition planner_new (d : S) : planner := Planner d d None false None.

  (** path_planner.h:9-12. *)
  Inductive status := Success | Failure.

  Inductive call :=
  | SetInitState (s : S)                (* path_planner.h:31 *)
  | SetGoalState (s : S)                (* path_planner.h:32 *)
  | Initialize (e : option env)         (* a_star.h:315-323; [None]: one of the pointers is null *)
  | SearchPath (fuel : nat).            (* a_star.h:326-346; the fuel bounds the loop *)

  Inductive event :=
  | EvInit (s : S)
  | EvGoal (s : S)
  | EvInitialize (ok : bool)
  | EvSearch (r : status).

  Definition call_step (pl : planner) (c : call) : res (event * planner) :=
    match c with
    | SetInitState s => Ok (EvInit s, Planner s (pl_goal pl) (pl_env pl) (pl_inited pl) (pl_sol pl))
    | SetGoalState s => Ok (EvGoal s, Planner (pl_init pl) s (pl_env pl) (pl_inited pl) (pl_sol pl))
    | Initialize None => Ok (EvInitialize false, Planner (pl_init pl) (pl_goal pl) (pl_env pl) false (pl_sol pl))
    | Initialize (Some e) => Ok (EvInitialize true, Planner (pl_init pl) (pl_goal pl) (Some e) true (pl_sol pl))
    | SearchPath fuel =>
      if pl_inited pl then
        match pl_env pl with
        | None => UB (* null propagator *)
        | Some e =>
          do (sol, _) <- search_path eqs ltb add zero (env_h e (pl_goal pl))
                           (fun (_ : unit) s => (env_succ e s, tt))
                           (fun s => eqs s (pl_goal pl)) (fun _ _ => true) true fuel (pl_init pl) tt;
          Ok (EvSearch (match sol with Some _ => Success | None => Failure end),
              Planner (pl_init pl) (pl_goal pl) (pl_env pl) (pl_inited pl) sol)
        end
      else Ok (EvSearch Failure, pl)
    end.

  Fixpoint run_calls (pl : planner) (cs : list call) : res (list event * planner) :=
    match cs with
    | [] => Ok ([], pl)
    | c :: cs' =>
      do (ev, pl1) <- call_step pl c;
      do (evs, pl2) <- run_calls pl1 cs';
      Ok (ev :: evs, pl2)
    end.
End Api.

Arguments Env {S A C}.
Arguments env_succ {S A C}.
Arguments env_h {S A C}.
Arguments Planner {S A C}.
Arguments pl_init {S A C}.
Arguments pl_goal {S A C}.
Arguments pl_env {S A C}.
Arguments pl_inited {S A C}.
Arguments pl_sol {S A C}.
Arguments planner_new {S A C}.
Arguments SetInitState {S A C}.
Arguments SetGoalState {S A C}.
Arguments Initialize {S A C}.
Arguments SearchPath {S A C}.
Arguments EvInit {S}.
Arguments EvGoal {S}.
Arguments EvInitialize {S}.
Arguments EvSearch {S}.
Arguments call_step {S A C}.
Arguments run_calls {S A C}.
