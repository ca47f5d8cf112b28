(** Vocabulary for the memory of a graph search: ownership, and the uses of one search object. *)
From Verif Require Import Base Frontier_model AStar_model AStar_spec AStarMem_model.

(** The objects that are deleted together with [r]: those reached from it through the unique pointers to the children. *)
Inductive owned {S A C} (m : memory S A C) (r : nat) : nat -> Prop :=
| owned_self o : live m r = Some o -> owned m r r
| owned_child a o c : owned m r a -> live m a = Some o -> In c (ob_children o) -> owned m r c.

Section Uses.
  Context {S A C P : Type}.
  Context (eqs : S -> S -> bool) (ltb : C -> C -> bool) (add : C -> C -> C) (zero : C) (dflt : A).
  Context (guard : S -> S -> bool) (graph : bool).

  (** A call of [SearchPath]: the start, the heuristic with its goal, the propagator and the test of the solution may change between the
      calls. *)
  Record request := Request {
    rq_init : S;
    rq_h : S -> C;
    rq_succ : P -> S -> list (S * A * C) * P;
    rq_sol : S -> bool;
    rq_fuel : nat
  }.

  (** What the caller sees of a search: its status, the path, the actions and the cost. *)
  Record answer := Answer { an_found : bool; an_path : list S; an_actions : list A; an_cost : option C }.

  (** The calls on one object, with pointers. *)
  Definition ms_answer (found : bool) (st : mstate S A C P) : res answer :=
    do path <- ms_path st; do actions <- ms_actions st; do cost <- ms_cost st; Ok (Answer found path actions cost).
  Definition ms_call (q : request) (st : mstate S A C P) : res (answer * mstate S A C P) :=
    do (found, st1) <- ms_search eqs ltb add zero dflt (rq_h q) (rq_succ q) (rq_sol q) guard graph (rq_fuel q) (rq_init q) st;
    do x <- ms_answer found st1;
    Ok (x, st1).
  Fixpoint ms_run (qs : list request) (st : mstate S A C P) : res (list answer * mstate S A C P) :=
    match qs with
    | [] => Ok ([], st)
    | q :: qs' => do (x, st1) <- ms_call q st; do (xs, st2) <- ms_run qs' st1; Ok (x :: xs, st2)
    end.

  (** The same calls, each of them a new search without pointers; only the state of the propagator is kept between them. *)
  Definition plain_call (q : request) (p : P) : res (answer * P) :=
    do (sol, st) <- search_path eqs ltb add zero (rq_h q) (rq_succ q) (rq_sol q) guard graph (rq_fuel q) (rq_init q) p;
    do path <- get_path sol; do actions <- get_actions dflt sol;
    Ok (Answer (match sol with Some _ => true | None => false end) path actions (get_optimal_cost zero sol), st_prop st).
  Fixpoint plain_run (qs : list request) (p : P) : res (list answer) :=
    match qs with
    | [] => Ok []
    | q :: qs' => do (x, p1) <- plain_call q p; do xs <- plain_run qs' p1; Ok (x :: xs)
    end.
End Uses.
Arguments Request {S A C P}.
Arguments rq_init {S A C P}.
Arguments rq_h {S A C P}.
Arguments rq_succ {S A C P}.
Arguments rq_sol {S A C P}.
Arguments rq_fuel {S A C P}.
Arguments Answer {S A C}.
