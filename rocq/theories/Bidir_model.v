(** Model of [BidirectionalAStar], /repo/planner/src/algo/bidirectional_a_star.h. *)
From Verif Require Import Base Frontier_model AStar_model.

Section Bidirectional.
  Variables (S A C Pf Pr : Type).
  Variable eqs : S -> S -> bool.
  Variables (ltb : C -> C -> bool) (add : C -> C -> C) (zero : C).
  (** Heuristics and propagators of the two searches, after [SetGoal]. *)
  Variables (hf hr : S -> C).
  Variable succf : Pf -> S -> list (S * A * C) * Pf.
  Variable succr : Pr -> S -> list (S * A * C) * Pr.
  Variable graph : bool.

  (** Comparison with [bestCost], which starts at infinity ([None], bidirectional_a_star.h:152). *)
  Definition lt_best (c : C) (best : option C) : bool :=
    match best with
    | None => true
    | Some b => ltb c b
    end.

  (** bidirectional_a_star.h:181-196, [FindIntersection]: the new best cost, and the node of the other
      search if the candidate is better. *)
  Definition find_intersection (nodeA : node S A C) (explB : list (node S A C)) (best : option C) :
      option C * option (node S A C) :=
    match find (fun m => eqs (n_state m) (n_state nodeA)) explB with
    | None => (best, None)
    | Some nodeB =>
      let cand := add (n_g zero nodeA) (n_g zero nodeB) in
      if lt_best cand best then (Some cand, Some nodeB) else (best, None)
    end.

  (** bidirectional_a_star.h:155-156 and 160-161: pop a node and expand it. *)
  Definition pop_expand {P} (h : S -> C) (succ : P -> S -> list (S * A * C) * P) (st : search S A C P) :
      res (node S A C * search S A C P) :=
    do (n, fr) <- f_pop (n_eq eqs) (st_front st);
    do st' <- expand eqs ltb add zero h succ (fun _ _ => true) graph n
                (Search fr (st_expl st) (st_prop st) (st_queried st));
    Ok (n, st').

  (** The state of the two searches, [bestCost], and both [m_solutionNode] members (always set together,
      bidirectional_a_star.h:192-193), forward node first. *)
  Record bi := Bi {
    b_f : search S A C Pf;
    b_r : search S A C Pr;
    b_best : option C;
    b_sol : option (node S A C * node S A C)
  }.

  (** bidirectional_a_star.h:155-157. *)
  Definition forward (b : bi) : res bi :=
    do (n, f') <- pop_expand hf succf (b_f b);
    let (best', m) := find_intersection n (st_expl (b_r b)) (b_best b) in
    Ok (Bi f' (b_r b) best' (match m with Some nodeB => Some (n, nodeB) | None => b_sol b end)).

  (** bidirectional_a_star.h:160-162. *)
  Definition backward (b : bi) : res bi :=
    do (n, r') <- pop_expand hr succr (b_r b);
    let (best', m) := find_intersection n (st_expl (b_f b)) (b_best b) in
    Ok (Bi (b_f b) r' best' (match m with Some nodeB => Some (nodeB, n) | None => b_sol b end)).

  Definition either_empty (b : bi) : bool := f_is_empty (st_front (b_f b)) || f_is_empty (st_front (b_r b)).

  (** bidirectional_a_star.h:165-175: [true] when the loop returns Success. *)
  Definition finished (offset : C) (b : bi) : res bool :=
    match b_sol b with
    | None => Ok false
    | Some _ =>
      if either_empty b then Ok true
      else
        do ft <- f_top (st_front (b_f b));
        do rt <- f_top (st_front (b_r b));
        Ok (match b_best b with
            | None => false
            | Some best => negb (ltb (add (n_g zero ft) (n_g zero rt)) (add best offset))
            end)
    end.

  (** bidirectional_a_star.h:153-177. *)
  Fixpoint bi_loop (fuel : nat) (offset : C) (b : bi) : res (bool * bi) :=
    match fuel with
    | O => NoFuel
    | Datatypes.S fuel' =>
      if either_empty b then Ok (false, b)
      else
        do b1 <- forward b;
        do b2 <- backward b1;
        do fin <- finished offset b2;
        if fin then Ok (true, b2) else bi_loop fuel' offset b2
    end.

  (** bidirectional_a_star.h:130-178, [SearchPath] of an initialized planner. [true] is Success. *)
  Definition bi_search (fuel : nat) (init goal : S) (pf : Pf) (pr : Pr) : res (bool * bi) :=
    do f <- init_search eqs ltb zero init pf;
    do r <- init_search eqs ltb zero goal pr;
    bi_loop fuel (add (hf goal) (hr goal)) (Bi f r None None).

  (** bidirectional_a_star.h:66-72, [GetPath]. *)
  Definition bi_path (sol : option (node S A C * node S A C)) : res (list S) :=
    do f <- get_path (option_map fst sol);
    do r <- get_path (option_map snd sol);
    Ok (f ++ rev r).

  (** bidirectional_a_star.h:81-84, [GetOptimalCost]; [None] is infinity. *)
  Definition bi_cost (sol : option (node S A C * node S A C)) : option C :=
    match get_optimal_cost zero (option_map fst sol), get_optimal_cost zero (option_map snd sol) with
    | Some a, Some b => Some (add a b)
    | _, _ => None
    end.
End Bidirectional.

Arguments lt_best {C}.
Arguments find_intersection {S A C}.
Arguments pop_expand {S A C} eqs ltb add zero graph {P}.
Arguments Bi {S A C Pf Pr}.
Arguments b_f {S A C Pf Pr}.
Arguments b_r {S A C Pf Pr}.
Arguments b_best {S A C Pf Pr}.
Arguments b_sol {S A C Pf Pr}.
Arguments forward {S A C Pf Pr}.
Arguments backward {S A C Pf Pr}.
Arguments either_empty {S A C Pf Pr}.
Arguments finished {S A C Pf Pr}.
Arguments bi_loop {S A C Pf Pr}.
Arguments bi_search {S A C Pf Pr}.
Arguments bi_path {S A C}.
Arguments bi_cost {S A C}.

(** ** [AverageHeuristic], bidirectional_a_star.h:8-39, over the reals *)
From Coq Require Import Reals.
Section Average.
  Local Open Scope R_scope.
  Variable S : Type.

  (** a_star.h:66-82, [AStarConcreteHeuristicFcn]: a function of the state and of the stored goal. *)
  Record concrete := Concrete { c_func : S -> S -> R; c_goal : S }.
  Definition c_value (h : concrete) (s : S) : R := c_func h s (c_goal h).
  (** a_star.h:60, [SetGoal]. *)
  Definition c_set_goal (h : concrete) (goal : S) : concrete := Concrete (c_func h) goal.

  (** bidirectional_a_star.h:36-38 and a_star.h:63. *)
  Record average := Average { a_to_goal : concrete; a_to_init : concrete; a_init : S; a_goal : S; a_constant : R }.

  (** bidirectional_a_star.h:19-22. *)
  Definition a_value (h : average) (s : S) : R :=
    a_constant h + (c_value (a_to_goal h) s - c_value (a_to_init h) s) / 2.
  (** bidirectional_a_star.h:28-33. *)
  Definition a_update (h : average) (init goal : S) : average :=
    Average (a_to_goal h) (a_to_init h) init goal (c_value (a_to_init h) goal / 2).
  (** a_star.h:60: [SetGoal] is inherited and sets [m_goal] of the wrapper only. *)
  Definition a_set_goal (h : average) (goal : S) : average :=
    Average (a_to_goal h) (a_to_init h) (a_init h) goal (a_constant h).

  (** bidirectional_a_star.h:58-63. The uninitialized members are arguments. *)
  Definition average_pair (f r : concrete) (s0 : S) (c0 : R) : average * average :=
    (Average f r s0 s0 c0, Average r f s0 s0 c0).

  (** The pair as the searches use it: bidirectional_a_star.h:137-148 and a_star.h:363. *)
  Definition searched_pair (f r : concrete) (s0 : S) (c0 : R) (init goal : S) : average * average :=
    let (af, ar) := average_pair f r s0 c0 in
    (a_set_goal (a_update af init goal) goal, a_set_goal (a_update ar goal init) init).
End Average.

Arguments Concrete {S}.
Arguments c_func {S}.
Arguments c_goal {S}.
Arguments c_value {S}.
Arguments c_set_goal {S}.
Arguments Average {S}.
Arguments a_value {S}.
Arguments a_update {S}.
Arguments a_set_goal {S}.
Arguments average_pair {S}.
Arguments searched_pair {S}.
