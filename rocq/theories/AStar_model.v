(** Model of [Planner::AStar], /repo/planner/src/algo/a_star.h. *)
From Verif Require Import Base Frontier_model.

Section AStar.
  (** [State], [Action]: template parameters (a_star.h:214-215). [C]: the type of costs ([double] in
      the code) with its comparison, addition and zero. [P]: the internal state of the propagator (a
      random generator, for instance). *)
  Variables (S A C P : Type).
  (** [EqualState] (a_star.h:217). *)
  Variable eqs : S -> S -> bool.
  (** [operator<], [operator+] and [0] on costs. *)
  Variables (ltb : C -> C -> bool) (add : C -> C -> C) (zero : C).
  (** [Action()] (a_star.h:155). *)
  Variable dflt : A.
  (** [AStarHeuristic::GetHeuristicValue] (a_star.h:44), after [SetGoal]. *)
  Variable h : S -> C.
  (** [AStarStatePropagator::GetNeighborStates] (a_star.h:26). It may change its internal state. *)
  Variable succ : P -> S -> list (S * A * C) * P.
  (** The virtual function [IsSolution] (a_star.h:368-373); for the base class
      [fun s => eqs s goal]. *)
  Variable issol : S -> bool.
  (** Condition under which [ProcessPossibleShortcut] (a_star.h:417) compares costs at all: the base
      class always does, HybridAStar only for identical poses (hybrid_a_star.h). *)
  Variable guard : S -> S -> bool.
  (** Template parameter [GraphSearch] (a_star.h:218). *)
  Variable graph : bool.

  (** a_star.h:148-161 and utils/node.h:227-232: a node with its data and its parent chain. The list
      of children only owns memory (AddChild, node.h:131-137) and is never read by the search, so it
      is left out here; Node_model.v models it. *)
  Inductive node :=
  | Root (s : S)
  | Child (s : S) (a : A) (g f : C) (parent : node).

  Definition n_state (n : node) : S := match n with Root s => s | Child s _ _ _ _ => s end.
  Definition n_action (n : node) : A := match n with Root _ => dflt | Child _ a _ _ _ => a end.
  (** a_star.h:151-152: both costs are 0 for the root. *)
  Definition n_g (n : node) : C := match n with Root _ => zero | Child _ _ g _ _ => g end.
  Definition n_f (n : node) : C := match n with Root _ => zero | Child _ _ _ f _ => f end.
  Definition n_parent (n : node) : option node := match n with Root _ => None | Child _ _ _ _ p => Some p end.

  (** a_star.h:226-231, [CompareNode]. *)
  Definition n_cmp (l r : node) : bool := ltb (n_f r) (n_f l).
  (** a_star.h:240-245, [EqualNode]. *)
  Definition n_eq (l r : node) : bool := eqs (n_state l) (n_state r).

  (** Members of the search (a_star.h:429-437). The explored container holds nodes as in
      [ExploredMap] (a_star.h:183-193); [Explored] (a_star.h:166-178) keeps only their states and is
      read in the same way. [st_queried] is not a member: it records the calls to GetNeighborStates,
      most recent first, so that theorems can speak about them. *)
  Record search := Search {
    st_front : frontier node;
    st_expl : list node;
    st_prop : P;
    st_queried : list S
  }.

  (** a_star.h:174, 190: [insert] does nothing if an equal key is present. *)
  Definition e_contains (n : node) (e : list node) : bool := existsb (fun m => n_eq m n) e.
  Definition e_insert (n : node) (e : list node) : list node := if e_contains n e then e else n :: e.

  (** a_star.h:350-364, [InitializeSearch]. *)
  Definition init_search (init : S) (p : P) : res search :=
    do (_, fr) <- f_push n_cmp n_eq (Root init) f_empty;
    Ok (Search fr (e_insert (Root init) []) p []).

  (** a_star.h:417-427, [ProcessPossibleShortcut]. *)
  Definition shortcut (frontierNode child : node) (fr : frontier node) : res (frontier node) :=
    if guard (n_state frontierNode) (n_state child) then
      if ltb (n_f child) (n_f frontierNode) then
        do (_, fr1) <- f_remove n_cmp n_eq frontierNode fr;
        do (_, fr2) <- f_push n_cmp n_eq child fr1;
        Ok fr2
      else Ok fr
    else Ok fr.

  (** a_star.h:383-408, the body of the loop of [Expand] for one neighbour. *)
  Definition expand_one (n : node) (e : list node) (fr : frontier node) (t : S * A * C) : res (frontier node) :=
    let '(cs, a, c) := t in
    let g' := add (n_g n) c in
    let child := Child cs a g' (add g' (h cs)) n in
    if graph then
      match f_find n_eq child fr with
      | None => if e_contains child e then Ok fr else do (_, fr1) <- f_push n_cmp n_eq child fr; Ok fr1
      | Some fn => shortcut fn child fr
      end
    else do (_, fr1) <- f_push n_cmp n_eq child fr; Ok fr1.

  Fixpoint expand_all (n : node) (e : list node) (fr : frontier node) (ts : list (S * A * C)) : res (frontier node) :=
    match ts with
    | [] => Ok fr
    | t :: ts' => do fr1 <- expand_one n e fr t; expand_all n e fr1 ts'
    end.

  (** a_star.h:377-409, [Expand]. *)
  Definition expand (n : node) (st : search) : res search :=
    let e := e_insert n (st_expl st) in
    let (ts, p) := succ (st_prop st) (n_state n) in
    do fr <- expand_all n e (st_front st) ts;
    Ok (Search fr e p (n_state n :: st_queried st)).

  (** a_star.h:337-345, the loop of [SearchPath]. [Some n]: Success with solution node [n]; [None]:
      Failure. *)
  Fixpoint search_loop (fuel : nat) (st : search) : res (option node * search) :=
    match fuel with
    | O => NoFuel
    | Datatypes.S fuel' =>
      if f_is_empty (st_front st) then Ok (None, st)
      else
        do (n, fr) <- f_pop n_eq (st_front st);
        let st1 := Search fr (st_expl st) (st_prop st) (st_queried st) in
        if issol (n_state n) then Ok (Some n, st1)
        else do st2 <- expand n st1; search_loop fuel' st2
    end.

  (** a_star.h:326-346, [SearchPath] of an initialized planner. *)
  Definition search_path (fuel : nat) (init : S) (p : P) : res (option node * search) :=
    do st <- init_search init p; search_loop fuel st.

  (** node.h:50-57, [GetDepth]. *)
  Fixpoint n_depth (n : node) : nat :=
    match n with
    | Root _ => 0
    | Child _ _ _ _ p => Datatypes.S (n_depth p)
    end.

  (** a_star.h:264-267: fill [k] entries from the back, following parents. [None] is the null
      pointer, dereferencing it is UB. *)
  Fixpoint fill_back {B} (get : node -> B) (k : nat) (cur : option node) (acc : list B) : res (list B) :=
    match k with
    | O => Ok acc
    | Datatypes.S k' =>
      match cur with
      | None => UB
      | Some n => fill_back get k' (n_parent n) (get n :: acc)
      end
    end.

  (** a_star.h:254-269, [GetPath]. *)
  Definition get_path (sol : option node) : res (list S) :=
    match sol with
    | None => Ok []
    | Some n => fill_back n_state (Datatypes.S (n_depth n)) (Some n) []
    end.

  (** a_star.h:272-288, [GetActions]. *)
  Definition get_actions (sol : option node) : res (list A) :=
    match sol with
    | None => Ok []
    | Some n => fill_back n_action (n_depth n) (Some n) []
    end.

  (** a_star.h:294-299, [GetOptimalCost]; [None] stands for infinity. *)
  Definition get_optimal_cost (sol : option node) : option C :=
    match sol with
    | None => None
    | Some n => Some (n_g n)
    end.
End AStar.

Arguments Root {S A C}.
Arguments Child {S A C}.
Arguments n_state {S A C}.
Arguments n_action {S A C}.
Arguments n_g {S A C}.
Arguments n_f {S A C}.
Arguments n_parent {S A C}.
Arguments n_cmp {S A C}.
Arguments n_eq {S A C}.
Arguments Search {S A C P}.
Arguments st_front {S A C P}.
Arguments st_expl {S A C P}.
Arguments st_prop {S A C P}.
Arguments st_queried {S A C P}.
Arguments e_contains {S A C}.
Arguments e_insert {S A C}.
Arguments init_search {S A C P}.
Arguments shortcut {S A C}.
Arguments expand_one {S A C}.
Arguments expand_all {S A C}.
Arguments expand {S A C P}.
Arguments search_loop {S A C P}.
Arguments search_path {S A C P}.
Arguments n_depth {S A C}.
Arguments fill_back {S A C B}.
Arguments get_path {S A C}.
Arguments get_actions {S A C}.
Arguments get_optimal_cost {S A C}.
