(** Model of [BidirectionalAStar] with its memory: /repo/planner/src/algo/bidirectional_a_star.h, on the searches with pointers of
    [AStarMem_model.v]. [Bidir_model.v] has immutable nodes instead. *)
From Verif Require Import Base Frontier_model AStar_model AStarMem_model Bidir_model.

(** bidirectional_a_star.h:181, which of the two searches is [searchA]. *)
Inductive side := Fwd | Rev.
Definition other (d : side) : side := match d with Fwd => Rev | Rev => Fwd end.

(** A pointer to a node: the search that made the node, and the address. Nodes of the two searches never share an address. *)
Definition ptr : Type := side * nat.

Section Memory.
  (** As in Bidir_model.v and AStarMem_model.v. *)
  Variables (S A C Pf Pr : Type).
  Variable eqs : S -> S -> bool.
  Variables (ltb : C -> C -> bool) (add : C -> C -> C) (zero : C).
  Variable dflt : A.

  (** bidirectional_a_star.h:200, the two searches, with [m_solutionNode] (a_star.h:437) of each of them, which here says also in which
      of the searches the node is. The member [ms_sol] is not used. [bm_best] is the local variable [bestCost] of line 152. *)
  Record bmem := BMem {
    bm_f : mstate S A C Pf;
    bm_r : mstate S A C Pr;
    bm_best : option C;
    bm_fsol : option ptr;
    bm_rsol : option ptr
  }.
  (** bidirectional_a_star.h:53, a new object. *)
  Definition bm_new (pf : Pf) (pr : Pr) : bmem := BMem (ms_new pf) (ms_new pr) None None None.
  (** bidirectional_a_star.h:54, the destructor: the members in reverse order. *)
  Definition bm_destroy (b : bmem) : res (memory S A C * memory S A C) :=
    do mr <- ms_destroy (bm_r b);
    do mf <- ms_destroy (bm_f b);
    Ok (mf, mr).

  Definition region (b : bmem) (d : side) : memory S A C := match d with Fwd => ms_mem (bm_f b) | Rev => ms_mem (bm_r b) end.
  Definition deref (b : bmem) (p : ptr) : res (obj S A C) := load (region b (fst p)) (snd p).
  Definition explored_of (b : bmem) (d : side) : list (S * nat) := match d with Fwd => ms_expl (bm_f b) | Rev => ms_expl (bm_r b) end.

  (** bidirectional_a_star.h:192-193, both solution nodes, given that of [searchA] first. *)
  Definition set_solutions (d : side) (best : C) (pa pb : ptr) (b : bmem) : bmem :=
    match d with
    | Fwd => BMem (bm_f b) (bm_r b) (Some best) (Some pa) (Some pb)
    | Rev => BMem (bm_f b) (bm_r b) (Some best) (Some pb) (Some pa)
    end.

  (** bidirectional_a_star.h:181-196, [FindIntersection], with [d] for [searchA]. *)
  Definition bm_intersection (d : side) (nodeA : ptr) (b : bmem) : res bmem :=
    do oa <- deref b nodeA;
    match find (fun x => eqs (fst x) (ob_state oa)) (explored_of b (other d)) with
    | None => Ok b
    | Some (_, a) =>
      let nodeB := (other d, a) in
      do ob <- deref b nodeB;
      let cand := add (ob_g oa) (ob_g ob) in
      Ok (if lt_best ltb cand (bm_best b) then set_solutions d cand nodeA nodeB b else b)
    end.

  (** bidirectional_a_star.h:155-156 and 160-161. *)
  Definition ms_pop_expand {P} (h : S -> C) (succ : P -> S -> list (S * A * C) * P) (graph : bool) (st : mstate S A C P) :
      res (nat * mstate S A C P) :=
    do (n, fr) <- looking (ms_mem st) [] (ms_front st) (f_pop (p_eq eqs (ms_mem st)) (ms_front st));
    do st' <- ms_expand eqs ltb add h succ (fun _ _ => true) graph n
                (MState (ms_mem st) fr (ms_expl st) (ms_root st) (ms_sol st) (ms_prop st));
    Ok (n, st').

  Section Search.
  Variables (hf hr : S -> C).
  Variable succf : Pf -> S -> list (S * A * C) * Pf.
  Variable succr : Pr -> S -> list (S * A * C) * Pr.
  Variable graph : bool.

  (** bidirectional_a_star.h:155-157 and 160-162. *)
  Definition bm_forward (b : bmem) : res bmem :=
    do (n, f) <- ms_pop_expand hf succf graph (bm_f b);
    bm_intersection Fwd (Fwd, n) (BMem f (bm_r b) (bm_best b) (bm_fsol b) (bm_rsol b)).
  Definition bm_backward (b : bmem) : res bmem :=
    do (n, r) <- ms_pop_expand hr succr graph (bm_r b);
    bm_intersection Rev (Rev, n) (BMem (bm_f b) r (bm_best b) (bm_fsol b) (bm_rsol b)).

  Definition bm_either_empty (b : bmem) : bool := f_is_empty (ms_front (bm_f b)) || f_is_empty (ms_front (bm_r b)).

  (** bidirectional_a_star.h:169-170: the cost of the node at the top of a frontier. *)
  Definition ms_top_cost {P} (st : mstate S A C P) : res C :=
    do n <- looking (ms_mem st) [] (ms_front st) (f_top (ms_front st));
    do o <- load (ms_mem st) n;
    Ok (ob_g o).

  (** bidirectional_a_star.h:165-175: [true] when the loop returns Success. *)
  Definition bm_finished (offset : C) (b : bmem) : res bool :=
    match bm_fsol b, bm_rsol b with
    | Some _, Some _ =>
      if bm_either_empty b then Ok true
      else
        do gf <- ms_top_cost (bm_f b);
        do gr <- ms_top_cost (bm_r b);
        Ok (match bm_best b with
            | None => false
            | Some best => negb (ltb (add gf gr) (add best offset))
            end)
    | _, _ => Ok false
    end.

  (** bidirectional_a_star.h:153-177. *)
  Fixpoint bm_loop (fuel : nat) (offset : C) (b : bmem) : res (bool * bmem) :=
    match fuel with
    | O => NoFuel
    | Datatypes.S fuel' =>
      if bm_either_empty b then Ok (false, b)
      else
        do b1 <- bm_forward b;
        do b2 <- bm_backward b1;
        do fin <- bm_finished offset b2;
        if fin then Ok (true, b2) else bm_loop fuel' offset b2
    end.

  (** bidirectional_a_star.h:130-178, [SearchPath] of an initialized object. The trees of the former search are deleted when each search is
      initialized (a_star.h:357-358), and both solution nodes become null. *)
  Definition bm_search (fuel : nat) (init goal : S) (b : bmem) : res (bool * bmem) :=
    do f <- ms_init eqs ltb zero dflt init (bm_f b);
    do r <- ms_init eqs ltb zero dflt goal (bm_r b);
    bm_loop fuel (add (hf goal) (hr goal)) (BMem f r None None None).
  End Search.

  (** a_star.h:254-269, [GetPath] of one search. *)
  Definition path_from (b : bmem) (sol : option ptr) : res (list S) :=
    match sol with
    | None => Ok []
    | Some p =>
      do d <- depth (region b (fst p)) (snd p);
      fill ob_state (Datatypes.S d) (region b (fst p)) (Some (snd p)) []
    end.
  (** a_star.h:294-299, [GetOptimalCost] of one search; [None] is infinity. *)
  Definition cost_from (b : bmem) (sol : option ptr) : res (option C) :=
    match sol with
    | None => Ok None
    | Some p => do o <- deref b p; Ok (Some (ob_g o))
    end.

  (** bidirectional_a_star.h:66-72, [GetPath]. *)
  Definition bm_path (b : bmem) : res (list S) :=
    do f <- path_from b (bm_fsol b);
    do r <- path_from b (bm_rsol b);
    Ok (f ++ rev r).
  (** bidirectional_a_star.h:81-84, [GetOptimalCost]. *)
  Definition bm_cost (b : bmem) : res (option C) :=
    do f <- cost_from b (bm_fsol b);
    do r <- cost_from b (bm_rsol b);
    Ok (match f, r with Some x, Some y => Some (add x y) | _, _ => None end).
End Memory.

Arguments BMem {S A C Pf Pr}.
Arguments bm_f {S A C Pf Pr}.
Arguments bm_r {S A C Pf Pr}.
Arguments bm_best {S A C Pf Pr}.
Arguments bm_fsol {S A C Pf Pr}.
Arguments bm_rsol {S A C Pf Pr}.
Arguments bm_new {S A C Pf Pr}.
Arguments bm_destroy {S A C Pf Pr}.
Arguments region {S A C Pf Pr}.
Arguments deref {S A C Pf Pr}.
Arguments explored_of {S A C Pf Pr}.
Arguments set_solutions {S A C Pf Pr}.
Arguments bm_intersection {S A C Pf Pr}.
Arguments ms_pop_expand {S A C} eqs ltb add {P}.
Arguments bm_forward {S A C Pf Pr}.
Arguments bm_backward {S A C Pf Pr}.
Arguments bm_either_empty {S A C Pf Pr}.
Arguments ms_top_cost {S A C P}.
Arguments bm_finished {S A C Pf Pr}.
Arguments bm_loop {S A C Pf Pr}.
Arguments bm_search {S A C Pf Pr}.
Arguments path_from {S A C Pf Pr}.
Arguments cost_from {S A C Pf Pr}.
Arguments bm_path {S A C Pf Pr}.
Arguments bm_cost {S A C Pf Pr}.
