(** Model of [RRT] and [RRTStar] with their memory: /repo/planner/src/algo/rrt.h and rrt_star.h on the tree of TreeMem_model.v. A planner keeps
    its tree and the pointer to the solution between searches. *)
From Coq Require Import ZArith.
From Verif Require Import Base Node_model TreeMem_model Rrt_model.

(** rrt.h:145-151 and rrt_star.h:171-177: [m_tree], with the [info] of its nodes, and [m_solutionNode]. *)
Record pmem (V I : Type) := PMem { p_tree : tmem V; p_info : nat -> I; p_solution : option nat }.
Arguments PMem {V I} p_tree p_info p_solution.
Arguments p_tree {V I} p.
Arguments p_info {V I} p.
Arguments p_solution {V I} p.

Section Planner.
Context {V I : Type}.
Variable eqv : V -> V -> bool.
Variable info0 : I. (* NodeInfo() *)
Notation pmem := (pmem V I).

(** rrt.h:39-49 and rrt_star.h:41-47, the constructors; rrt.h:151: no solution. *)
Definition p_new : pmem := PMem t_new (fun _ => info0) None.

(** Access to a node: undefined if it has been destroyed. *)
Definition p_lives (m : pmem) (k : nat) : bool := existsb (Nat.eqb k) (t_alive (p_tree m)).
Definition p_get_info (m : pmem) (k : nat) : res I := if p_lives m k then Ok (p_info m k) else UB.
Definition p_set_info (m : pmem) (k : nat) (i : I) : res pmem :=
  if p_lives m k then Ok (PMem (p_tree m) (upd (p_info m) k i) (p_solution m)) else UB.

(** rrt.h:57-59, 117-121 and rrt_star.h:55-57, 162-166: [Clear] and [CreateRootNode]. *)
Definition p_start (m : pmem) (init : V) : res pmem :=
  do t <- t_clear (p_tree m);
  do (t', n) <- t_create eqv t init;
  Ok (PMem t' (upd (p_info m) n info0) None).

(** [m_tree.GetNearestNode]. *)
Definition p_nearest (knn1 : list V -> V -> nat) (m : pmem) (q : V) : res (pmem * option nat) :=
  do (t, o) <- t_nearest eqv knn1 (p_tree m) q;
  Ok (PMem t (p_info m) (p_solution m), o).
(** [m_tree.GetNearestNodes]. *)
Definition p_nearests (knn : list V -> V -> nat -> list nat) (m : pmem) (q : V) (nn : nat) : res (pmem * list (option nat)) :=
  do (t, l) <- t_nearests eqv knn (p_tree m) q nn;
  Ok (PMem t (p_info m) (p_solution m), l).
(** [m_tree.Extend]; a new node has the default [info]. *)
Definition p_extend (knn1 : list V -> V -> nat) (m : pmem) (target : V) (source : option nat) : res (pmem * option nat) :=
  do (t, o) <- t_extend eqv knn1 (p_tree m) target source;
  Ok (PMem t (match o with Some k => if p_lives m k then p_info m else upd (p_info m) k info0 | None => p_info m end) (p_solution m), o).

(** rrt.h:61-92 and rrt_star.h:59-109, the loop of [SearchPath] as in [search_loop]. *)
Section Loop.
Variables maxIteration maxNode : Z.
Variable body : Z -> pmem -> res (pmem * option nat).
Fixpoint p_loop (fuel : nat) (count : Z) (m : pmem) : res (bool * pmem * Z) :=
  match fuel with
  | O => NoFuel
  | S f =>
      if (max_int <? count)%Z then UB
      else if (maxIteration <? count)%Z then Ok (false, m, count)
      else if (maxNode <? Z.of_nat (t_size (p_tree m)))%Z then Ok (false, m, count)
      else
        do (m', sol) <- body count m;
        match sol with
        | Some k => Ok (true, PMem (p_tree m') (p_info m') (Some k), (count + 1)%Z)
        | None => p_loop f (count + 1)%Z m'
        end
  end.
Definition p_search (m : pmem) (init : V) : res (bool * pmem * Z) :=
  do m0 <- p_start m init;
  p_loop (S (S (Z.to_nat maxIteration))) 0 m0.
End Loop.

(** rrt.h:109-112: the states from a node upwards, read from the nodes. *)
Fixpoint p_fill (n : nat) (m : pmem) (node : option nat) (acc : list V) : res (list V) :=
  match n with
  | O => Ok acc
  | S r =>
      match node with
      | None => UB
      | Some k => do v <- t_read (p_tree m) k; p_fill r m (h_parent (t_heap (p_tree m)) k) (v :: acc)
      end
  end.
(** rrt.h:97-114 and rrt_star.h:114-131, [GetPath]. *)
Definition p_path (m : pmem) : res (list V) :=
  match p_solution m with
  | None => Ok []
  | Some k =>
      if p_lives m k then do d <- get_depth (h_size (t_heap (p_tree m))) (t_heap (p_tree m)) k; p_fill (S d) m (Some k) []
      else UB
  end.
End Planner.

Section Bodies.
Context {V P : Type}.
Variable eqv : V -> V -> bool.
Variable final : P -> V.
Variable steer : V -> V -> P.
Variable valid : P -> bool.
Variable issol : V -> bool.
Variable sample : Z -> V.
Variable nearest : Z -> list V -> V -> nat.

(** rrt.h:71-91, one iteration of RRT. *)
Definition p_rrt_body (it : Z) (m : pmem V (option P)) : res (pmem V (option P) * option nat) :=
  do (m1, near) <- p_nearest eqv (nearest it) m (sample it);
  match near with
  | None => Ok (m1, None)
  | Some ni =>
      do s <- t_read (p_tree m1) ni;
      let p := steer s (sample it) in
      if negb (valid p) then Ok (m1, None)
      else
        do (m2, new) <- p_extend eqv None (nearest it) m1 (final p) (Some ni);
        match new with
        | None => UB
        | Some k =>
            do m3 <- p_set_info m2 k (Some p);
            Ok (m3, if issol (final p) then Some k else None)
        end
  end.

Section Star.
Context {C : Type}.
Variable connect : V -> V -> P.
Variable plength : P -> C.
Variable zero : C.
Variable add : C -> C -> C.
Variable ltb : C -> C -> bool.
Variable log : nat -> nat.
Variable knn : Z -> list V -> V -> nat -> list nat.

(** rrt_star.h:86-97. *)
Fixpoint p_best_parent (m : pmem V (sinfo (P := P) (C := C))) (v : V) (near : list (option nat)) (best : option nat * option C * option P) :
  res (option nat * option C * option P) :=
  match near with
  | [] => Ok best
  | None :: _ => UB
  | Some k :: r =>
      do s <- t_read (p_tree m) k;
      let p := connect s v in
      do i <- p_get_info m k;
      let cost := opt_add add (snd i) (plength p) in
      p_best_parent m v r (if opt_ltb ltb cost (snd (fst best)) && valid p then (Some k, cost, Some p) else best)
  end.

(** rrt_star.h:69-108, one iteration of RRT*. *)
Definition p_star_body (it : Z) (m : pmem V sinfo) : res (pmem V sinfo * option nat) :=
  do (m1, near) <- p_nearest eqv (nearest it) m (sample it);
  match near with
  | None => Ok (m1, None)
  | Some ni =>
      do s <- t_read (p_tree m1) ni;
      let p := steer s (sample it) in
      if negb (valid p) then Ok (m1, None)
      else
        let v := final p in
        do (m2, nodes) <- p_nearests eqv (knn it) m1 v (Nat.max 1 (log (t_size (p_tree m1))));
        do (best, path) <- p_best_parent m2 v nodes (None, None, None);
        do (m3, new) <- p_extend (I := sinfo) eqv (None, Some zero) (nearest it) m2 v (fst best);
        match new with
        | None => UB
        | Some k =>
            do m4 <- p_set_info (I := sinfo) m3 k (path, snd best);
            Ok (m4, if issol v then Some k else None)
        end
  end.
End Star.
End Bodies.

(** rrt.h:55-95, [RRT::SearchPath], of a planner that may have searched before. *)
Definition p_rrt_search {V P} (eqv : V -> V -> bool) (final : P -> V) steer valid issol sample nearest maxIteration maxNode (m : pmem V (option P)) (init : V) :
  res (bool * pmem V (option P) * Z) :=
  p_search eqv None maxIteration maxNode (p_rrt_body eqv final steer valid issol sample nearest) m init.
(** rrt_star.h:53-112, [RRTStar::SearchPath]. *)
Definition p_star_search {V P C} (eqv : V -> V -> bool) (final : P -> V) steer valid issol sample nearest maxIteration maxNode
  (connect : V -> V -> P) (plength : P -> C) zero add ltb log knn (m : pmem V sinfo) (init : V) : res (bool * pmem V sinfo * Z) :=
  p_search eqv (None, Some zero) maxIteration maxNode
    (p_star_body eqv final steer valid issol sample nearest connect plength zero add ltb log knn) m init.
