(** Model of the random trees: /repo/planner/src/utils/tree.h, algo/rrt.h and algo/rrt_star.h. *)
From Coq Require Import ZArith Reals.
From Verif Require Import Base RealBase Coords_model Straight_model.

(** tree.h:12-20, [TreeNodeData] inside a [Node]: the state, the parent (by its index in the order of insertion) and
    the information of the planner. The ownership of nodes is modelled in Node_model.v. *)
Record tnode (V I : Type) := TNode { tn_state : V; tn_parent : option nat; tn_info : I }.
Arguments TNode {V I} tn_state tn_parent tn_info.
Arguments tn_state {V I} t.
Arguments tn_parent {V I} t.
Arguments tn_info {V I} t.

Section Tree.
Context {V I : Type}.
Variable eqv : V -> V -> bool. (* Equal *)
Variable info0 : I. (* NodeInfo() *)
(** The answer of the k-d tree (flann) of iteration [it] to a query for the nearest point of a list: its index. *)
Variable nearest : Z -> list V -> V -> nat.

(** tree.h:34-60: the nodes in the order of insertion; [m_exploredNodeMap] maps each state to its node. *)
Definition tree : Type := list (tnode V I).
Definition states (t : tree) : list V := map tn_state t.

(** [m_exploredNodeMap.find]. *)
Fixpoint find_from (k : nat) (t : tree) (v : V) : option nat :=
  match t with
  | [] => None
  | n :: r => if eqv (tn_state n) v then Some k else find_from (S k) r v
  end.
Definition find_state : tree -> V -> option nat := find_from 0.

(** tree.h:59-65, [CreateRootNode]. *)
Definition create_root (v : V) : tree := [TNode v None info0].

(** tree.h:102-116, [GetNearestNode]. [None] is a null pointer. [operator[]] also inserts a null pointer in the map when
    the state is absent; that is not modelled because it does not happen for a reflexive [Equal]. *)
Definition get_nearest_node (it : Z) (t : tree) (v : V) : res (option nat) :=
  do point <- vget (states t) (nearest it (states t) v);
  Ok (find_state t point).

(** tree.h:124-146, [Extend]. *)
Definition extend (it : Z) (t : tree) (target : V) (source : option nat) : res (tree * option nat) :=
  match find_state t target with
  | Some k => Ok (t, Some k)
  | None =>
      do src <- match source with Some s => Ok (Some s) | None => get_nearest_node it t target end;
      match src with
      | None => Ok (t, None)
      | Some s => Ok (t ++ [TNode target (Some s) info0], Some (length t))
      end
  end.

(** Assignment to [info] through the pointer to a node. *)
Definition set_info (t : tree) (k : nat) (i : I) : res tree :=
  do n <- vget t k;
  vset t k (TNode (tn_state n) (tn_parent n) i).

(** node.h, [GetDepth]: the number of parents. *)
Fixpoint depth (fuel : nat) (t : tree) (k : nat) : res nat :=
  match fuel with
  | O => NoFuel
  | S f =>
      do n <- vget t k;
      match tn_parent n with
      | None => Ok 0%nat
      | Some p => do d <- depth f t p; Ok (S d)
      end
  end.

(** rrt.h:109-112: fill the [n] elements of the vector from its end. *)
Fixpoint fill (n : nat) (t : tree) (node : option nat) (acc : list V) : res (list V) :=
  match n with
  | O => Ok acc
  | S m =>
      match node with
      | None => UB
      | Some k => do nd <- vget t k; fill m t (tn_parent nd) (tn_state nd :: acc)
      end
  end.

(** rrt.h:97-114 and rrt_star.h:114-131, [GetPath]. *)
Definition get_path (t : tree) (solution : option nat) : res (list V) :=
  match solution with
  | None => Ok []
  | Some k => do d <- depth (S (length t)) t k; fill (S d) t (Some k) []
  end.
End Tree.
Arguments tree V I : clear implicits.

Definition max_int : Z := 2147483647.

Section Planners.
Context {V P : Type}.
Variable eqv : V -> V -> bool.
Variable final : P -> V. (* GetFinalState *)
Variable steer : V -> V -> P. (* SteerTowards for the maxConnectionDistance of the parameters *)
Variable valid : P -> bool. (* IsPathValid *)
Variable issol : V -> bool. (* IsSolution *)
(** rrt.h:72, the random state of iteration [it]: the goal or a sample of the state space. *)
Variable sample : Z -> V.
Variable nearest : Z -> list V -> V -> nat.
Variables maxIteration maxNode : Z. (* unsigned int *)

(** The loop of [SearchPath], around the body [body it t]: [Some k] when it found the solution [k].
    rrt.h:61-92, rrt_star.h:59-109. [count] is an int, so that incrementing its largest value is undefined. The result is
    the status (true for Success), the tree, [m_solutionNode] and the number of times the body was run. *)
Section Loop.
Context {I : Type}.
Variable body : Z -> tree V I -> res (tree V I * option nat).
Fixpoint search_loop (fuel : nat) (count : Z) (t : tree V I) : res (bool * tree V I * option nat * Z) :=
  match fuel with
  | O => NoFuel
  | S f =>
      if (max_int <? count)%Z then UB
      else if (maxIteration <? count)%Z then Ok (false, t, None, count)
      else if (maxNode <? Z.of_nat (length t))%Z then Ok (false, t, None, count)
      else
        do (t', sol) <- body count t;
        match sol with
        | Some k => Ok (true, t', Some k, (count + 1)%Z)
        | None => search_loop f (count + 1)%Z t'
        end
  end.
End Loop.

(** rrt.h:71-91, one iteration of RRT. [info.path] is null ([None]) for the root. *)
Definition rrt_body (it : Z) (t : tree V (option P)) : res (tree V (option P) * option nat) :=
  do near <- get_nearest_node eqv nearest it t (sample it);
  match near with
  | None => Ok (t, None)
  | Some ni =>
      do nd <- vget t ni;
      let p := steer (tn_state nd) (sample it) in
      if negb (valid p) then Ok (t, None)
      else
        do (t1, new) <- extend eqv None nearest it t (final p) (Some ni);
        match new with
        | None => UB
        | Some k =>
            do t2 <- set_info t1 k (Some p);
            Ok (t2, if issol (final p) then Some k else None)
        end
  end.

(** rrt.h:55-95, [RRT::SearchPath]. *)
Definition rrt_search (init : V) : res (bool * tree V (option P) * option nat * Z) :=
  search_loop rrt_body (S (S (Z.to_nat maxIteration))) 0 (create_root None init).

Section Star.
Context {C : Type}.
Variable connect : V -> V -> P. (* Connect *)
Variable plength : P -> C. (* GetLength *)
Variable zero : C.
Variable add : C -> C -> C.
Variable ltb : C -> C -> bool.
Variable log : nat -> nat. (* log, converted to unsigned int *)
(** The answer of the k-d tree to a query for several points: their indices. *)
Variable knn : Z -> list V -> V -> nat -> list nat.

(** rrt_star.h:32-37, [NodeInfo]: the path and the cost, where [None] is infinity. *)
Definition sinfo : Type := option P * option C.

(** tree.h:73-95, [GetNearestNodes]; dereferencing a null pointer of the result is undefined. *)
Fixpoint get_nodes (t : tree V sinfo) (idx : list nat) : res (list nat) :=
  match idx with
  | [] => Ok []
  | i :: r =>
      do point <- vget (states t) i;
      do rest <- get_nodes t r;
      match find_state eqv t point with
      | Some k => Ok (k :: rest)
      | None => UB
      end
  end.

Definition opt_add (a : option C) (b : C) : option C := match a with Some x => Some (add x b) | None => None end.
Definition opt_ltb (a b : option C) : bool :=
  match a, b with
  | Some x, Some y => ltb x y
  | Some _, None => true
  | None, _ => false
  end.

(** rrt_star.h:86-97: the best parent, its cost and its path. *)
Fixpoint best_parent (t : tree V sinfo) (v : V) (near : list nat) (best : option nat * option C * option P) :
  res (option nat * option C * option P) :=
  match near with
  | [] => Ok best
  | k :: r =>
      do nd <- vget t k;
      let p := connect (tn_state nd) v in
      let cost := opt_add (snd (tn_info nd)) (plength p) in
      best_parent t v r (if opt_ltb cost (snd (fst best)) && valid p then (Some k, cost, Some p) else best)
  end.

(** rrt_star.h:69-108, one iteration of RRT*. *)
Definition star_body (it : Z) (t : tree V sinfo) : res (tree V sinfo * option nat) :=
  do near <- get_nearest_node eqv nearest it t (sample it);
  match near with
  | None => Ok (t, None)
  | Some ni =>
      do nd <- vget t ni;
      let p := steer (tn_state nd) (sample it) in
      if negb (valid p) then Ok (t, None)
      else
        let v := final p in
        do nodes <- get_nodes t (knn it (states t) v (Nat.max 1 (log (length t))));
        do (best, path) <- best_parent t v nodes (None, None, None);
        do (t1, new) <- extend (I := sinfo) eqv (None, Some zero) nearest it t v (fst best);
        match new with
        | None => UB
        | Some k =>
            do t2 <- set_info (I := sinfo) t1 k (path, snd best);
            Ok (t2, if issol v then Some k else None)
        end
  end.

(** rrt_star.h:53-112, [RRTStar::SearchPath]. *)
Definition star_search (init : V) : res (bool * tree V sinfo * option nat * Z) :=
  search_loop star_body (S (S (Z.to_nat maxIteration))) 0 (create_root (I := sinfo) (None, Some zero) init).
End Star.
End Planners.

(** std::clamp. *)
Definition clamp (x lo hi : R) : R := if Rltb x lo then lo else if Rltb hi x then hi else x.

(** rrt.h:132-140 and rrt_star.h:143-151, [SteerTowards], with straight connections. *)
Definition steer_r2 (d : R) (from to : point) : rpath :=
  let path := r_connect from to in
  if Rltb 0 (r_length path) then r_truncate path (clamp (d / r_length path) 0 1) else path.

(** rrt.h:125-128, [RRT::IsSolution]. *)
Definition near_goal (goal state : point) : bool := Rltb (pnorm (psub state goal)) 1.

(** [==] of points. *)
Definition point_eqb (a b : point) : bool := Reqb (fst a) (fst b) && Reqb (snd a) (snd b).

(** rrt_star.h:84: the logarithm, converted to unsigned int. *)
Definition log_size (n : nat) : nat := Z.to_nat (Rtrunc (ln (INR n))).
