(** Model of [Planner::AStar] with its memory: /repo/planner/src/algo/a_star.h and utils/node.h. Nodes are objects in a memory, and the
    search holds pointers to them. [AStar_model.v] has immutable nodes instead; this model is to show that they compute the same, and
    that no deleted node is used and none is leaked. *)
From Verif Require Import Base Frontier_model.

Section Memory.
  (** As in AStar_model.v. *)
  Variables (S A C P : Type).
  Variable eqs : S -> S -> bool.
  Variables (ltb : C -> C -> bool) (add : C -> C -> C) (zero : C).
  Variable dflt : A.

  (** a_star.h:148-161 and node.h:229-232: a node. The unique pointers to the children are their addresses. *)
  Record obj := Obj {
    ob_state : S; ob_action : A; ob_g : C; ob_f : C;
    ob_parent : option nat;
    ob_children : list nat
  }.

  (** The objects that are alive. Addresses below [next] have been used. An address is not used again after its object was
      deleted, so that each use of a deleted object is seen. *)
  Record memory := Memory { live : nat -> option obj; next : nat }.
  Definition m_empty : memory := Memory (fun _ => None) 0.

  Definition m_upd (f : nat -> option obj) (a : nat) (o : option obj) : nat -> option obj :=
    fun b => if b =? a then o else f b.

  (** Dereferencing a pointer. *)
  Definition load (m : memory) (a : nat) : res obj :=
    match live m a with Some o => Ok o | None => UB end.
  Definition store (m : memory) (a : nat) (o : obj) : res memory :=
    do _ <- load m a; Ok (Memory (m_upd (live m) a (Some o)) (next m)).

  (** [makeScope] (core/base.h). *)
  Definition allocate (m : memory) (o : obj) : memory * nat :=
    (Memory (m_upd (live m) (next m) (Some o)) (Datatypes.S (next m)), next m).

  (** node.h:22, the destructor, called by that of the unique pointer: the children are deleted, then the node. *)
  Fixpoint destroy (fuel : nat) (m : memory) (a : nat) : res memory :=
    match fuel with
    | O => NoFuel
    | Datatypes.S k =>
      do o <- load m a;
      do m' <- (fix each (l : list nat) (m : memory) : res memory :=
                  match l with
                  | [] => Ok m
                  | c :: r => do m' <- destroy k m c; each r m'
                  end) (ob_children o) m;
      Ok (Memory (m_upd (live m') a None) (next m'))
    end.
  (** The fuel bounds the depth of the recursion. *)
  Definition delete (m : memory) (a : nat) : res memory := destroy (Datatypes.S (next m)) m a.

  (** node.h:131-137, [AddChild]. *)
  Definition add_child (m : memory) (p c : nat) : res memory :=
    do op <- load m p;
    do m1 <- store m p (Obj (ob_state op) (ob_action op) (ob_g op) (ob_f op) (ob_parent op) (ob_children op ++ [c]));
    do oc <- load m1 c;
    store m1 c (Obj (ob_state oc) (ob_action oc) (ob_g oc) (ob_f oc) (Some p) (ob_children oc)).

  (** a_star.h:226-245, [CompareNode] and [EqualNode] on pointers. *)
  Definition p_cmp (m : memory) (a b : nat) : bool :=
    match live m a, live m b with Some x, Some y => ltb (ob_f y) (ob_f x) | _, _ => false end.
  Definition p_eq (m : memory) (a b : nat) : bool :=
    match live m a, live m b with Some x, Some y => eqs (ob_state x) (ob_state y) | _, _ => false end.
  (** Each function of the frontier may look at all of its elements, and at its argument: they must be alive. *)
  Definition alive (m : memory) (a : nat) : bool := match live m a with Some _ => true | None => false end.
  Definition looking {B} (m : memory) (l : list nat) (fr : frontier nat) (k : res B) : res B :=
    if forallb (alive m) (l ++ vec fr ++ set fr) then k else UB.

  (** a_star.h:164-194, the explored states with pointers to their nodes, as in [ExploredMap]; the states are copies. [Explored] has
      no pointers. *)
  Definition ex_contains (s : S) (e : list (S * nat)) : bool := existsb (fun x => eqs (fst x) s) e.
  Definition ex_insert (s : S) (a : nat) (e : list (S * nat)) : list (S * nat) := if ex_contains s e then e else (s, a) :: e.

  (** a_star.h:432-437, the members; [ms_prop] is the state of the propagator. *)
  Record mstate := MState {
    ms_mem : memory; ms_front : frontier nat; ms_expl : list (S * nat); ms_root : option nat; ms_sol : option nat; ms_prop : P
  }.
  (** a_star.h:250, a new object. *)
  Definition ms_new (p : P) : mstate := MState m_empty f_empty [] None None p.
  (** a_star.h:251, the destructor deletes the tree. *)
  Definition ms_destroy (st : mstate) : res memory :=
    match ms_root st with None => Ok (ms_mem st) | Some r => delete (ms_mem st) r end.

  (** a_star.h:350-364, [InitializeSearch]. *)
  Definition ms_init (init : S) (st : mstate) : res mstate :=
    do m <- match ms_root st with None => Ok (ms_mem st) | Some r => delete (ms_mem st) r end;
    let (m, root) := allocate m (Obj init dflt zero zero None []) in
    do (_, fr) <- looking m [root] f_empty (f_push (p_cmp m) (p_eq m) root f_empty);
    do o <- load m root;
    Ok (MState m fr (ex_insert (ob_state o) root []) (Some root) None (ms_prop st)).

  Section Search.
  Variable h : S -> C.
  Variable succ : P -> S -> list (S * A * C) * P.
  Variable issol : S -> bool.
  Variable guard : S -> S -> bool.
  Variable graph : bool.

  (** a_star.h:417-427 and hybrid_a_star.h:199-205, [ProcessPossibleShortcut]. A child that was not added is deleted at the end. *)
  Definition ms_shortcut (frontierNode child n : nat) (m : memory) (fr : frontier nat) : res (memory * frontier nat) :=
    do of <- load m frontierNode;
    do oc <- load m child;
    if guard (ob_state of) (ob_state oc) && ltb (ob_f oc) (ob_f of) then
      do (_, fr1) <- looking m [frontierNode] fr (f_remove (p_cmp m) (p_eq m) frontierNode fr);
      do (_, fr2) <- looking m [child] fr1 (f_push (p_cmp m) (p_eq m) child fr1);
      do m1 <- add_child m n child;
      Ok (m1, fr2)
    else do m1 <- delete m child; Ok (m1, fr).

  (** a_star.h:383-408, the body of the loop of [Expand]. *)
  Definition ms_expand_one (n : nat) (e : list (S * nat)) (x : memory * frontier nat) (t : S * A * C) : res (memory * frontier nat) :=
    let (m, fr) := x in
    let '(cs, a, c) := t in
    do o <- load m n;
    let g' := add (ob_g o) c in
    let (m, child) := allocate m (Obj cs a g' (add g' (h cs)) None []) in
    if graph then
      do found <- looking m [child] fr (Ok (f_find (p_eq m) child fr));
      match found with
      | None =>
        do oc <- load m child;
        if ex_contains (ob_state oc) e then do m1 <- delete m child; Ok (m1, fr)
        else
          do (_, fr1) <- looking m [child] fr (f_push (p_cmp m) (p_eq m) child fr);
          do m1 <- add_child m n child;
          Ok (m1, fr1)
      | Some fn => ms_shortcut fn child n m fr
      end
    else
      do (_, fr1) <- looking m [child] fr (f_push (p_cmp m) (p_eq m) child fr);
      do m1 <- add_child m n child;
      Ok (m1, fr1).

  Fixpoint ms_expand_all (n : nat) (e : list (S * nat)) (x : memory * frontier nat) (ts : list (S * A * C)) : res (memory * frontier nat) :=
    match ts with
    | [] => Ok x
    | t :: ts' => do x1 <- ms_expand_one n e x t; ms_expand_all n e x1 ts'
    end.

  (** a_star.h:377-409, [Expand]. *)
  Definition ms_expand (n : nat) (st : mstate) : res mstate :=
    do o <- load (ms_mem st) n;
    let e := ex_insert (ob_state o) n (ms_expl st) in
    let (ts, p) := succ (ms_prop st) (ob_state o) in
    do (m, fr) <- ms_expand_all n e (ms_mem st, ms_front st) ts;
    Ok (MState m fr e (ms_root st) (ms_sol st) p).

  (** a_star.h:337-345, the loop of [SearchPath]; the result is that of the search. *)
  Fixpoint ms_loop (fuel : nat) (st : mstate) : res (bool * mstate) :=
    match fuel with
    | O => NoFuel
    | Datatypes.S fuel' =>
      if f_is_empty (ms_front st) then Ok (false, st)
      else
        do (n, fr) <- looking (ms_mem st) [] (ms_front st) (f_pop (p_eq (ms_mem st)) (ms_front st));
        let st1 := MState (ms_mem st) fr (ms_expl st) (ms_root st) (ms_sol st) (ms_prop st) in
        do o <- load (ms_mem st) n;
        if issol (ob_state o) then Ok (true, MState (ms_mem st) fr (ms_expl st) (ms_root st) (Some n) (ms_prop st))
        else do st2 <- ms_expand n st1; ms_loop fuel' st2
    end.

  (** a_star.h:326-346, [SearchPath] of an initialized object. *)
  Definition ms_search (fuel : nat) (init : S) (st : mstate) : res (bool * mstate) :=
    do st1 <- ms_init init st; ms_loop fuel st1.
  End Search.

  (** node.h:50-57, [GetDepth]: the number of pointers followed until the null pointer. *)
  Fixpoint depth_from (fuel : nat) (m : memory) (a : option nat) : res nat :=
    match fuel with
    | O => NoFuel
    | Datatypes.S k =>
      match a with
      | None => Ok 0
      | Some a => do o <- load m a; do d <- depth_from k m (ob_parent o); Ok (Datatypes.S d)
      end
    end.
  Definition depth (m : memory) (a : nat) : res nat := do o <- load m a; depth_from (Datatypes.S (next m)) m (ob_parent o).

  (** a_star.h:264-267 and 282-285: [k] entries are filled from the back. *)
  Fixpoint fill {B} (get : obj -> B) (k : nat) (m : memory) (cur : option nat) (acc : list B) : res (list B) :=
    match k with
    | O => Ok acc
    | Datatypes.S k' =>
      match cur with
      | None => UB
      | Some a => do o <- load m a; fill get k' m (ob_parent o) (get o :: acc)
      end
    end.

  (** a_star.h:254-288, [GetPath] and [GetActions]. *)
  Definition ms_path (st : mstate) : res (list S) :=
    match ms_sol st with
    | None => Ok []
    | Some a => do d <- depth (ms_mem st) a; fill ob_state (Datatypes.S d) (ms_mem st) (Some a) []
    end.
  Definition ms_actions (st : mstate) : res (list A) :=
    match ms_sol st with
    | None => Ok []
    | Some a => do d <- depth (ms_mem st) a; fill ob_action d (ms_mem st) (Some a) []
    end.
  (** a_star.h:294-299, [GetOptimalCost]; [None] stands for infinity. *)
  Definition ms_cost (st : mstate) : res (option C) :=
    match ms_sol st with
    | None => Ok None
    | Some a => do o <- load (ms_mem st) a; Ok (Some (ob_g o))
    end.

  (** node.h:28-34, [PreOrderTraversal]: the nodes in the order of the calls. *)
  Fixpoint traverse (fuel : nat) (m : memory) (a : nat) : res (list nat) :=
    match fuel with
    | O => NoFuel
    | Datatypes.S k =>
      do o <- load m a;
      do l <- (fix each (l : list nat) : res (list nat) :=
                 match l with
                 | [] => Ok []
                 | c :: r => do x <- traverse k m c; do y <- each r; Ok (x ++ y)
                 end) (ob_children o);
      Ok (a :: l)
    end.
  Fixpoint actions_of (m : memory) (l : list nat) : res (list A) :=
    match l with
    | [] => Ok []
    | a :: r => do o <- load m a; do x <- actions_of m r; Ok (ob_action o :: x)
    end.
  (** hybrid_a_star.cpp:185-197, [GetExploredPathSet]. The action of the root, which the traversal visits first, is [Action()] and has no path;
      the others have one. The set of pointers is a list. *)
  Definition ms_explored (st : mstate) : res (list A) :=
    match ms_root st with
    | None => Ok []
    | Some r => do l <- traverse (Datatypes.S (next (ms_mem st))) (ms_mem st) r; actions_of (ms_mem st) (tl l)
    end.
End Memory.

Arguments Obj {S A C}.
Arguments ob_state {S A C}.
Arguments ob_action {S A C}.
Arguments ob_g {S A C}.
Arguments ob_f {S A C}.
Arguments ob_parent {S A C}.
Arguments ob_children {S A C}.
Arguments Memory {S A C}.
Arguments live {S A C}.
Arguments next {S A C}.
Arguments m_empty {S A C}.
Arguments m_upd {S A C}.
Arguments load {S A C}.
Arguments store {S A C}.
Arguments allocate {S A C}.
Arguments destroy {S A C}.
Arguments delete {S A C}.
Arguments add_child {S A C}.
Arguments p_cmp {S A C}.
Arguments p_eq {S A C}.
Arguments alive {S A C}.
Arguments looking {S A C B}.
Arguments ex_contains {S}.
Arguments ex_insert {S}.
Arguments MState {S A C P}.
Arguments ms_mem {S A C P}.
Arguments ms_front {S A C P}.
Arguments ms_expl {S A C P}.
Arguments ms_root {S A C P}.
Arguments ms_sol {S A C P}.
Arguments ms_prop {S A C P}.
Arguments ms_new {S A C P}.
Arguments ms_destroy {S A C P}.
Arguments ms_init {S A C P}.
Arguments ms_shortcut {S A C}.
Arguments ms_expand_one {S A C}.
Arguments ms_expand_all {S A C}.
Arguments ms_expand {S A C P}.
Arguments ms_loop {S A C P}.
Arguments ms_search {S A C P}.
Arguments depth_from {S A C}.
Arguments depth {S A C}.
Arguments fill {S A C B}.
Arguments ms_path {S A C P}.
Arguments ms_actions {S A C P}.
Arguments ms_cost {S A C P}.
Arguments traverse {S A C}.
Arguments actions_of {S A C}.
Arguments ms_explored {S A C P}.
