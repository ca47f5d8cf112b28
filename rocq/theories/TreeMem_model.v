(** Model of [Tree], /repo/planner/src/utils/tree.h, with its memory: the nodes of node.h (Node_model.v), the map from states to pointers and the
    k-d tree, which holds pointers to the states inside the nodes (tree.h:64, 142). *)
From Verif Require Import Base Node_model.

Section Tree.
Context {V : Type}.
Variable eqv : V -> V -> bool. (* Equal *)
(** flann's [knnSearch] for one point and for several: indices of points of the list. *)
Variable knn1 : list V -> V -> nat.
Variable knn : list V -> V -> nat -> list nat.

(** tree.h:163-171: [m_exploredNodeMap], [m_kdTree] and [m_rootNode]. [t_heap] and [t_state] are the memory of the nodes, [t_alive] those not
    yet destroyed. *)
Record tmem := TMem {
  t_heap : heap;
  t_state : nat -> option V;
  t_alive : list nat;
  t_root : option nat;
  t_map : list (V * option nat);
  t_points : list nat
}.

(** tree.h:43-45, the constructor. *)
Definition t_new : tmem := TMem h_empty (fun _ => None) [] None [] [].

(** Read the state inside a node: undefined if the node has been destroyed. *)
Definition t_read (t : tmem) (n : nat) : res V :=
  if existsb (Nat.eqb n) (t_alive t) then match t_state t n with Some v => Ok v | None => UB end else UB.
Fixpoint t_reads (t : tmem) (l : list nat) : res (list V) :=
  match l with
  | [] => Ok []
  | n :: r => do v <- t_read t n; do vs <- t_reads t r; Ok (v :: vs)
  end.

(** The destructor of the scope that owns [o], which destroys the node and all below it. *)
Definition t_destroy (t : tmem) (o : option nat) : res (list nat) :=
  match o with
  | None => Ok (t_alive t)
  | Some r => do l <- preorder (h_size (t_heap t)) (t_heap t) r; Ok (filter (fun n => negb (existsb (Nat.eqb n) l)) (t_alive t))
  end.

(** [unordered_map::find], and [insert], which leaves an existing entry as it is. *)
Definition m_find (m : list (V * option nat)) (v : V) : option (option nat) :=
  option_map snd (find (fun e => eqv (fst e) v) m).
Definition m_insert (m : list (V * option nat)) (v : V) (o : option nat) : list (V * option nat) :=
  match m_find m v with Some _ => m | None => m ++ [(v, o)] end.

(** tree.h:49, [Size]. *)
Definition t_size (t : tmem) : nat := length (t_map t).

(** tree.h:53-56, [BelongToTree]. *)
Definition t_belongs (t : tmem) (n : nat) : res bool :=
  if existsb (Nat.eqb n) (t_alive t) then
    match t_root t with
    | None => Ok false
    | Some r => do d <- is_descendant_of (h_size (t_heap t)) (t_heap t) n r; Ok (d || Nat.eqb n r)
    end
  else UB.

(** tree.h:59-65, [CreateRootNode]: the previous root is destroyed by the assignment of line 61. *)
Definition t_create (t : tmem) (v : V) : res (tmem * nat) :=
  let (h, n) := new_node (t_heap t) in
  do alive <- t_destroy t (t_root t);
  Ok (TMem h (upd (t_state t) n (Some v)) (alive ++ [n]) (Some n) (m_insert (t_map t) v (Some n)) [n], n).

(** [m_exploredNodeMap[point]], which inserts a null pointer when the state is absent. *)
Definition t_at (t : tmem) (v : V) : tmem * option nat :=
  match m_find (t_map t) v with
  | Some o => (t, o)
  | None => (TMem (t_heap t) (t_state t) (t_alive t) (t_root t) (t_map t ++ [(v, None)]) (t_points t), None)
  end.

(** tree.h:102-116, [GetNearestNode]. The search of an index that has not been built is undefined. *)
Definition t_nearest (t : tmem) (v : V) : res (tmem * option nat) :=
  match t_points t with
  | [] => UB
  | _ :: _ =>
    do vs <- t_reads t (t_points t);
    do point <- vget vs (knn1 vs v);
    Ok (t_at t point)
  end.

(** tree.h:73-95, [GetNearestNodes]. *)
Fixpoint t_ats (t : tmem) (vs : list V) : tmem * list (option nat) :=
  match vs with
  | [] => (t, [])
  | v :: r => let (t1, o) := t_at t v in let (t2, os) := t_ats t1 r in (t2, o :: os)
  end.
Fixpoint pick (vs : list V) (is : list nat) : res (list V) :=
  match is with
  | [] => Ok []
  | i :: r => do v <- vget vs i; do l <- pick vs r; Ok (v :: l)
  end.
Definition t_nearests (t : tmem) (v : V) (nn : nat) : res (tmem * list (option nat)) :=
  match nn with
  | O => Ok (t, [])
  | S _ =>
    match t_points t with
    | [] => UB
    | _ :: _ =>
      do vs <- t_reads t (t_points t);
      do ps <- pick vs (knn vs v nn);
      Ok (t_ats t ps)
    end
  end.

(** tree.h:124-146, [Extend]. A failed assertion of line 137 throws. *)
Definition t_extend (t : tmem) (target : V) (source : option nat) : res (tmem * option nat) :=
  match m_find (t_map t) target with
  | Some o => Ok (t, o)
  | None =>
    do (t1, src) <- match source with Some s => Ok (t, Some s) | None => t_nearest t target end;
    match src with
    | None => Ok (t1, None)
    | Some s =>
      do b <- t_belongs t1 s;
      if negb b then Throw
      else
        let (h, n) := new_node (t_heap t1) in
        Ok (TMem (add_child h s n) (upd (t_state t1) n (Some target)) (t_alive t1 ++ [n]) (t_root t1)
              (m_insert (t_map t1) target (Some n)) (t_points t1 ++ [n]), Some n)
    end
  end.

(** tree.h:156-159, [Reparent]. *)
Definition t_reparent (t : tmem) (c p : nat) : res tmem :=
  if existsb (Nat.eqb c) (t_alive t) && existsb (Nat.eqb p) (t_alive t) then
    do (h, r) <- reparent (h_size (t_heap t)) (t_heap t) c p (t_root t);
    Ok (TMem h (t_state t) (t_alive t) r (t_map t) (t_points t))
  else UB.

(** tree.h:162-168, [Clear]. *)
Definition t_clear (t : tmem) : res tmem :=
  do alive <- t_destroy t (t_root t);
  Ok (TMem (t_heap t) (t_state t) alive None [] []).

(** The calls of the class and what they return. *)
Inductive top :=
| OCreate (v : V)
| OExtend (target : V) (source : option nat)
| OReparent (child newParent : nat)
| ONearest (v : V)
| ONearests (v : V) (nn : nat)
| OBelongs (n : nat)
| OSize
| OClear.
Inductive tval := RNothing | RNode (o : option nat) | RNodes (l : list (option nat)) | RBool (b : bool) | RSize (n : nat).

Definition tstep (t : tmem) (x : top) : res (tmem * tval) :=
  match x with
  | OCreate v => do (t', n) <- t_create t v; Ok (t', RNode (Some n))
  | OExtend v s => do (t', o) <- t_extend t v s; Ok (t', RNode o)
  | OReparent c p => do t' <- t_reparent t c p; Ok (t', RNothing)
  | ONearest v => do (t', o) <- t_nearest t v; Ok (t', RNode o)
  | ONearests v nn => do (t', l) <- t_nearests t v nn; Ok (t', RNodes l)
  | OBelongs n => do b <- t_belongs t n; Ok (t, RBool b)
  | OSize => Ok (t, RSize (t_size t))
  | OClear => do t' <- t_clear t; Ok (t', RNothing)
  end.
End Tree.

Arguments tmem V : clear implicits.
Arguments top V : clear implicits.
