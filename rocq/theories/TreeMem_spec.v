(** What the class [Tree] should be. *)
From Coq Require Import Reals.
From Verif Require Import Base Frontier_spec Node_model Node_spec TreeMem_model.

Section Spec.
Context {V : Type} (eqv : V -> V -> bool) (knn1 : list V -> V -> nat) (knn : list V -> V -> nat -> list nat).

(** The map, the k-d tree and the nodes agree. Without a root there is nothing. With a root, the nodes alive are those the root owns, each has a
    state, no two have equal states, the map has one entry for each and no other, and the k-d tree holds them all. *)
Record coherent (t : tmem V) : Prop := {
  co_forest : forest (t_heap t);
  co_none : t_root t = None -> t_alive t = [];
  co_root : forall r, t_root t = Some r -> r < h_size (t_heap t) /\ h_parent (t_heap t) r = None /\
              forall n, In n (t_alive t) <-> owns (t_heap t) r n;
  co_once : NoDup (t_alive t);
  co_states : forall n, In n (t_alive t) -> exists v, t_state t n = Some v;
  co_apart : forall n m v w, In n (t_alive t) -> In m (t_alive t) -> t_state t n = Some v -> t_state t m = Some w -> eqv v w = true -> n = m;
  co_map : forall v o, In (v, o) (t_map t) <-> exists n, o = Some n /\ In n (t_alive t) /\ t_state t n = Some v;
  co_size : length (t_map t) = length (t_alive t);
  co_points : t_points t = t_alive t
}.

(** When a call is legitimate: the root is created in an empty tree, pointers are to nodes of the tree, the nearest node is asked of a tree that
    is not empty, and a node is not made its own parent. *)
Definition tallowed (t : tmem V) (x : top V) : Prop :=
  match x with
  | OCreate _ => t_root t = None
  | OExtend _ (Some s) => In s (t_alive t)
  | OExtend _ None => t_root t <> None
  | OReparent c p => In c (t_alive t) /\ In p (t_alive t) /\ c <> p
  | ONearest _ => t_root t <> None
  | ONearests _ nn => nn = O \/ t_root t <> None
  | OBelongs n => In n (t_alive t)
  | OSize | OClear => True
  end.

(** flann returns indices of points. *)
Definition knn_in_range : Prop :=
  (forall vs v, vs <> [] -> knn1 vs v < length vs) /\ (forall vs v nn i, In i (knn vs v nn) -> i < length vs).

(** The trees reached by legitimate calls. *)
Inductive treached : tmem V -> Prop :=
| treached_new : treached t_new
| treached_step t x t' r : treached t -> tallowed t x -> tstep eqv knn1 knn t x = Ok (t', r) -> treached t'.

(** [n] is a node of the tree with state [v]. *)
Definition node_at (t : tmem V) (n : nat) (v : V) : Prop := In n (t_alive t) /\ t_state t n = Some v.

(** The nodes of [t] are nodes of [t'] with the same states and parents. *)
Definition kept (t t' : tmem V) : Prop :=
  forall n v, node_at t n v -> node_at t' n v /\ h_parent (t_heap t') n = h_parent (t_heap t) n.

(** flann's exact search: no point is nearer than the one returned; of several, each index comes once, as many as asked for and present, and no
    point left out is nearer than one returned. *)
Definition knn_exact (dist : V -> V -> R) : Prop :=
  (forall vs q w, nth_error vs (knn1 vs q) = Some w -> forall u, In u vs -> (dist w q <= dist u q)%R) /\
  (forall vs q nn, NoDup (knn vs q nn) /\ length (knn vs q nn) = Nat.min nn (length vs) /\
     forall i j u w, In i (knn vs q nn) -> ~ In j (knn vs q nn) -> nth_error vs i = Some u -> nth_error vs j = Some w -> (dist u q <= dist w q)%R).
End Spec.
