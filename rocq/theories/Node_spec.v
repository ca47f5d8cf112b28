(** What a forest of nodes is. *)
From Verif Require Import Base Node_model.

(** [owns h a n]: [n] is [a] or is owned by it through vectors of children. *)
Inductive owns (h : heap) (a : nat) : nat -> Prop :=
| owns_self : owns h a a
| owns_child p n : owns h a p -> In n (h_children h p) -> owns h a n.

(** [above h a n]: [a] is met when following parent pointers from [n], itself excluded. *)
Inductive above (h : heap) : nat -> nat -> Prop :=
| above_parent n p : h_parent h n = Some p -> above h p n
| above_step n p a : h_parent h n = Some p -> above h a p -> above h a n.

(** Number of ancestors; in particular, the chain of parents ends. *)
Inductive ancestors (h : heap) : nat -> nat -> Prop :=
| anc_root n : h_parent h n = None -> ancestors h n 0
| anc_child n p d : h_parent h n = Some p -> ancestors h p d -> ancestors h n (S d).

(** A forest: a child's parent is the node that owns it, each child is listed once, chains of parents end. *)
Record forest (h : heap) : Prop := {
  fo_links : forall n p, h_parent h n = Some p <-> In n (h_children h p);
  fo_once : forall p, NoDup (h_children h p);
  fo_ends : forall n, exists d, ancestors h n d;
  fo_alloc : forall n p, h_parent h n = Some p -> n < h_size h /\ p < h_size h
}.

(** When a call is legitimate. A node passed in a [Scope] has no parent, and is not an ancestor of its new parent
    (it would own itself). The replacing node has no children if it is to receive those of the replaced
    node. A node is not made its own parent. *)
Definition allowed (h : heap) (x : nop) : Prop :=
  match x with
  | NNew => True
  | NAdd p n => n < h_size h /\ p < h_size h /\ h_parent h n = None /\ ~ owns h n p
  | NRemove p n => n < h_size h /\ p < h_size h
  | NReplace p b c adopt => b < h_size h /\ p < h_size h /\ c < h_size h /\ h_parent h c = None /\ ~ owns h c p /\
      (adopt = true -> h_children h c = [])
  | NReparent c np => c < h_size h /\ np < h_size h /\ c <> np
  end.

(** Heaps reached by legitimate calls (with enough fuel to follow the chains). *)
Inductive reached : heap -> Prop :=
| reached_empty : reached h_empty
| reached_step h x fuel h' : reached h -> allowed h x -> nstep fuel h x = Ok h' -> reached h'.

(** [a] comes before [b] in [l]. *)
Definition before (l : list nat) (a b : nat) : Prop := exists l1 l2 l3, l = l1 ++ a :: l2 ++ b :: l3.

(** What both traversals guarantee: each node of the subtree is visited once, and siblings are visited in order, with
    all that is below them. *)
Definition visits (h : heap) (n : nat) (l : list nat) : Prop :=
  (forall m, In m l <-> owns h n m) /\ NoDup l /\
  (forall p x y a b, owns h n p -> before (h_children h p) x y -> owns h x a -> owns h y b -> before l a b).

(** What [Reparent] should do. [child] ends up below [newParent]. If [newParent] was below [child], it takes the place
    of [child]. No other node changes parent. The scope of the root follows. *)
Definition reparent_effect (h : heap) (c np : nat) (root : option nat) (h' : heap) (root' : option nat) : Prop :=
  h_size h' = h_size h /\
  h_parent h' c = Some np /\
  (above h c np -> h_parent h' np = h_parent h c) /\
  (forall m, m <> c -> m <> np \/ ~ above h c np -> h_parent h' m = h_parent h m) /\
  (h_parent h c <> None -> root' = root) /\
  (h_parent h c = None -> above h c np -> root' = Some np) /\
  (h_parent h c = None -> ~ above h c np -> root' = None).
