(** Model of [Node<T>], /repo/planner/src/utils/node.h: nodes are addresses (natural numbers) in a heap with parent
    pointers and vectors of owned children. The data of the nodes plays no role and is left out. A node without parent is
    owned by a [Scope] held outside the tree. *)
From Verif Require Import Base.

(** node.h:231-232: [m_parent] and [m_children]; addresses below [h_size] have been created. *)
Record heap := Heap { h_size : nat; h_parent : nat -> option nat; h_children : nat -> list nat }.

Definition upd {A} (f : nat -> A) (n : nat) (v : A) : nat -> A := fun m => if Nat.eqb m n then v else f m.

Definition h_empty : heap := Heap 0 (fun _ => None) (fun _ => []).

(** node.h:16-21, a new node owned by a scope. *)
Definition new_node (h : heap) : heap * nat :=
  (Heap (S (h_size h)) (upd (h_parent h) (h_size h) None) (upd (h_children h) (h_size h) []), h_size h).

(** node.h:131-137, [AddChild]: [p] becomes the owner of [n]. *)
Definition add_child (h : heap) (p n : nat) : heap :=
  Heap (h_size h) (upd (h_parent h) n (Some p)) (upd (h_children h) p (h_children h p ++ [n])).

(** Erase the first occurrence. *)
Fixpoint erase_first (n : nat) (l : list nat) : list nat :=
  match l with
  | [] => []
  | m :: r => if Nat.eqb m n then r else m :: erase_first n r
  end.
(** Replace the first occurrence. *)
Fixpoint replace_first (n v : nat) (l : list nat) : list nat :=
  match l with
  | [] => []
  | m :: r => if Nat.eqb m n then v :: r else m :: replace_first n v r
  end.

(** node.h:146-160, [RemoveChild]: [None] if [n] is not a child of [p] (an assertion fails, or an empty scope is
    returned if assertions are off). Otherwise the caller owns [n]. *)
Definition remove_child (h : heap) (p n : nat) : option heap :=
  if existsb (Nat.eqb n) (h_children h p) then
    Some (Heap (h_size h) (upd (h_parent h) n None) (upd (h_children h) p (erase_first n (h_children h p))))
  else None.

(** node.h:171-192, [ReplaceChild]. The previous children of [changeling] are destroyed by the assignment of
    line 182: here they are no longer in any list. *)
Definition replace_child (h : heap) (p brat changeling : nat) (adopt : bool) : option heap :=
  if existsb (Nat.eqb brat) (h_children h p) then
    let par1 := upd (h_parent h) brat None in
    let par2 := if adopt then fun m => if existsb (Nat.eqb m) (h_children h brat) then Some changeling else par1 m else par1 in
    let ch2 := if adopt then upd (upd (h_children h) changeling (h_children h brat)) brat [] else h_children h in
    Some (Heap (h_size h) (upd par2 changeling (Some p)) (upd ch2 p (replace_first brat changeling (h_children h p))))
  else None.

(** node.h:50-57, [GetDepth]. *)
Fixpoint depth_from (fuel : nat) (h : heap) (o : option nat) : res nat :=
  match fuel with
  | O => NoFuel
  | S k => match o with
           | None => Ok O
           | Some p => do d <- depth_from k h (h_parent h p); Ok (S d)
           end
  end.
Definition get_depth (fuel : nat) (h : heap) (n : nat) : res nat := depth_from fuel h (h_parent h n).

(** node.h:110-119, [IsDescendantOf]. *)
Fixpoint descendant_from (fuel : nat) (h : heap) (o : option nat) (node : nat) : res bool :=
  match fuel with
  | O => NoFuel
  | S k => match o with
           | None => Ok false
           | Some p => if Nat.eqb p node then Ok true else descendant_from k h (h_parent h p) node
           end
  end.
Definition is_descendant_of (fuel : nat) (h : heap) (n node : nat) : res bool :=
  descendant_from fuel h (h_parent h n) node.

(** RemoveChild by a possibly null parent, giving the scope. *)
Definition take_child (h : heap) (p : option nat) (n : nat) : res heap :=
  match p with
  | None => UB
  | Some q => match remove_child h q n with Some h' => Ok h' | None => Throw end
  end.

(** node.h:203-225, [Reparent]; [root] is what the scope [rootNode] owns. A moved-from scope is null, and adding a
    null scope dereferences it. *)
Definition reparent (fuel : nat) (h : heap) (child newParent : nat) (root : option nat) : res (heap * option nat) :=
  let oldParent := h_parent h child in
  do x <- match oldParent with
          | Some q => do h' <- take_child h (Some q) child; Ok (h', Some child, root)
          | None => Ok (h, root, None)
          end;
  let '(h1, childScope, root1) := x in
  do desc <- is_descendant_of fuel h1 newParent child;
  do y <- (if desc then
             do h' <- take_child h1 (h_parent h1 newParent) newParent;
             match oldParent with
             | Some q => Ok (add_child h' q newParent, root1)
             | None => Ok (h', Some newParent)
             end
           else Ok (h1, root1));
  let '(h2, root2) := y in
  match childScope with
  | None => UB
  | Some c => Ok (add_child h2 newParent c, root2)
  end.

(** node.h:28-34, [PreOrderTraversal]: the nodes in the order they are visited. *)
Fixpoint preorder (fuel : nat) (h : heap) (n : nat) : res (list nat) :=
  match fuel with
  | O => NoFuel
  | S k =>
    do l <- fold_right (fun c acc => do l <- acc; do lc <- preorder k h c; Ok (lc ++ l)) (Ok []) (h_children h n);
    Ok (n :: l)
  end.
(** node.h:40-46, [PostOrderTraversal]. *)
Fixpoint postorder (fuel : nat) (h : heap) (n : nat) : res (list nat) :=
  match fuel with
  | O => NoFuel
  | S k =>
    do l <- fold_right (fun c acc => do l <- acc; do lc <- postorder k h c; Ok (lc ++ l)) (Ok []) (h_children h n);
    Ok (l ++ [n])
  end.

(** node.h:70-79, [GetPrevious], and 83-92, [GetNext] (which runs backwards), on the vector of siblings. *)
Fixpoint prev_in (n : nat) (prev : option nat) (l : list nat) : option nat :=
  match l with
  | [] => prev   (* not found: the element before end() *)
  | m :: r => if Nat.eqb m n then prev else prev_in n (Some m) r
  end.
Definition get_previous (h : heap) (n : nat) : option nat :=
  match h_parent h n with
  | None => None
  | Some p => prev_in n None (h_children h p)
  end.
Definition get_next (h : heap) (n : nat) : option nat :=
  match h_parent h n with
  | None => None
  | Some p => prev_in n None (rev (h_children h p))
  end.

(** Histories. Each operation carries the precondition of its call, see Node_spec.v. *)
Inductive nop :=
| NNew
| NAdd (p n : nat)
| NRemove (p n : nat)
| NReplace (p brat changeling : nat) (adopt : bool)
| NReparent (child newParent : nat).

(** One call. Calls that fail leave the heap as it was. [Reparent] is given the scope owning [child] if it is a root. *)
Definition nstep (fuel : nat) (h : heap) (x : nop) : res heap :=
  match x with
  | NNew => Ok (fst (new_node h))
  | NAdd p n => Ok (add_child h p n)
  | NRemove p n => match remove_child h p n with Some h' => Ok h' | None => Ok h end
  | NReplace p b c a => match replace_child h p b c a with Some h' => Ok h' | None => Ok h end
  | NReparent c np =>
    do r <- reparent fuel h c np (match h_parent h c with None => Some c | Some _ => None end);
    Ok (fst r)
  end.
