(** What the calls made to an obstacle map mean, independently of its data structures. *)
From Verif Require Import Base Grid_model Grid_spec ObstacleMap_model.
Open Scope Z_scope.

(** Which obstacles are registered after a history. *)
Fixpoint registered_after (reg : list nat) (ops : list op) : list nat :=
  match ops with
  | [] => reg
  | OInit _ _ :: r => registered_after reg r
  | OAdd o _ :: r => registered_after (if in_dec Nat.eq_dec o reg then reg else o :: reg) r
  | ORemove o _ :: r => registered_after (remove Nat.eq_dec o reg) r
  end.

(** The smallest natural number not in a set. *)
Definition smallest_unused (ids : list Z) (i : Z) : Prop :=
  0 <= i /\ ~ In i ids /\ forall j, 0 <= j < i -> In j ids.

(** Every obstacle cell lies in the map as it is at the time of the call; sizes are positive; the size is set before
    obstacles are added. *)
Fixpoint well_used (size : option (Z * Z)) (ops : list op) : Prop :=
  match ops with
  | [] => True
  | OInit m n :: r => 0 < m /\ 0 < n /\ well_used (Some (m, n)) r
  | OAdd _ cells :: r | ORemove _ cells :: r =>
    match size with
    | None => False
    | Some (m, n) => Forall (inside m n) cells /\ well_used size r
    end
  end.
Fixpoint final_size (size : option (Z * Z)) (ops : list op) : option (Z * Z) :=
  match ops with
  | [] => size
  | OInit m n :: r => final_size (Some (m, n)) r
  | _ :: r => final_size size r
  end.

(** The last obstacle whose effective addition marked cell [c] since it was last cleared: by an effective removal
    of any obstacle with [c] among its cells, or by setting the size. *)
Fixpoint marked_by (c : cell) (reg : list nat) (mark : option nat) (ops : list op) : option nat :=
  match ops with
  | [] => mark
  | OInit _ _ :: r => marked_by c reg None r
  | OAdd o cells :: r =>
    if in_dec Nat.eq_dec o reg then marked_by c reg mark r
    else marked_by c (o :: reg) (if existsb (cell_eqb c) cells then Some o else mark) r
  | ORemove o cells :: r =>
    if in_dec Nat.eq_dec o reg then
      marked_by c (remove Nat.eq_dec o reg) (if existsb (cell_eqb c) cells then None else mark) r
    else marked_by c reg mark r
  end.

(** In a history where obstacles do not move, the cells given for [o] are always [shape o] and the size is not
    changed. *)
Definition static (shape : nat -> list cell) (ops : list op) : Prop :=
  Forall (fun x => match x with
                   | OInit _ _ => False
                   | OAdd o cells | ORemove o cells => cells = shape o
                   end) ops.
Definition mentions (ops : list op) (o : nat) : Prop :=
  Exists (fun x => match x with OInit _ _ => False | OAdd o' _ | ORemove o' _ => o' = o end) ops.
