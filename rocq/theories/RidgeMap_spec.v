(** Specification vocabulary for the Voronoi diagram of an obstacle list. *)
From Verif Require Import Base Grid_model Coords_model Shape_model World_model World_spec.

(** The obstacles that these calls add; those in [reg] are on the map already, and are not added again. *)
Fixpoint added (reg : list nat) (ops : list wop) : list (nat * obst) :=
  match ops with
  | [] => []
  | x :: r =>
      match x with
      | WAdd o y => if in_dec Nat.eq_dec o reg then [] else [(o, y)]
      | _ => []
      end ++ added (registered_step reg x) r
  end.

(** No obstacle is removed, and the map keeps its size. *)
Definition only_adds (ops : list wop) : Prop :=
  Forall (fun x => match x with WSize _ _ | WRemove _ _ => False | _ => True end) ops.

(** The outlines of different obstacles have no cell in common. *)
Definition no_common_cell (f : frames) (xs : list (nat * obst)) : Prop :=
  forall o y o' y' c, In (o, y) xs -> In (o', y') xs -> o <> o' -> draws f y c = true -> draws f y' c = true -> False.
