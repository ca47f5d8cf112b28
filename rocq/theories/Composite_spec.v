(** What a user expects of a sequence of paths. *)
From Coq Require Import Reals.
From Verif Require Import Base RealBase Bicycle_model Composite_model.
Local Open Scope R_scope.

Section Composite.
Variables State Part : Type.
Variable part_length : Part -> R.
Variable part_final : Part -> State.
Variable part_at : Part -> R -> res State.
Variable part_truncate : Part -> R -> Part.

(** Length of a sequence. *)
Fixpoint total (l : list Part) : R := match l with [] => 0 | p :: r => part_length p + total r end.

(** The composite of a sequence of parts. *)
Definition compose (dflt : State) (parts : list Part) : composite State Part :=
  fold_left (push_back State Part part_length part_final) parts (k_new State Part dflt).

(** Going the length [d] along the sequence leads into the part [p], at the ratio [s]. *)
Definition arrives (parts : list Part) (d : R) (p : Part) (s : R) : Prop :=
  exists before after, parts = before ++ p :: after /\ 0 <= s <= 1 /\ total before + s * part_length p = d.

(** Each part starts where the one before ends; a part without length does not move. *)
Fixpoint chained (l : list Part) : Prop :=
  match l with
  | [] => True
  | p :: r =>
      (part_length p = 0 -> forall s, 0 <= s <= 1 -> part_at p s = part_at p 0) /\
      match r with [] => True | q :: _ => part_at p 1 = part_at q 0 end /\ chained r
  end.

(** Truncating a part keeps its beginning. *)
Definition truncates (p : Part) : Prop :=
  forall r, 0 <= r <= 1 -> part_length (part_truncate p r) = r * part_length p /\
    (forall s, 0 <= s <= 1 -> part_at (part_truncate p r) s = part_at p (r * s)).

(** The composites a user can hold: parts put together, truncated any number of times. *)
Inductive kbuilt (good : Part -> Prop) : composite State Part -> Prop :=
| kb_compose dflt parts : (forall p, In p parts -> good p) -> kbuilt good (compose dflt parts)
| kb_truncate c r c' : kbuilt good c -> 0 <= r <= 1 ->
    k_truncate State Part part_length part_final part_truncate c r = Ok c' -> kbuilt good c'.

(** Paths that truncation handles well. *)
Definition lawful (good : Part -> Prop) : Prop :=
  forall p, good p -> 0 <= part_length p /\ truncates p /\ forall r, 0 <= r <= 1 -> good (part_truncate p r).
End Composite.
