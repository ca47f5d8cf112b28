(** Vocabulary for rasterized lines. *)
From Verif Require Import Base Grid_model Grid_spec.
Open Scope Z_scope.

(** Consecutive elements are related. *)
Fixpoint consecutive {T} (rel : T -> T -> Prop) (l : list T) : Prop :=
  match l with
  | a :: ((b :: _) as l') => rel a b /\ consecutive rel l'
  | _ => True
  end.

(** The larger of the two coordinate differences. *)
Definition major (p q : cell) : Z := Z.max (Z.abs (row q - row p)) (Z.abs (col q - col p)).

(** [c] deviates from the straight line through [p] and [q] by at most half a cell, measured along the minor
    axis: the cross product of (c - p) and (q - p), divided by the major length, is at most 1/2. *)
Definition near_line (p q c : cell) : Prop :=
  2 * Z.abs ((row c - row p) * (col q - col p) - (col c - col p) * (row q - row p)) <= major p q.

(** The coordinates along the major axis. *)
Definition major_coord (p q c : cell) : Z :=
  if Z.abs (col q - col p) >? Z.abs (row q - row p) then col c else row c.

(** [l] is a gap-free discrete line between [p] and [q]. *)
Record discrete_line (p q : cell) (l : list cell) : Prop := {
  dl_length : Z.of_nat (length l) = major p q + 1;
  dl_ends : (hd_error l = Some p /\ last l p = q) \/ (hd_error l = Some q /\ last l q = p);
  dl_connected : consecutive touches l;
  dl_monotone : consecutive (fun a b => major_coord p q b = major_coord p q a + 1) l;
  dl_near : forall c, In c l -> near_line p q c
}.
