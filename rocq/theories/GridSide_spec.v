(** Vocabulary for the sides of a closed outline drawn on a grid. The centre of a cell is the point whose coordinates are its row
    and its column. *)
From Coq Require Import Reals.
From Verif Require Import Base Grid_model Grid_spec Raster_spec.
Open Scope Z_scope.

(** [l] lists cells from [p] to [q], or from [q] to [p], each touching the next one. *)
Definition chain (p q : cell) (l : list cell) : Prop :=
  ((hd_error l = Some p /\ last l p = q) \/ (hd_error l = Some q /\ last l q = p)) /\ consecutive touches l.

(** The lists [ls] join [v] to the first of [vs], and then each of [vs] to the next one, in the way [rel]; *)
Fixpoint joined (rel : cell -> cell -> list cell -> Prop) (v : cell) (vs : list cell) (ls : list (list cell)) : Prop :=
  match vs, ls with
  | [], [] => True
  | w :: vs', l :: ls' => rel v w l /\ joined rel w vs' ls'
  | _, _ => False
  end.
(** they close up. *)
Definition loop (rel : cell -> cell -> list cell -> Prop) (vs : list cell) (ls : list (list cell)) : Prop :=
  match vs with
  | [] => ls = []
  | v :: r => joined rel v (r ++ [v]) ls
  end.
(** A closed outline, and the drawing of the polygon of the vertices [vs]: one gap-free line for each edge (see Raster_spec.v). *)
Definition outline : list cell -> list (list cell) -> Prop := loop chain.
Definition draws_polygon : list cell -> list (list cell) -> Prop := loop discrete_line.

(** Even-odd rule. The half-line starts at the centre of [c], goes towards the larger columns, and is lifted a little towards the
    larger rows, so that it meets no centre. The segment between the centres of the touching cells [a] and [b] crosses it if one of
    them is in the row of [c], on a larger column, and the other one in the next row. *)
Definition crosses (c a b : cell) : bool :=
  (row a =? row c) && (row b =? row c + 1) && (col c <? col a) ||
  (row b =? row c) && (row a =? row c + 1) && (col c <? col b).
Fixpoint crossings (c : cell) (l : list cell) : nat :=
  match l with
  | a :: ((b :: _) as l') => (if crosses c a b then 1 else 0) + crossings c l'
  | _ => 0
  end.
(** [c] is enclosed by the outline if the half-line crosses it an odd number of times. *)
Definition enclosed (ls : list (list cell)) (c : cell) : bool :=
  Nat.odd (list_sum (map (crossings c) ls)).

(** The points between the centres of [a] and [b]. *)
Definition between (a b : cell) (x y : R) : Prop :=
  exists t, (0 <= t <= 1)%R /\ x = (IZR (row a) + t * (IZR (row b) - IZR (row a)))%R /\ y = (IZR (col a) + t * (IZR (col b) - IZR (col a)))%R.
(** [b] comes right after [a] in [l]. *)
Definition next (l : list cell) (a b : cell) : Prop := exists l1 l2, l = l1 ++ a :: b :: l2.
(** The polygonal line through the centres of the cells [l]. *)
Definition on_line (l : list cell) (x y : R) : Prop :=
  exists a b, (next l a b \/ (In a l /\ a = b)) /\ between a b x y.

(** The cells of the outline that are on the map are occupied. *)
Definition walled (rows columns : Z) (occ : cell -> bool) (ls : list (list cell)) : Prop :=
  forall l c, In l ls -> In c l -> inside rows columns c -> occ c = true.

(** The cells [path], all on the same side of the outline, are joined by lines that do not meet it. *)
Definition on_one_side (ls : list (list cell)) (path : list cell) : Prop :=
  (forall c d, In c path -> In d path -> enclosed ls c = enclosed ls d) /\
  (forall l x y, In l ls -> on_line l x y -> ~ on_line path x y).
