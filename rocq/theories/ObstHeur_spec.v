(** What a user expects of the obstacle heuristic. *)
From Coq Require Import Reals.
From Verif Require Import Base RealBase Grid_model Grid_spec AStarN2_spec Coords_model ObstHeur_model.
Open Scope Z_scope.

(** Arithmetic without rounding: the values [val] stand for add up and compare like real numbers. *)
Record exact {C : Type} (ltb : C -> C -> bool) (add : C -> C -> C) (zero one diag : C) (val : C -> R) : Prop := {
  ex_ltb : forall a b, ltb a b = true <-> (val a < val b)%R;
  ex_add : forall a b, val (add a b) = (val a + val b)%R;
  ex_zero : val zero = 0%R;
  ex_one : val one = 1%R;
  ex_diag : val diag = sqrt 2
}.

(** The length of a step between touching cells. *)
Definition octile (p q : cell) : R := if (row p =? row q) || (col p =? col q) then 1%R else sqrt 2.

(** The occupancy function answers for all cells of the map. *)
Definition answers (rows columns : Z) (occ : cell -> res bool) (o : cell -> bool) : Prop :=
  forall c, inside rows columns c -> occ c = Ok (o c).

(** The distance between two cells of a map without obstacles: diagonal steps as long as possible, then straight ones. *)
Definition octile_distance (p q : cell) : R :=
  let a := Z.abs (row p - row q) in
  let b := Z.abs (col p - col q) in
  (IZR (Z.max a b - Z.min a b) + sqrt 2 * IZR (Z.min a b))%R.

(** The states of a heuristic made for a map of this size, after any history of updates. *)
Inductive updated {C : Type} (ltb : C -> C -> bool) (add : C -> C -> C) (zero one diag : C) (rows columns : Z) : ostate C -> Prop :=
  | updated_new st : oh_new rows columns = Ok st -> updated ltb add zero one diag rows columns st
  | updated_again st fuel occ start st' : updated ltb add zero one diag rows columns st ->
      oh_update ltb add zero one diag fuel rows columns occ start st = Ok st' -> updated ltb add zero one diag rows columns st'.

(** Numbers [a + b * sqrt 2], to compute with. *)
Definition zr2 : Type := Z * Z.
Definition zr2_val (x : zr2) : R := (IZR (fst x) + IZR (snd x) * sqrt 2)%R.
Definition zr2_add (x y : zr2) : zr2 := (fst x + fst y, snd x + snd y).
Definition zr2_ltb (x y : zr2) : bool :=
  let a := fst y - fst x in
  let b := snd y - snd x in
  if 0 <=? a then if 0 <=? b then (0 <? a) || (0 <? b) else 2 * (b * b) <? a * a
  else if 0 <=? b then a * a <? 2 * (b * b) else false.
